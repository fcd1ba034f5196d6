(** The [#[regex]] attribute macro (C55). *)
From Coq Require Import String.
From Verif Require Import PAttr.
Open Scope nat_scope.
Open Scope list_scope.

(** C55.  The attribute accepts tuple structs only, with one field for each capture, an [Option] for each optional group and a string
    for each of the others. *)
Theorem C55_fields : forall s it en opts, attr_macro s it = Ok (en, opts) <->
  attr_compile s = Ok (en, opts) /\ it = IStruct (FUnnamed (map (fun opt : bool => if opt then FieldOption else FieldStr) opts)).
Proof. exact attr_accepts. Qed.
Print Assumptions C55_fields.
Example C55_fields_case :
  (do r <- attr_macro (s2l "(a)(b|(c))?") (IStruct (FUnnamed [FieldStr; FieldStr; FieldOption; FieldOption])); Ok (snd r)) = Ok [false; false; true; true] /\
  map (fun it => do r <- attr_macro (s2l "(a)(b|(c))?") it; Ok (snd r))
    [IEnum; IStruct FUnit; IStruct (FNamed [FieldStr; FieldStr; FieldOption; FieldOption]); IStruct (FUnnamed [FieldStr; FieldStr; FieldOption]); IStruct (FUnnamed [FieldStr; FieldOption; FieldOption; FieldOption]);
     IStruct (FUnnamed [FieldStr; FieldStr; FieldOption; FieldOther])]
  = [NoCompile; NoCompile; NoCompile; NoCompile; NoCompile; NoCompile].
Proof. split; vm_compute; reflexivity. Qed.
(** There is a field for every group that takes part in some match, and none for more than the groups of the pattern. *)
Theorem C55_room : forall s it en opts e, attr_macro s it = Ok (en, opts) -> Forall scalar s -> G_ere e s ->
  List.length opts <= S (groups e) /\ forall T i j L k, Forall scalar T -> matches T e i j L -> last_of k L <> None -> k < List.length opts.
Proof.
  intros s it en opts e H Hs Hg. apply attr_accepts in H as [H _]. split.
  - destruct (attr_length s en opts H) as [Hc ->]. destruct (compiled_counted s en Hc Hs) as (e' & Hg' & Hn). assert (e' = e) as -> by (eapply grammar_unique; eauto). now apply counted_bound.
  - intros T i j L k HT Hm Hk. eapply attr_room; eauto.
Qed.
Print Assumptions C55_room.
(** [exec] hands over the captures of the engine as they are; a string field always has a string. *)
Theorem C55_values : forall s it en opts T, attr_macro s it = Ok (en, opts) -> Forall scalar s -> Forall scalar T ->
  attr_exec en opts T = engine_exec en T /\ attr_test en T = engine_test en T /\
  forall cs k, engine_exec en T = Ok (Some cs) -> nth_error opts k = Some false -> exists sp, nth_error cs k = Some (Some sp).
Proof.
  intros s it en opts T H Hs HT. apply attr_accepts in H as [H _]. split; [eapply attr_same; eauto|]. split; [reflexivity|]. intros cs k Ex Hk. eapply attr_string; eauto.
Qed.
Print Assumptions C55_values.
Example C55_values_case : (do r <- attr_macro (s2l "(a)(b|(c))?") (IStruct (FUnnamed [FieldStr; FieldStr; FieldOption; FieldOption])); attr_exec (fst r) (snd r) (s2l "zac"))
  = Ok (Some [Some (1, 3); Some (1, 2); Some (2, 3); Some (2, 3)]).
Proof. vm_compute. reflexivity. Qed.
(** C56.  A pattern taken by the macro [compile_regex!] can be used in an attribute, if the engine is not a plain DFA and the last group takes
    part in some match.  (Missing: plain DFAs, which may count fewer groups than the automaton; groups that never take part.) *)
Theorem C56_usable_partial : forall s en e T i j L, compile_regex s = Ok en -> Forall scalar s -> G_ere e s -> ~ is_dfa en -> Forall scalar T -> matches T e i j L -> last_of (groups e) L <> None ->
  exists it opts, attr_macro s it = Ok (en, opts) /\ List.length opts = S (groups e).
Proof.
  intros s en e T i j L H Hs Hg Hd HT Hm Hk. destruct (attr_possible s en e T i j L H Hs Hg Hd HT Hm Hk) as (opts & Eo). exists (IStruct (FUnnamed (map field_of opts))), opts. split; [apply attr_accepts; auto|].
  destruct (attr_length s en opts Eo) as [Hc ->]. destruct (compiled_counted s en Hc Hs) as (e' & Hg' & Hn). assert (e' = e) as -> by (eapply grammar_unique; eauto).
  apply Nat.le_antisymm; [now apply counted_bound|]. eapply counted_uses; eauto.
Qed.
Print Assumptions C56_usable_partial.
Example C56_case : with_ere (s2l "^(a)(b|(c))?$") (fun e => do en <- compile_regex (s2l "^(a)(b|(c))?$"); do x <- engine_exec en (s2l "ac"); Ok (match en with EDfa _ => true | _ => false end, groups e, x))
  = Ok (false, 3, Some [Some (0, 2); Some (0, 1); Some (1, 2); Some (1, 2)]).
Proof. vm_compute. reflexivity. Qed.
(** In general it is not so: for [(|())] no struct will do. *)
Theorem C56_refuted : exists s en, Forall scalar s /\ compile_regex s = Ok en /\ forall it, attr_macro s it = NoCompile.
Proof.
  assert (H : exists en, compile_regex (s2l "(|())") = Ok en) by (eexists; vm_compute; reflexivity). destruct H as (en & H). exists (s2l "(|())"), en. split; [repeat constructor|]. split; [assumption|].
  intros [ | |[l|[|a [|b [|c [|d l]]]]| ]]; vm_compute; reflexivity.
Qed.
Print Assumptions C56_refuted.
