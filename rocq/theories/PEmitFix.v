(** The programs written for every macro against the engines of the model. *)
From Verif Require Export GenFn PEmitFn PEmitAll POutcome.
From Coq Require Import ZifyBool ZifyNat ZifyN.
Open Scope nat_scope.
Open Scope list_scope.
Set Default Proof Using "Type".

Lemma ok_inj {A} (x y : A) : Ok x = Ok y -> x = y.
Proof. intros H. now injection H. Qed.
Lemma fun_fit_tables n tab runs : ok n -> 1 <= length n -> groups_ok n -> (forall s t r, In (t, r) (trans (get n s)) -> byte_ok r) -> tables n tab ->
  compute_runs (op_syms tab) = Ok runs -> fun_fit n tab runs.
Proof.
  intros Hok Hlen Hg Hb HT Er. assert (HV := vm_fit_tables n tab (ok_wf _ Hok) Hlen Hb HT). constructor.
  - rewrite (compute_runs_length _ _ Er). apply (t_syms_len _ _ HT).
  - intros s r tu Hin. destruct (f_to _ _ HV s r tu Hin) as (_ & _ & H3 & H4). split; [|assumption]. assumption.
  - intros s tu Hin. exact (f_acc _ _ HV s tu Hin).
  - intros s r Hs E. assert (G := compute_runs_spec n Hok Hlen Hg tab HT runs Er s). rewrite E in G. destruct (G Hs) as (_ & G2 & G3 & _). rewrite G2. auto.
Qed.
Lemma fun_program_gives n tab runs : fun_fit n tab runs -> pg_ok (fun_program n tab runs) = fun_compiles n tab runs /\
  (fun_compiles n tab runs = true -> gives (fun_program n tab runs) (EOnePass (mkEngine (num_capture_groups n) tab (OpFun runs)))).
Proof.
  intros HF. cbn [pg_ok fun_program]. split.
  - rewrite fun_exec_accepts, fun_outer_accepts by assumption. destruct (fun_compiles n tab runs) eqn:E; [|now rewrite andb_false_r]. now rewrite fun_test_accepts.
  - intros Ho. split; [reflexivity|]. intros T. cbn [pg_test pg_exec fun_program engine_test engine_exec]. unfold op_test, op_exec. cbn [op_k op_tab op_groups].
    rewrite fun_test_prog_run, fun_exec_run by assumption. split; [reflexivity|].
    destruct (fun_exec _ _ _ _ _ _ _ _); reflexivity.
Qed.
Lemma fixed_program_gives g offs p b : length offs = g -> pg_ok p = true -> gives p b -> pg_ok (fixed_program g offs p) = true /\ gives (fixed_program g offs p) (EFixed b offs).
Proof.
  intros Hl Hp G. cbn [pg_ok fixed_program]. rewrite Hp, fixed_accepts. split; [cbn [andb]; now apply Nat.eqb_eq|]. split; [now symmetry|]. intros T. destruct (proj2 G T) as [G1 _].
  cbn [pg_test pg_exec fixed_program engine_test engine_exec]. split; [exact G1|]. rewrite G1. destruct (engine_test b T) as [m| | |]; cbn [bind]; try reflexivity. apply fixed_code_run.
Qed.

(** What is written for a macro, against what the model says of it *)
Definition agrees (p : res program) (c : res engine) : Prop :=
  match p with
  | Ok p => if pg_ok p then exists en, c = Ok en /\ gives p en else c = NoCompile
  | Panic => c = Panic | Fuel => c = Fuel | NoCompile => c = NoCompile
  end.
Section Write.
  Variables (e : ere) (u : nfa range).
  Hypothesis Hm : byte_automaton_of e u.
  Lemma write_one_pass_agrees : (write_one_pass u = Ok None /\ op_make u = Ok None) \/
    exists p, write_one_pass u = Ok (Some p) /\ if pg_ok p then exists en, op_make u = Ok (Some en) /\ gives p (EOnePass en) else op_make u = NoCompile.
  Proof using Hm.
    destruct Hm as (M1 & M2 & M3 & M4 & M5 & M6 & M7). unfold op_make, write_one_pass. rewrite (proj2 (wfb_iff u) (ok_wf _ M1)), (wfb_tags_ok u M5). cbn [andb guard bind].
    destruct (op_analyse_spec u (ok_wf _ M1) M6) as (o & -> & Htab). cbn [bind]. destruct o as [tab|]; [|auto]. right.
    destruct (topological_spec u) as (o & -> & Hto); [now apply closed_wf, ok_wf|lia|]. cbn [bind]. destruct o as [ord|].
    - destruct Hto as (P & Hord & Hfrom & _). destruct (ranked u ord P Hord) as [K1 K2].
      destruct (fun_compiles_spec u M1 ltac:(lia) M5 tab Htab (fun x => idx x ord) K1 K2 Hfrom) as (runs & Er & _). rewrite Er. cbn [bind].
      exists (fun_program u tab runs). split; [reflexivity|]. destruct (fun_program_gives u tab runs (fun_fit_tables u tab runs M1 ltac:(lia) M5 M6 Htab Er)) as [G1 G2].
      rewrite G1. destruct (fun_compiles u tab runs); eauto.
    - exists (vm_program u tab). split; [reflexivity|]. destruct (vm_program_gives u tab (vm_fit_tables u tab (ok_wf _ M1) ltac:(lia) M6 Htab)) as [G1 G2].
      rewrite G1. destruct (vm_compiles u tab); eauto.
  Qed.
  Lemma write_dfa_agrees d : tdfa_from_nfa u (default_bound (length u)) = Ok (Some d) -> exists p, write_dfa d = Ok p /\ make_dfa d = Ok (EDfa d) /\ pg_ok p = true /\ gives p (EDfa d).
  Proof using Hm.
    intros Ed. assert (Hb := Hm). destruct Hm as (M1 & M2 & _). unfold write_dfa, make_dfa.
    destruct (dfa_engine_late u _ d [] (ok_wf _ M1) ltac:(lia) Ed ltac:(constructor)) as [(m & Ex & _) _]. rewrite Ex. cbn [bind].
    destruct (tdfa_from_nfa_spec u (ok_wf _ M1) ltac:(lia) (default_bound (length u))) as (o & Eo & Ho). rewrite Ed in Eo. apply ok_inj in Eo. subst o.
    destruct (dfa_program_gives u _ d m (ok_wf _ M1) ltac:(lia) Ho Ex) as [G1 G2]. eauto.
  Qed.
  Lemma write_flat_u8_agrees : exists p, write_flat_u8 u = Ok p /\ make_flat_u8 u = Ok (EFlatU8 u) /\ pg_ok p = true /\ gives p (EFlatU8 u).
  Proof using Hm.
    destruct Hm as (M1 & M2 & _ & _ & M5 & _). destruct (flat_made u M5 M1 ltac:(lia)) as (tbl & E1 & E2 & E3 & E4). unfold write_flat_u8, make_flat_u8. rewrite E1. cbn [bind]. rewrite E2, E3. cbn [bind].
    destruct (byte_program_gives u tbl E4 E3) as [G1 G2]. eauto.
  Qed.
End Write.
Lemma write_flat_agrees e n : automaton_of e n -> groups_ok n -> exists p, write_flat n = Ok p /\ make_flat n = (if pg_ok p then Ok (EFlat n) else NoCompile) /\ gives p (EFlat n).
Proof.
  intros (M1 & M2 & _) M5. destruct (flat_made n M5 M1 ltac:(lia)) as (tbl & E1 & E2 & E3 & E4). unfold write_flat, make_flat. rewrite E1. cbn [bind]. rewrite E2, E3. cbn [bind].
  destruct (char_program_gives n tbl E4 E3) as [G1 G2]. rewrite <- G1. eauto.
Qed.
Section Macro.
  Variables (s : list N) (e : ere).
  Hypothesis Hp : parse_str s = ROk e.
  Hypothesis Hs : Forall scalar s.
  (** Both without an automaton, or both with one *)
  Lemma base_agrees : (write_base e = Panic /\ pick_base_engine e = Panic) \/
    exists p u, write_base e = Ok (p, u) /\ byte_automaton_of e u /\ if pg_ok p then exists b, pick_base_engine e = Ok (b, u) /\ gives p b else pick_base_engine e = NoCompile.
  Proof using Hp Hs.
    unfold write_base, pick_base_engine. destruct (two_cases s e Hp Hs) as [(_ & n & En & Hn)|(_ & n & m & En & Hn & Hg & Em & Hm)]; rewrite En; cbn [bind].
    - left. destruct Hn as [->|[_ Eu]]; [split; reflexivity|]. rewrite Eu. cbn [bind]. split; reflexivity.
    - right. rewrite Em. cbn [bind]. destruct (write_one_pass_agrees e m Hm) as [[E1 E2]|(p & E1 & E2)]; rewrite E1; cbn [bind].
      + rewrite E2. cbn [bind]. destruct Hm as (M1 & M2 & M3). destruct (tdfa_from_nfa_spec m (ok_wf _ M1) ltac:(lia) (default_bound (length m))) as (o & Eo & _).
        assert (Hm : byte_automaton_of e m) by (split; auto). rewrite Eo. cbn [bind]. destruct o as [d|].
        * destruct (write_dfa_agrees e m Hm d Eo) as (p & -> & -> & G1 & G2). cbn [bind]. exists p, m. rewrite G1. split; [reflexivity|]. split; [assumption|]. eauto.
        * destruct (nfa_is_ascii n).
          -- destruct (write_flat_u8_agrees e m Hm) as (p & -> & -> & G1 & G2). cbn [bind]. exists p, m. rewrite G1. split; [reflexivity|]. split; [assumption|]. eauto.
          -- destruct (write_flat_agrees e n Hn Hg) as (p & -> & -> & G). cbn [bind]. exists p, m. split; [reflexivity|]. split; [assumption|]. destruct (pg_ok p); cbn [bind]; eauto.
      + exists p, m. split; [reflexivity|]. split; [assumption|]. destruct (pg_ok p); [destruct E2 as (en & -> & G); cbn [bind]; eauto|rewrite E2; reflexivity].
  Qed.
  Lemma fixed_length u offs : byte_automaton_of e u -> fixed_offsets u = Ok (Some offs) -> length offs = num_capture_groups u.
  Proof.
    clear Hp Hs s. intros (M1 & M2 & M3 & M4 & M5 & M6 & M7) Ef. destruct (fixed_offsets_spec u M6 (ok_wf _ M1) ltac:(lia) M5) as (o & Eo & Ho). rewrite Ef in Eo. apply ok_inj in Eo. subst o.
    destruct (proj1 (Ho offs) eq_refl) as (_ & (W0 & HW0) & Hall). rewrite <- (Hall W0 HW0), run_marks_length. apply repeat_length.
  Qed.
  Lemma fixed_agrees (none : bool) :
    agrees (do r <- write_base e; let '(b, u) := r in do o <- fixed_offsets u; match o with Some offs => Ok (fixed_program (num_capture_groups u) offs b) | None => if none then Ok b else NoCompile end)
           (do r <- pick_base_engine e; let '(b, u) := r in do o <- fixed_offsets u;
            match o with Some offs => if length offs =? num_capture_groups u then Ok (EFixed b offs) else NoCompile | None => if none then Ok b else NoCompile end).
  Proof using Hp Hs.
    destruct base_agrees as [[-> ->]|(p & u & -> & Hu & Hb)]; [reflexivity|]. cbn [bind].
    assert (Hf : exists o, fixed_offsets u = Ok o) by (destruct Hu as (M1 & M2 & M3 & M4 & M5 & M6 & M7); destruct (fixed_offsets_spec u M6 (ok_wf _ M1) ltac:(lia) M5) as (o & Eo & Ho); eauto).
    destruct Hf as (o & Ef). rewrite Ef. cbn [bind]. destruct (pg_ok p) eqn:Ep.
    - destruct Hb as (b & -> & G). cbn [bind]. rewrite Ef. cbn [bind]. destruct o as [offs|].
      + assert (Hl := fixed_length u offs Hu Ef). rewrite Hl, Nat.eqb_refl. destruct (fixed_program_gives _ offs p b Hl Ep G) as [G1 G2]. cbn [agrees]. rewrite G1. eauto.
      + destruct none; cbn [agrees]; [rewrite Ep; eauto|reflexivity].
    - rewrite Hb. cbn [bind]. destruct o as [offs|]; [cbn [agrees pg_ok fixed_program]; rewrite Ep; reflexivity|destruct none; cbn [agrees]; [rewrite Ep|]; reflexivity].
  Qed.
End Macro.
Lemma agrees_parse s (f : ere -> res program) (k : ere -> res engine) : (forall e, parse_str s = ROk e -> agrees (f e) (k e)) -> agrees (with_ere s f) (with_ere s k).
Proof. intros H. unfold with_ere. destruct (parse_str s) as [e|x|]; [now apply H|reflexivity|reflexivity]. Qed.
Lemma regex_agrees s : Forall scalar s -> agrees (gen_regex s) (compile_regex s).
Proof. intros Hs. apply agrees_parse. intros e Hp. exact (fixed_agrees s e Hp Hs true). Qed.
Lemma macro_fixed_agrees s : Forall scalar s -> agrees (gen_fixed s) (compile_fixed s).
Proof. intros Hs. apply agrees_parse. intros e Hp. exact (fixed_agrees s e Hp Hs false). Qed.
Lemma one_pass_agrees s : Forall scalar s -> agrees (gen_one_pass s) (compile_one_pass s).
Proof.
  intros Hs. apply agrees_parse. intros e Hp. destruct (two_cases s e Hp Hs) as [(_ & n & En & Hn)|(_ & n & m & En & Hn & Hg & Em & Hm)]; rewrite En; cbn [bind].
  - destruct Hn as [->|[_ Eu]]; [reflexivity|]. rewrite Eu. reflexivity.
  - rewrite Em. cbn [bind]. destruct (write_one_pass_agrees e m Hm) as [[-> ->]|(p & -> & E2)]; [reflexivity|]. cbn [bind agrees]. destruct (pg_ok p); [destruct E2 as (en & -> & G); cbn [bind]; eauto|rewrite E2; reflexivity].
Qed.
(** [gen_dfa] with the error of the macro for too many states *)
Lemma dfa_agrees s : Forall scalar s -> agrees (do p <- gen_dfa s; match p with Some p => Ok p | None => NoCompile end) (compile_dfa s).
Proof.
  intros Hs. unfold gen_dfa, compile_dfa, with_ere. destruct (parse_str s) as [e|x|] eqn:Hp; [|reflexivity..].
  destruct (two_cases s e Hp Hs) as [(_ & n & En & Hn)|(_ & n & m & En & Hn & Hg & Em & Hm)]; rewrite En; cbn [bind].
  - destruct Hn as [->|[_ Eu]]; [reflexivity|]. rewrite Eu. reflexivity.
  - rewrite Em. cbn [bind]. destruct (tdfa_settled e m (default_bound (length m)) Hm) as [(o & Ed)|Ed]; rewrite Ed; cbn [bind]; [|reflexivity]. destruct o as [d|]; [|reflexivity].
    destruct (write_dfa_agrees e m Hm d Ed) as (p & Ew & -> & G1 & G2). unfold write_dfa in Ew. destruct (dfa_from_tagged d) as [x| | |]; try discriminate Ew. cbn [bind] in Ew |- *. apply ok_inj in Ew. rewrite Ew. cbn [agrees]. rewrite G1. eauto.
Qed.
Lemma flat_u8_agrees s : Forall scalar s -> agrees (gen_flat_u8 s) (compile_flat_u8 s).
Proof.
  intros Hs. apply agrees_parse. intros e Hp. destruct (two_cases s e Hp Hs) as [(_ & n & En & Hn)|(_ & n & m & En & Hn & Hg & Em & Hm)]; rewrite En; cbn [bind].
  - destruct Hn as [->|[_ Eu]]; [reflexivity|]. rewrite Eu. reflexivity.
  - rewrite Em. cbn [bind]. destruct (write_flat_u8_agrees e m Hm) as (p & Ew & -> & G1 & G2). unfold write_flat_u8 in Ew. rewrite Ew. cbn [agrees]. rewrite G1. eauto.
Qed.
Lemma flat_agrees s : Forall scalar s -> agrees (gen_flat s) (compile_flat s).
Proof.
  intros Hs. apply agrees_parse. intros e Hp. destruct (two_cases s e Hp Hs) as [(_ & n & En & Hn)|(_ & n & m & En & Hn & Hg & Em & Hm)]; rewrite En; cbn [bind].
  - destruct Hn as [->|[Hne Eu]]; [reflexivity|]. destruct (parsed_working_ne s e Hp Hs n En Hne) as [Hn Hg].
    destruct (write_flat_agrees e n Hn Hg) as (p & Ew & -> & G). unfold write_flat in Ew. rewrite Ew. cbn [agrees]. destruct (pg_ok p); eauto.
  - destruct (write_flat_agrees e n Hn Hg) as (p & Ew & -> & G). unfold write_flat in Ew. rewrite Ew. cbn [agrees]. destruct (pg_ok p); eauto.
Qed.

(** ** Any of the six macros *)
Definition generated (s : list N) (p : program) : Prop :=
  gen_regex s = Ok p \/ gen_dfa s = Ok (Some p) \/ gen_flat s = Ok p \/ gen_flat_u8 s = Ok p \/ gen_one_pass s = Ok p \/ gen_fixed s = Ok p.
Lemma agrees_ok p c : agrees (Ok p) c -> pg_ok p = true -> exists en, c = Ok en /\ gives p en.
Proof. cbn [agrees]. intros H E. now rewrite E in H. Qed.
Lemma generated_compiled s p : Forall scalar s -> generated s p -> pg_ok p = true -> exists en, compiled s en /\ gives p en.
Proof.
  intros Hs H Ho. unfold compiled. destruct H as [H|[H|[H|[H|[H|H]]]]].
  - assert (G := regex_agrees s Hs). rewrite H in G. destruct (agrees_ok _ _ G Ho) as (en & E & G'). exists en. auto 12.
  - assert (G := dfa_agrees s Hs). rewrite H in G. destruct (agrees_ok _ _ G Ho) as (en & E & G'). exists en. auto 12.
  - assert (G := flat_agrees s Hs). rewrite H in G. destruct (agrees_ok _ _ G Ho) as (en & E & G'). exists en. auto 12.
  - assert (G := flat_u8_agrees s Hs). rewrite H in G. destruct (agrees_ok _ _ G Ho) as (en & E & G'). exists en. auto 12.
  - assert (G := one_pass_agrees s Hs). rewrite H in G. destruct (agrees_ok _ _ G Ho) as (en & E & G'). exists en. auto 12.
  - assert (G := macro_fixed_agrees s Hs). rewrite H in G. destruct (agrees_ok _ _ G Ho) as (en & E & G'). exists en. auto 12.
Qed.

(** ** The attribute *)
Definition field_ty (opt : bool) : ty := if opt then TOpt TStr else TStr.
Definition enc_field (opt : bool) (o : option span) : val := if opt then VOpt (option_map VStr o) else match o with Some sp => VStr sp | None => VOpt None end.
Definition enc_fields (opts : list bool) (o : option (list (option span))) : val :=
  VOpt (option_map (fun l => VArr (map (fun p : bool * option span => enc_field (fst p) (snd p)) (combine opts l))) o).
Lemma field_has g k opt t : Rust.has [] [(Xresult, TArr (TOpt TStr) g)] (field_code (k, opt)) t = (k <? g) && ty_eqb (field_ty opt) t.
Proof. unfold field_code. cbn [fst snd]. destruct opt; cbn [Rust.has infer look var_eqb field_ty]; destruct (k <? g); reflexivity. Qed.
Lemma fields_have g opts : forall k types, k + length opts <= g ->
  all2 (Rust.has [] [(Xresult, TArr (TOpt TStr) g)]) (map field_code (combine (seq k (length opts)) opts)) types = true <-> types = map field_ty opts.
Proof.
  induction opts as [|o opts IH]; intros k [|t types] Hk; cbn [length seq combine map all2] in *; try (split; [discriminate|discriminate]); [tauto|].
  rewrite andb_true_iff, IH, field_has by lia. replace (k <? g) with true by (symmetry; apply Nat.ltb_lt; lia). cbn [andb].
  split; [intros [H1 ->]|intros E; injection E as -> ->; split; [apply ty_refl|reflexivity]]. f_equal. destruct o, t; try discriminate H1; [|reflexivity]. destruct t; try discriminate H1. reflexivity.
Qed.
Lemma fields_run text cs : forall opts k, k + length opts <= length cs ->
  mapM (eval text [(Xresult, VArr (map (fun o => VOpt (option_map VStr o)) cs))]) (map field_code (combine (seq k (length opts)) opts))
  = do fs <- mapM (fun p : nat * bool => attr_field cs (fst p) (snd p)) (combine (seq k (length opts)) opts);
    Ok (map (fun p : bool * option span => enc_field (fst p) (snd p)) (combine opts fs)).
Proof.
  induction opts as [|o opts IH]; intros k Hk; [reflexivity|]. cbn [length seq combine map mapM fst snd] in *. rewrite IH by lia.
  assert (E : eval text [(Xresult, VArr (map (fun o => VOpt (option_map VStr o)) cs))] (EIdx (EVar Xresult) (ENum k)) = Ok (VOpt (option_map VStr (nth k cs None)))).
  { cbn [eval]. unfold getv. cbn [look var_eqb need bind as_list index]. rewrite (map_nth_error _ k cs (d := nth k cs None)) by (apply nth_error_nth'; lia). reflexivity. }
  assert (F : eval text [(Xresult, VArr (map (fun o => VOpt (option_map VStr o)) cs))] (field_code (k, o)) = do x <- attr_field cs k o; Ok (enc_field o x)).
  { unfold field_code, attr_field. cbn [fst snd]. destruct o; [rewrite E; destruct (nth k cs None); reflexivity|].
    change (eval text ?e (EExpect ?a)) with (do x <- eval text e a; match x with VOpt (Some v) => Ok v | VOpt None => @Panic val | _ => NoCompile end). rewrite E. cbn [bind]. destruct (nth k cs None); reflexivity. }
  rewrite F. destruct (attr_field cs k o) as [x| | |]; try reflexivity. cbn [bind]. destruct (mapM _ _); reflexivity.
Qed.
Lemma attr_run p en opts T : gives p en -> (forall cs, engine_exec en T = Ok (Some cs) -> length cs = length opts) ->
  (do v <- pg_exec p T; run_fields opts T v) = do r <- attr_exec en opts T; Ok (enc_fields opts r).
Proof.
  intros G Hl. destruct (proj2 G T) as [_ ->]. unfold attr_exec. destruct (engine_exec en T) as [[cs|]| | |]; try reflexivity. specialize (Hl cs eq_refl). cbn [bind enc_result option_map run_fields]. unfold enumerate.
  rewrite fields_run by lia. destruct (mapM _ _); reflexivity.
Qed.
Lemma mapM_len {A B} (f : A -> res B) l : forall m, mapM f l = Ok m -> length m = length l.
Proof.
  induction l as [|x l IH]; intros m H; cbn [mapM] in H; [injection H as <-; reflexivity|]. destruct (f x); try discriminate H. cbn [bind] in H. destruct (mapM f l) as [k| | |]; try discriminate H. cbn [bind] in H. apply ok_inj in H. subst m. cbn [length]. f_equal. now apply IH.
Qed.
Lemma write_engine_agrees s e : parse_str s = ROk e -> Forall scalar s -> agrees (write_engine e) (pick_engine e).
Proof. intros Hp Hs. exact (fixed_agrees s e Hp Hs true). Qed.
Lemma gen_attr_to s types p : Forall scalar s -> gen_attr s types = Ok p -> pg_ok p = true ->
  exists en opts, attr_compile s = Ok (en, opts) /\ types = map field_ty opts /\
    forall T, Forall scalar T -> pg_test p T = (do b <- engine_test en T; Ok (VBool b)) /\ pg_exec p T = do r <- attr_exec en opts T; Ok (enc_fields opts r).
Proof.
  intros Hs H Ho. apply with_ere_ok in H as (e & Hp & H). assert (W := write_engine_agrees s e Hp Hs). assert (C : attr_compile s = attr_compile s) by reflexivity. unfold attr_compile in C at 2. rewrite (parsed_with_ere _ _ _ Hp) in C.
  destruct (working_new (tree_of e)) as [n| | |]; try discriminate H. cbn [bind] in H, C. destruct (mapM _ _) as [opts| | |] eqn:Eo; try discriminate H. cbn [bind] in H, C.
  destruct (negb _) eqn:El; [discriminate H|]. destruct (write_engine e) as [q| | |]; try discriminate H. cbn [bind] in H. apply ok_inj in H. subst p. cbn [pg_ok] in Ho. apply andb_true_iff in Ho as [Ho Ho3]. apply andb_true_iff in Ho as [Ho1 Ho2].
  destruct (agrees_ok _ _ W Ho1) as (en & Ee & G). rewrite Ee in C. cbn [bind] in C. rewrite <- (proj1 G), Ho2 in C. assert (Hl := mapM_len _ _ _ Eo). rewrite seq_length in Hl.
  exists en, opts. split; [assumption|]. split; [apply (fields_have (num_capture_groups n) opts 0 types); [lia|exact Ho3]|]. intros T HT. split; [exact (proj1 (proj2 G T))|]. apply attr_run; [assumption|].
  intros cs Ec. destruct (compiled_sound s en) as (e' & n' & _ & _ & _ & Hr); [left; unfold compile_regex; now rewrite (parsed_with_ere _ _ _ Hp)|assumption|].
  destruct (Hr T HT) as (b & o & _ & Eo' & _ & _ & H5). rewrite Ec in Eo'. apply ok_inj in Eo'. subst o. destruct (H5 cs eq_refl) as (_ & Hlen & _). rewrite Hlen, <- (proj1 G), Hl. now apply Nat.eqb_eq.
Qed.
Lemma gen_attr_from s types en opts : Forall scalar s -> attr_compile s = Ok (en, opts) -> types = map field_ty opts -> exists p, gen_attr s types = Ok p /\ pg_ok p = true.
Proof.
  intros Hs H ->. apply with_ere_ok in H as (e & Hp & H). assert (W := write_engine_agrees s e Hp Hs). unfold gen_attr. rewrite (parsed_with_ere _ _ _ Hp).
  destruct (working_new (tree_of e)) as [n| | |]; try discriminate H. cbn [bind] in H |- *. destruct (mapM _ _) as [opts'| | |] eqn:Eo; try discriminate H. cbn [bind] in H |- *.
  destruct (pick_engine e) as [en'| | |] eqn:Ep; try discriminate H. cbn [bind] in H. destruct (engine_groups en' =? num_capture_groups n) eqn:Eg; [|discriminate H]. apply ok_inj in H. injection H as -> ->.
  rewrite map_length, Nat.eqb_refl. cbn [negb]. destruct (write_engine e) as [q| | |] eqn:Ew; try discriminate W. cbn [agrees] in W. destruct (pg_ok q) eqn:Eq; [|discriminate W]. destruct W as (en'' & E & G). apply ok_inj in E. subst en''.
  cbn [bind]. eexists. split; [reflexivity|]. cbn [pg_ok]. assert (Hl := mapM_len _ _ _ Eo). rewrite seq_length in Hl. rewrite Eq, (proj1 G), Eg. cbn [andb]. apply fields_have; [lia|reflexivity].
Qed.
