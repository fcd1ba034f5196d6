(** The one-pass engine, the topological ordering and fixed offsets: C16, C22, C26. *)
From Coq Require Import String Permutation Lia.
From Verif Require Import PEngines PStrip.
Open Scope nat_scope.
Open Scope list_scope.

(** C16.  When one-pass compilation succeeds, the engine decides matching. *)
Theorem C16_one_pass_test : forall s en T, compile_one_pass s = Ok en -> Forall scalar s -> Forall scalar T ->
  exists e b, G_ere e s /\ engine_test en T = Ok b /\ (b = true <-> occurs e T).
Proof.
  intros s en T H Hs HT. destruct (compile_one_pass_right s en H Hs) as (e & Hg & Hr & _). destruct (right_test e en Hr T HT) as (b & Hb). eauto.
Qed.
Print Assumptions C16_one_pass_test.
(** The functional form (acyclic) and the state machine (with a loop). *)
Example C16_case_functional :
  (do en <- compile_one_pass (s2l "^ab(c|de)f$"); do x <- engine_test en (s2l "abdef"); do y <- engine_test en (s2l "abdf");
   Ok (match en with EOnePass o => match op_k o with OpFun _ => true | _ => false end | _ => false end, x, y)) = Ok (true, true, false).
Proof. vm_compute. reflexivity. Qed.
Example C16_case_vm :
  (do en <- compile_one_pass (s2l "^(a|bc)+d$"); do x <- engine_test en (s2l "abcad"); do y <- engine_test en (s2l "abad");
   Ok (match en with EOnePass o => match op_k o with OpVm => true | _ => false end | _ => false end, x, y)) = Ok (true, true, false).
Proof. vm_compute. reflexivity. Qed.

(** Its captures are those of a match. *)
Theorem C16_one_pass_exec : forall s en T, compile_one_pass s = Ok en -> Forall scalar s -> Forall scalar T ->
  exists e o, G_ere e s /\ engine_exec en T = Ok o /\
    match o with Some cs => captures_of e T cs /\ List.length cs = engine_groups en | None => ~ occurs e T end.
Proof.
  intros s en T H Hs HT. destruct (compile_one_pass_right s en H Hs) as (e & Hg & Hr & _). destruct (right_exec e en Hr T HT) as (o & Ho). eauto.
Qed.
Print Assumptions C16_one_pass_exec.
Example C16_case_exec :
  (do en <- compile_one_pass (s2l "^(a|(b)c)+d$"); engine_exec en (s2l "abcad")) = Ok (Some [Some (0, 5); Some (3, 4); Some (1, 2)]).
Proof. vm_compute. reflexivity. Qed.

(** C62.  A straight-line run of the functional form consumes at least one byte and has no capture boundary in it, so the code that applies the tags of a run is never put to use. *)
Theorem C62_runs : forall s o runs r, compile_one_pass s = Ok (EOnePass o) -> Forall scalar s -> op_k o = OpFun runs -> In (RStart r) runs -> run_symbols r <> [] /\ run_tags r = [].
Proof.
  intros s o runs r H Hs Ek Hi. unfold compile_one_pass in H. apply with_ere_ok in H as (e & Hp & H). apply bind_ok in H as (n & En & H). apply bind_ok in H as (m & Em & H). apply bind_ok in H as (op & Eo & H).
  destruct op as [op|]; [|discriminate]. injection H as ->.
  assert (Hm : m <> []) by (intros ->; discriminate). destruct (parsed_u8_ne s e Hp Hs n m En Em Hm) as (M1 & M2 & M3 & M4 & M5 & M6 & M7).
  destruct (op_make_runs m M1 ltac:(lia) M5 M6 o runs r Eo Ek Hi) as (X1 & X2 & _). auto.
Qed.
Print Assumptions C62_runs.
(** The runs of [^a(bcd)(ef)g$] have two bytes and one. *)
Example C62_case : (do en <- compile_one_pass (s2l "^a(bcd)(ef)g$");
  Ok match en with EOnePass o => match op_k o with OpFun runs => flat_map (fun r => match r with RStart r => [(List.length (run_symbols r), run_tags r)] | _ => [] end) runs | _ => [] end | _ => [] end) = Ok [(2, []); (1, [])].
Proof. vm_compute. reflexivity. Qed.

(** C26.  The ordering ends; it is found exactly when every state is linked from the start and there is no
    cycle, and then lists every state once, before its successors. *)
Theorem C26_topological : forall n : nfa range, SpecAuto.closed n -> 1 <= List.length n ->
  exists o, topological_ordering n = Ok o /\
    match o with
    | Some l => Permutation l (seq 0 (List.length n)) /\ (forall l1 x l2, l = l1 ++ x :: l2 -> forall y, arrow n x y -> In y l2) /\
                (forall x, x < List.length n -> linked n 0 x) /\ no_cycle n
    | None => (exists s t, linked n 0 s /\ arrow n s t /\ linked n t s) \/ (exists x, x < List.length n /\ ~ linked n 0 x)
    end.
Proof. exact topological_spec. Qed.
Print Assumptions C26_topological.
(** All states of a byte automaton made from a pattern are linked, so only cycles matter. *)
Theorem C26_iff_acyclic : forall s e n m, parse_str s = ROk e -> Forall scalar s -> working_new (tree_of e) = Ok n -> u8_new n = Ok m -> m <> [] ->
  (exists l, topological_ordering m = Ok (Some l)) <-> no_cycle m.
Proof.
  intros s e n m Hp Hs En Em Hm. destruct (parsed_u8_ne s e Hp Hs n m En Em Hm) as (M1 & M2 & M3 & _).
  destruct (topological_spec m (proj1 (closed_wf m) (ok_wf _ M1)) ltac:(destruct m; [congruence|cbn; lia])) as (o & Eo & Ho). rewrite Eo. split.
  - intros (l & E). injection E as ->. apply Ho.
  - intros Ha. destruct o as [l|]; [eauto|]. exfalso. destruct Ho as [(x & t & _ & H1 & H2)|(x & H1 & H2)]; [exact (Ha x t H1 H2)|].
    apply H2. apply conn_linked. apply M3. exact H1.
Qed.
Print Assumptions C26_iff_acyclic.
Example C26_case :
  with_ere (s2l "^a(b|cd)$") (fun e => do n <- working_new (tree_of e); do m <- u8_new n; do o <- topological_ordering m; Ok (match o with Some l => list_max l + 1 =? List.length m | None => false end)) = Ok true /\
  with_ere (s2l "^a(b|cd)*$") (fun e => do n <- working_new (tree_of e); do m <- u8_new n; topological_ordering m) = Ok None.
Proof. split; vm_compute; reflexivity. Qed.

(** C22.  Slicing at the fixed offsets gives the captures of every match, and does not panic. *)
Theorem C22_fixed_offsets : forall s en b offs, compile_fixed s = Ok en \/ compile_regex s = Ok en -> Forall scalar s -> en = EFixed b offs ->
  exists e, G_ere e s /\
    forall T i j L, Forall scalar T -> matches T e i j L -> fo_exec offs true T = Ok (Some (map (capture T L) (seq 0 (List.length offs)))).
Proof.
  intros s en b offs H Hs E. destruct (compile_fixed_offsets s en H Hs) as (e & Hg & _ & Ho). exists e. split; [assumption|]. apply (Ho b offs E).
Qed.
Print Assumptions C22_fixed_offsets.
(** So the captures are those the wrapped engine would have found, unless that engine is the DFA. *)
Theorem C22_same_as_base : forall s en b offs T, compile_fixed s = Ok en \/ compile_regex s = Ok en -> Forall scalar s -> en = EFixed b offs ->
  not_dfa en -> Forall scalar T -> engine_groups b = List.length offs -> engine_exec en T = engine_exec b T.
Proof.
  intros s en b offs T H Hs E Hn HT Hl. destruct (compile_fixed_offsets s en H Hs) as (e & Hg & _ & Ho). destruct (Ho b offs E) as [Hf Hr]. specialize (Hr Hn).
  destruct (right_test e b Hr T HT) as (x & Ex & Hx). destruct (right_exec e b Hr T HT) as (o & Eo & Hc). subst en. cbn [engine_exec]. rewrite Ex, Eo. cbn [bind].
  destruct o as [cs|].
  - destruct Hc as ((i & j & L & Hm & Hcs) & Hlen). assert (x = true) by (apply Hx; now exists i, j, L). subst x. rewrite (Hf T i j L HT Hm). do 2 f_equal. rewrite <- Hl, <- Hlen. symmetry. exact Hcs.
  - destruct x; [exfalso; apply Hc, Hx; reflexivity|]. reflexivity.
Qed.
Print Assumptions C22_same_as_base.
Example C22_case :
  (do en <- compile_fixed (s2l "^a(b|c)(d)$"); do x <- engine_exec en (s2l "acd"); do y <- engine_exec en (s2l "acdd"); Ok (x, y)) =
    Ok (Some [Some (0, 3); Some (1, 2); Some (2, 3)], None) /\
  compile_fixed (s2l "^a(b|cc)$") = NoCompile.
Proof. split; vm_compute; reflexivity. Qed.
