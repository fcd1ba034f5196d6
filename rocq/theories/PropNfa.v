(** Properties of automaton construction: C09, C10, C11, C12, C13, C34, C35. *)
From Coq Require Import String ZifyBool ZifyNat.
From Verif Require Import PRun.
Open Scope nat_scope.
Open Scope list_scope.

(** C09.  [WorkingNFA::test] decides whether the pattern matches somewhere. *)
Theorem C09_working_test : forall s e n T,
  G_ere e s -> Forall scalar s -> Forall scalar T -> working_new (tree_of e) = Ok n -> n <> [] ->
  exists b, working_test n T = Ok b /\ (b = true <-> occurs e T).
Proof.
  intros s e n T Hg Hs HT En Hn. apply parse_iff in Hg. destruct (parsed_working_ne s e Hg Hs n En Hn) as [Ha _].
  now apply working_test_spec.
Qed.
Print Assumptions C09_working_test.
(** If there is no state then nothing matches. *)
Theorem C09_no_states : forall s e T,
  G_ere e s -> Forall scalar s -> Forall scalar T -> working_new (tree_of e) = Ok [] -> ~ occurs e T.
Proof.
  intros s e T Hg Hs HT En. apply parse_iff in Hg. destruct (parsed_working s e Hg Hs) as (n & En' & [[-> H]|[H _]]); [auto|].
  rewrite En in En'. injection En' as <-. destruct H as (_ & H & _). cbn in H. lia.
Qed.
Print Assumptions C09_no_states.
Example C09_case : with_ere (s2l "^(a|b{2})*c$|d") (fun e => do n <- working_new (tree_of e);
    do x <- working_test n (s2l "abbc"); do y <- working_test n (s2l "abc"); Ok (2 <? List.length n, x, y)) = Ok (true, true, false).
Proof. vm_compute. reflexivity. Qed.
Example C09_no_states_case : with_ere (s2l "a^b") (fun e => working_new (tree_of e)) = Ok [].
Proof. vm_compute. reflexivity. Qed.

(** C10 is false: [U8NFA::new] indexes the last state of an automaton with none. *)
Theorem C10_refuted : exists s e, parse_str s = ROk e /\ (do n <- working_new (tree_of e); u8_new n) = Panic.
Proof.
  exists (s2l "a{2,1}"), [[PQuant (XAtom (NormalChar 97%N)) {| q_type := QRange 2 (Some 1%N); q_alt := false |}]].
  split; vm_compute; reflexivity.
Qed.
Print Assumptions C10_refuted.
(** What holds: both constructions end, the character automaton is always built, and whenever the pattern
    matches some text the byte automaton is built too.  (Missing: patterns that match no text.) *)
Theorem C10_compiles_partial : forall s e, G_ere e s -> Forall scalar s ->
  exists n, working_new (tree_of e) = Ok n /\
    (n <> [] -> exists m, u8_new n = Ok m) /\
    ((exists T, Forall scalar T /\ occurs e T) -> exists m, u8_new n = Ok m /\ n <> [] /\ m <> []).
Proof.
  intros s e Hg Hs. apply parse_iff in Hg. destruct (parsed_working s e Hg Hs) as (n & En & H). exists n. split; [assumption|]. split.
  - intros Hn. destruct (parsed_u8 s e Hg Hs n En Hn) as (m & Em & _). eauto.
  - intros (T & HT & Ho). assert (Hn : n <> []) by (intros ->; destruct H as [[_ H]|[(_ & H & _) _]]; [eapply H; eauto|cbn in H; lia]).
    destruct (parsed_u8 s e Hg Hs n En Hn) as (m & Em & Hm). exists m. split; [assumption|]. split; [assumption|].
    intros ->. destruct Hm as [[_ Hm]|(_ & Hm & _)]; [eapply Hm; eauto|cbn in Hm; lia].
Qed.
Print Assumptions C10_compiles_partial.
Example C10_case : with_ere (s2l "(x|[^a-z]$){2}") (fun e => do n <- working_new (tree_of e); do m <- u8_new n; Ok (2 <? List.length m)) = Ok true.
Proof. vm_compute. reflexivity. Qed.

(** C11.  One optimisation pass, and the whole loop, keep the annotated words.  [ok]: the last state has no
    way out, targets exist, no state has both kinds of edges, and no zero-width cycle of unlabelled edges. *)
Theorem C11_pass : forall (n : nfa atom), ok n -> 2 <= List.length n ->
  (forall s t a, In (t, a) (trans (get n s)) -> atom_ok a) ->
  exists n' ch, optimize_pass atom_eqb n = Ok (n', ch) /\ ok n' /\ 2 <= List.length n' /\
    (forall s t a, In (t, a) (trans (get n' s)) -> atom_ok a) /\ forall w, lang acheck n' w <-> lang acheck n w.
Proof.
  intros n Hok Hl Ha. destruct (pass_spec acheck atom_eqb atom_ok) with (n := n) as (n' & ch & E & O & L & G & S & _); auto.
  - apply reading_acheck.
  - exists n', ch. repeat (split; [assumption|]). split; [|assumption]. intros. eapply S; eauto.
Qed.
Print Assumptions C11_pass.
Theorem C11_loop : forall (n : nfa atom), ok n -> 2 <= List.length n ->
  (forall s t a, In (t, a) (trans (get n s)) -> atom_ok a) ->
  exists n', optimize atom_eqb (S (nfa_size n)) n = Ok n' /\ forall w, lang acheck n' w <-> lang acheck n w.
Proof.
  intros n Hok Hl Ha. destruct (optimize_spec acheck atom_eqb atom_ok) with (n := n) (fuel := S (nfa_size n)) as (n' & E & O & L & G & _); auto.
  - apply reading_acheck.
  - eauto.
Qed.
Print Assumptions C11_loop.
Theorem C11_bytes : forall (n : nfa range), ok n -> 2 <= List.length n ->
  exists n', optimize range_eqb (S (nfa_size n)) n = Ok n' /\ forall w, lang byte_check n' w <-> lang byte_check n w.
Proof.
  intros n Hok Hl. destruct (optimize_spec byte_check range_eqb (fun _ => True)) with (n := n) (fuel := S (nfa_size n)) as (n' & E & O & L & G & _); auto.
  - intros a b _ _ E c. apply range_eqb_eq in E. now subst.
  - intros ? ? ? _. exact I.
  - eauto.
Qed.
Print Assumptions C11_bytes.
(** The hypothesis holds of everything the Thompson construction builds. *)
Theorem C11_applies : forall e, ok (build (tree_of e)) /\ 2 <= List.length (build (tree_of e)).
Proof. intros e. split; [apply build_ok, tree_of_ok|apply tree_of_length]. Qed.
Print Assumptions C11_applies.
Example C11_case : with_ere (s2l "((a|b)*c)+") (fun e => let n := build (tree_of e) in
    do n' <- optimize atom_eqb (S (nfa_size n)) n; Ok (List.length n' <? List.length n)) = Ok true.
Proof. vm_compute. reflexivity. Qed.

(** C12.  Each of the three pruning steps keeps the words that read a text. *)
Definition keeps_reads {A} (check : A -> N -> bool) (n n' : nfa A) : Prop :=
  forall T W, reads T 0 W (List.length T) -> lang check n W <-> lang check n' W.
Theorem C12_pruning : forall A (check : A -> N -> bool) (n : nfa A), closed n -> 1 <= List.length n ->
  (exists n', clean_start_anchors n = Ok n' /\ keeps_reads check n n') /\
  (exists n', clean_end_anchors n = Ok n' /\ keeps_reads check n n') /\
  (exists n', zero_symbols n = Ok n' /\ keeps_reads check n n').
Proof.
  intros A check n Hc Hl. apply closed_wf in Hc.
  assert (K : forall n', thin n' n -> (forall w, valid w -> lang check n w -> lang check n' w) -> keeps_reads check n n').
  { intros n' Ht H T W Hr. apply reads_whole in Hr as [_ Hv]. split; [auto|]. now apply thin_lang. }
  split; [|split].
  - destruct (clean_start_spec check n Hc Hl) as (n' & E & T & H). eauto.
  - destruct (clean_end_spec check n Hc Hl) as (n' & E & T & H). eauto.
  - destruct (zero_spec check n Hc Hl) as (n' & E & T & H). eauto.
Qed.
Print Assumptions C12_pruning.
(** [a^|b$c|d]: an edge disappears in each step. *)
Example C12_case : with_ere (s2l "a^|b$c|d") (fun e => let n := build (tree_of e) in
    do n1 <- clean_start_anchors n; do n2 <- clean_end_anchors n; do n3 <- zero_symbols n;
    let edges (k : nfa atom) := list_sum (map (fun s => List.length (trans s) + List.length (eps s)) k) in
    Ok (wfb n, edges n1 <? edges n, edges n2 <? edges n, edges n3 <? edges n)) = Ok (true, true, true, true).
Proof. vm_compute. reflexivity. Qed.

(** C13.  The words of the byte automaton that read the encoding of a text are the encodings of the words
    of the character automaton that read the text, and both leave the same capture bounds, counted in
    bytes. *)
Theorem C13_byte_automaton : forall s e n m T,
  G_ere e s -> Forall scalar s -> Forall scalar T ->
  working_new (tree_of e) = Ok n -> u8_new n = Ok m -> m <> [] ->
  (forall W, lang byte_check m W /\ reads (utf8 T) 0 W (List.length (utf8 T)) <->
     exists w, lang atom_check n w /\ reads T 0 w (List.length T) /\ W = enc w) /\
  (forall w b, run_marks (fun _ => 1) 0 (enc w) b = run_marks len_utf8 0 w b).
Proof.
  intros s e n m T Hg Hs HT En Em Hm. apply parse_iff in Hg. assert (Hne : n <> []) by (intros ->; discriminate).
  destruct (parsed_working_ne s e Hg Hs n En Hne) as [(_ & _ & _ & Hn & _) _]. destruct (parsed_u8_ne s e Hg Hs n m En Em Hm) as (_ & _ & _ & Hb & _).
  split; [|intros; apply run_marks_enc]. intros W. rewrite (Hb T W HT). split; intros (w & H).
  - destruct H as [H ->]. apply (Hn T w HT) in H as [H1 H2]. exists w. split; [now apply (lang_acheck T)|]. auto.
  - destruct H as (H1 & H2 & ->). exists w. split; [|reflexivity]. apply (Hn T w HT). split; [now apply (lang_acheck T)|assumption].
Qed.
Print Assumptions C13_byte_automaton.
Theorem C13_byte_test : forall s e n m T,
  G_ere e s -> Forall scalar s -> Forall scalar T ->
  working_new (tree_of e) = Ok n -> u8_new n = Ok m -> m <> [] ->
  exists b, u8_test m (utf8 T) = Ok b /\ working_test n T = Ok b.
Proof.
  intros s e n m T Hg Hs HT En Em Hm. assert (Hne : n <> []) by (intros ->; discriminate).
  destruct (C09_working_test s e n T Hg Hs HT En Hne) as (b & Eb & Hb). exists b. split; [|assumption].
  apply parse_iff in Hg. assert (HB := parsed_u8_ne s e Hg Hs n m En Em Hm). assert (HB' := HB). destruct HB' as (B1 & B2 & _).
  destruct (nfa_test_spec (fun _ => 1) (fun _ => le_n 1) (utf8 T) byte_check m) as (b' & Eb' & Hb'); [apply B1|lia|]. unfold u8_test. rewrite Eb'. f_equal.
  apply Bool.eq_iff_eq_true. rewrite Hb', Hb. symmetry. exact (byte_occurs e m T HB HT).
Qed.
Print Assumptions C13_byte_test.
(** A euro sign, read as three bytes. *)
Example C13_case : with_ere (s2l "(" ++ [0x20AC%N] ++ s2l "|[^a-z])+") (fun e => do n <- working_new (tree_of e); do m <- u8_new n;
    do x <- u8_test m (utf8 [0x20AC%N]); do y <- u8_test m (utf8 (s2l "a")); Ok (2 <? List.length m, x, y)) = Ok (true, true, false).
Proof. vm_compute. reflexivity. Qed.

(** C34.  Automata handed to the engines have only useful states. *)
Definition useful {A} (n : nfa A) : Prop :=
  closed n /\ 2 <= List.length n /\ eps (get n (List.length n - 1)) = [] /\ trans (get n (List.length n - 1)) = [] /\
  forall s, s < List.length n -> linked n 0 s /\ linked n s (List.length n - 1).
Theorem C34_useful : forall s e n,
  G_ere e s -> Forall scalar s -> working_new (tree_of e) = Ok n -> n <> [] ->
  useful n /\ forall m, u8_new n = Ok m -> m <> [] -> useful m.
Proof.
  intros s e n Hg Hs En Hn. apply parse_iff in Hg.
  assert (U : forall A (k : nfa A), ok k -> 2 <= List.length k -> trimmed k -> useful k).
  { intros A k Hk Hl Ht. split; [apply closed_wf, Hk|]. split; [assumption|]. assert (F : get k (List.length k - 1) = empty_state).
    { destruct (ok_fin _ Hk) as (k0 & ->). unfold get. rewrite app_length, app_nth2 by (cbn; lia). cbn. now replace (List.length k0 + 1 - 1 - List.length k0) with 0 by lia. }
    rewrite F. split; [reflexivity|]. split; [reflexivity|]. intros q Hq. apply Ht in Hq as [H1 H2]. split; now apply conn_linked. }
  split.
  - destruct (parsed_working_ne s e Hg Hs n En Hn) as [(H1 & H2 & H3 & _) _]. auto.
  - intros m Em Hm. destruct (parsed_u8_ne s e Hg Hs n m En Em Hm) as (H1 & H2 & H3 & _). auto.
Qed.
Print Assumptions C34_useful.
Example C34_case : with_ere (s2l "a^|(b|c)*$") (fun e => do n <- working_new (tree_of e); do m <- u8_new n;
    Ok (2 <? List.length n, 2 <? List.length m)) = Ok (true, true).
Proof. vm_compute. reflexivity. Qed.

(** C35.  Epsilon propagation ends and lists, once each, the results of all zero-width walks. *)
Theorem C35_eps_props : forall A (n : nfa A) s, closed n -> s < List.length n ->
  exists l, eps_props n s = Ok l /\ NoDup l /\
    forall t ts a z, In (mkEp t ts a z) l <->
      exists es, walk n s es t /\ ts = firsts (capture_marks es) /\ (a = true <-> In EStart es) /\ (z = true <-> In EEnd es).
Proof.
  intros A n s Hc Hs. apply closed_wf in Hc. destruct (eps_props_spec n Hc s Hs) as (l & E & ND & H). exists l. split; [assumption|]. split; [assumption|].
  intros t ts a z. rewrite H. split.
  - intros (t' & w & Hz & Ep). apply zpath_walk in Hz as (es & Hz & ->). unfold ep_of in Ep. injection Ep as <- -> -> ->.
    exists es. split; [assumption|]. split; [apply tags_of_marks|]. split; apply has_marks; discriminate.
  - intros (es & Hz & -> & Ha & Hz'). exists t, (marks es). split; [apply zpath_walk; eauto|]. unfold ep_of. f_equal.
    + symmetry. apply tags_of_marks.
    + apply Bool.eq_iff_eq_true. rewrite Ha. symmetry. apply has_marks. discriminate.
    + apply Bool.eq_iff_eq_true. rewrite Hz'. symmetry. apply has_marks. discriminate.
Qed.
Print Assumptions C35_eps_props.
(** A zero-width loop with marks: [(()|a)*]. *)
Example C35_case : with_ere (s2l "(()|a)*") (fun e => let n := build (tree_of e) in do l <- eps_props n 0; Ok (wfb n, 10 <? List.length l)) = Ok (true, true).
Proof. vm_compute. reflexivity. Qed.
