(** Drawings read as automata: C71. *)
From Coq Require Import String.
From Verif Require Import PWalk PCaret PStrip PRun Pick.
From Coq Require Import ZifyBool ZifyNat ZifyN Sorted.
Open Scope nat_scope.
Open Scope list_scope.

(** C71.  The drawing of the automaton of a pattern, read as in SpecWalk.v, is that automaton: the tours from its initial to its accepting
    node spell the words of the automaton.  So a text has a match exactly when some tour can be made on its characters. *)
Theorem C71_nfa : forall s e n, G_ere e s -> Forall scalar s -> working_new (tree_of e) = Ok n -> n <> [] ->
  (forall w, tours has_char (nfa_graph show_atom n) w <-> lang acheck n w) /\
  forall T, Forall scalar T -> (occurs e T <-> exists w, tours has_char (nfa_graph show_atom n) w /\ reads T 0 w (List.length T)).
Proof.
  intros s e n Hg Hs En Hn. assert (H : forall w, tours has_char (nfa_graph show_atom n) w <-> lang acheck n w) by (intros w; eapply char_tours; eauto).
  split; [exact H|]. intros T HT. apply parse_iff in Hg. destruct (parsed_working_ne s e Hg Hs n En Hn) as [(_ & _ & _ & A4 & _) _]. rewrite (occurs_iff T HT). split.
  - intros (w & Hw). exists w. rewrite H. apply (A4 T w HT). exact Hw.
  - intros (w & Hw & Hr). exists w. apply (A4 T w HT). split; [now apply H|exact Hr].
Qed.
Print Assumptions C71_nfa.
(** The same for the byte automaton and the bytes of the text. *)
Theorem C71_u8_nfa : forall s e n m, G_ere e s -> Forall scalar s -> working_new (tree_of e) = Ok n -> u8_new n = Ok m -> m <> [] ->
  (forall w, tours has_byte (nfa_graph show_u8_atom m) w <-> lang byte_check m w) /\
  forall T, Forall scalar T -> (occurs e T <-> exists w, tours has_byte (nfa_graph show_u8_atom m) w /\ reads (utf8 T) 0 w (List.length (utf8 T))).
Proof.
  intros s e n m Hg Hs En Em Hm. apply parse_iff in Hg. destruct (parsed_u8_ne s e Hg Hs n m En Em Hm) as (_ & _ & _ & M4 & _ & M6 & _).
  assert (H : forall w, tours has_byte (nfa_graph show_u8_atom m) w <-> lang byte_check m w) by (intros w; apply byte_tours; [apply byte_nfa_bytes; exact M6|exact Hm]).
  split; [exact H|]. intros T HT. rewrite (occurs_iff T HT). split.
  - intros (w & Hw). assert (X : lang byte_check m (enc w) /\ reads (utf8 T) 0 (enc w) (List.length (utf8 T))) by (apply (M4 T _ HT); eauto). exists (enc w). split; [apply H; apply X|apply X].
  - intros (w & Hw & Hr). apply H in Hw. destruct (proj1 (M4 T w HT) (conj Hw Hr)) as (w0 & H0 & _). eauto.
Qed.
Print Assumptions C71_u8_nfa.
(** The arrows of a drawing.  On "xa" there is a tour: one round of the padding reads x, group 0 is opened, a is read, the end of the text is
    checked, group 0 is closed. *)
Example C71_case_nfa :
  with_ere (s2l "a$|[_0-9]") (fun e => do n <- working_new (tree_of e); Ok (map g_trans (nfa_graph show_atom n))) =
  Ok (map (map (fun t => (fst t, s2l (snd t)))) [[(2, "$\epsilon_{0}$")]; [(2, "[{\textasciicircum}]")]; [(3, "$0(_{0}$"); (1, "$\epsilon_{1}$")];
    [(4, "$\epsilon_{0}$"); (6, "$\epsilon_{1}$")]; [(5, "a")]; [(7, "$\$_{0}$")]; [(7, "[\_0-9]")]; [(9, "$)0_{0}$")];
    [(9, "[{\textasciicircum}]")]; [(10, "$\epsilon_{0}$"); (8, "$\epsilon_{1}$")]; []]%string).
Proof. vm_compute. reflexivity. Qed.
Example C71_case_tours : exists s e n, G_ere e s /\ Forall scalar s /\ working_new (tree_of e) = Ok n /\ n <> [] /\
  (exists w, tours has_char (nfa_graph show_atom n) w /\ reads (s2l "xa") 0 w 2) /\ ~ exists w, tours has_char (nfa_graph show_atom n) w /\ reads (s2l "xb") 0 w 2.
Proof.
  assert (H := C71_case_nfa). apply with_ere_ok in H as (e & He & H). apply bind_ok in H as (n & En & H). assert (Hn : n <> []) by (intros ->; discriminate H). clear H.
  assert (Hk : caret_ok e = true).
  { assert (K : with_ere (s2l "a$|[_0-9]") (fun e => Ok (caret_ok e)) = Ok true) by (vm_compute; reflexivity). rewrite (parsed_with_ere _ e _ He) in K. congruence. }
  apply parse_iff in He. assert (Hs : Forall scalar (s2l "a$|[_0-9]")) by repeat constructor.
  exists (s2l "a$|[_0-9]"), e, n. do 4 (split; [assumption|]). destruct (C71_nfa _ e n He Hs En Hn) as [_ H]. split.
  - apply (H (s2l "xa")); [repeat constructor|].
    assert (X : (do en <- compile_regex (s2l "a$|[_0-9]"); engine_test en (s2l "xa")) = Ok true) by (vm_compute; reflexivity). apply bind_ok in X as (en & X1 & X2).
    destruct (compiled_unique (s2l "a$|[_0-9]") en e (or_introl X1) Hs He) as (_ & Hr & _). destruct (right_test e en (Hr (or_intror Hk)) (s2l "xa")) as (b & Eb & Hb); [repeat constructor|].
    apply Hb. congruence.
  - intros X. apply (H (s2l "xb")) in X; [|repeat constructor]. revert X. apply (not_occurs_flat (s2l "a$|[_0-9]")); [assumption|repeat constructor|repeat constructor|vm_compute; reflexivity].
Qed.

(** The drawings of the tagged DFA and of the DFA made from it accept exactly the bytes on which [test] of the DFA is true. *)
Theorem C71_dfa : forall s e n m max d a, G_ere e s -> Forall scalar s -> working_new (tree_of e) = Ok n -> u8_new n = Ok m -> m <> [] ->
  tdfa_from_nfa m max = Ok (Some d) -> dfa_from_tagged d = Ok a ->
  forall bytes, (accepts (tdfa_graph d) bytes <-> dfa_run_test a bytes = true) /\ (accepts (dfa_graph a) bytes <-> dfa_run_test a bytes = true).
Proof.
  intros s e n m max d a Hg Hs En Em Hm Ed Ea bytes. apply parse_iff in Hg. destruct (parsed_u8_ne s e Hg Hs n m En Em Hm) as (M1 & _).
  assert (C := proj1 (closed_wf m) (ok_wf _ M1)). assert (L : 1 <= List.length m) by (destruct m; [congruence|cbn; auto with arith]).
  assert (BB := base_bytes m max d C L Ed). assert (BA := dfa_bytes m max d a C L Ed Ea). assert (TA := dfa_targets m max d a C L Ed Ea).
  apply closed_wf in C. destruct (tdfa_from_nfa_spec m C L max) as (o & E & Ho). rewrite Ed in E. injection E as <-.
  assert (V := base_valid m L max d Ho). destruct (from_tagged_spec d V) as (a0 & F1 & F2 & _). rewrite Ea in F1. injection F1 as <-. fold (base_dfa d) in F2. apply validate_valid in V.
  destruct (minimise_full (List.length (d_states (base_dfa d))) (base_dfa d) V (le_n _)) as (a1 & E1 & _ & _ & _ & Hs1 & Ht). rewrite F2 in E1. injection E1 as <-.
  split.
  - destruct (tdfa_same d) as (S1 & S2 & S3). rewrite (accepts_same _ _ bytes S1 S2 S3), dfa_accepts; [now rewrite Ht|exact V|exact BB|]. intros x Hx. exact (proj1 (base_sorted m L max d Ho x Hx)).
  - apply dfa_accepts; [exact TA|exact BA|]. intros x Hx. destruct (Hs1 x Hx) as (x0 & H0 & Ex). destruct (base_sorted m L max d Ho x0 H0) as [B1 _].
    assert (G : StronglySorted (fun a b : range => (snd a < fst b)%N) (map snd (ds_trans x))) by (rewrite Ex; apply SS_map; exact B1). clear - G. induction (ds_trans x) as [|t l IH]; [constructor|].
    cbn [map] in G. inversion G as [|? ? G1 G2]; subst. constructor; [now apply IH|]. rewrite Forall_map in G2. exact G2.
Qed.
Print Assumptions C71_dfa.
(** So, when [caret_ok], they accept exactly the texts with a match. *)
Theorem C71_dfa_matches : forall s e n m max d a, G_ere e s -> Forall scalar s -> working_new (tree_of e) = Ok n -> u8_new n = Ok m -> m <> [] ->
  tdfa_from_nfa m max = Ok (Some d) -> dfa_from_tagged d = Ok a -> caret_ok e = true ->
  forall T, Forall scalar T -> (accepts (tdfa_graph d) (utf8 T) <-> occurs e T) /\ (accepts (dfa_graph a) (utf8 T) <-> occurs e T).
Proof.
  intros s e n m max d a Hg Hs En Em Hm Ed Ea Hc T HT. destruct (C71_dfa s e n m max d a Hg Hs En Em Hm Ed Ea (utf8 T)) as [H1 H2]. apply parse_iff in Hg.
  assert (R := dfa_right e m max d (parsed_u8_ne s e Hg Hs n m En Em Hm) (parsed_settled s e n m Hg Hs Hc En Em Hm) Ed). destruct (right_test e _ R T HT) as (b & Eb & Hb).
  cbn [engine_test] in Eb. unfold dfa_test in Eb. rewrite Ea in Eb. cbn [bind] in Eb. injection Eb as Eb. rewrite H1, H2, Eb. tauto.
Qed.
Print Assumptions C71_dfa_matches.
(** The arrows of the drawings for a pattern; the last node is the accepting one.  "aba" is accepted: from the first node by a, b, a to
    the fourth, and by the arrow for the end of the text to the last. *)
Example C71_case :
  with_ere (s2l "^a([$-d]a)*$") (fun e => do n <- working_new (tree_of e); do m <- u8_new n; do o <- tdfa_from_nfa m 100;
    match o with
    | None => NoCompile
    | Some d => do a <- dfa_from_tagged d;
        Ok (map g_trans (tdfa_graph d), map g_trans (dfa_graph a), caret_ok e, dfa_run_test a (utf8 (s2l "axa")), dfa_run_test a (utf8 (s2l "aba")))
    end) =
  Ok ([[(1, s2l "'a'")]; [(2, s2l "'\$'..='d'"); (4, s2l "\$")]; [(3, s2l "'a'")]; [(2, s2l "'\$'..='d'"); (4, s2l "\$")]; []],
      [[(1, s2l "'a'")]; [(2, s2l "'\$'..='d'"); (3, s2l "\$")]; [(1, s2l "'a'")]; []], true, false, true).
Proof. vm_compute. reflexivity. Qed.
Example C71_case_accepts : exists s e n m max d a, G_ere e s /\ Forall scalar s /\ working_new (tree_of e) = Ok n /\ u8_new n = Ok m /\ m <> [] /\
  tdfa_from_nfa m max = Ok (Some d) /\ dfa_from_tagged d = Ok a /\ caret_ok e = true /\
  accepts (tdfa_graph d) (utf8 (s2l "aba")) /\ ~ accepts (dfa_graph a) (utf8 (s2l "axa")).
Proof.
  assert (H := C71_case). apply with_ere_ok in H as (e & He & H). apply bind_ok in H as (n & En & H). apply bind_ok in H as (m & Em & H). apply bind_ok in H as (o & Eo & H).
  destruct o as [d|]; [|discriminate H]. apply bind_ok in H as (a & Ea & H).
  assert (Hm : m <> []) by (intros ->; vm_compute in Eo; discriminate Eo). apply parse_iff in He.
  assert (Hs : Forall scalar (s2l "^a([$-d]a)*$")) by repeat constructor.
  assert (H1 : caret_ok e = true) by congruence. assert (H2 : dfa_run_test a (utf8 (s2l "axa")) = false) by congruence. assert (H3 : dfa_run_test a (utf8 (s2l "aba")) = true) by congruence.
  exists (s2l "^a([$-d]a)*$"), e, n, m, 100, d, a. do 8 (split; [assumption|]). split.
  - now apply (C71_dfa _ e n m 100 d a He Hs En Em Hm Eo Ea).
  - intros X. apply (C71_dfa _ e n m 100 d a He Hs En Em Hm Eo Ea) in X. rewrite H2 in X. discriminate X.
Qed.
