(** The plain DFA has room for the groups of the match it reports. *)
From Verif Require Import PCount PAll PLazyAll SpecGroups SpecCaret.
From Coq Require Import ZifyBool ZifyNat ZifyN.
Open Scope nat_scope.
Open Scope list_scope.

Lemma compiled_dfa s d : compiled s (EDfa d) -> exists e n m max, parse_str s = ROk e /\ working_new (tree_of e) = Ok n /\ u8_new n = Ok m /\ m <> [] /\ tdfa_from_nfa m max = Ok (Some d).
Proof.
  assert (B : forall e b u, pick_base_engine e = Ok (b, u) -> b = EDfa d -> exists n m max, working_new (tree_of e) = Ok n /\ u8_new n = Ok m /\ m <> [] /\ tdfa_from_nfa m max = Ok (Some d)).
  { intros e b u H ->. unfold pick_base_engine in H. destruct (working_new (tree_of e)) as [n| | |] eqn:En; try discriminate H. cbn [bind] in H.
    destruct (u8_new n) as [m| | |] eqn:Em; try discriminate H. cbn [bind] in H. assert (Hne : m <> []) by (intros ->; discriminate H).
    destruct (op_make m) as [[op|]| | |]; try discriminate H. cbn [bind] in H.
    destruct (tdfa_from_nfa m _) as [[d'|]| | |] eqn:Ed; try discriminate H; cbn [bind] in H.
    - unfold make_dfa in H. destruct (dfa_from_tagged d'); try discriminate H. cbn [bind] in H. injection H as -> _. eauto 8.
    - exfalso. destruct (nfa_is_ascii n).
      + unfold make_flat_u8 in H. destruct (flat_make m); discriminate H.
      + unfold make_flat in H. destruct (flat_make n); try discriminate H. cbn [bind] in H. destruct (nfa_compiles n); discriminate H. }
  intros [H|[H|[H|[H|[H|H]]]]]; apply with_ere_ok in H as (e & Hp & H).
  - unfold pick_engine in H. destruct (pick_base_engine e) as [[b u]| | |] eqn:Eb; try discriminate H. cbn [bind] in H.
    destruct (fixed_offsets u) as [[offs|]| | |]; try discriminate H; cbn [bind] in H.
    + destruct (length offs =? num_capture_groups u); discriminate H.
    + injection H as H. destruct (B e b u Eb H) as (n & m & max & Q). exists e, n, m, max. auto.
  - destruct (working_new (tree_of e)) as [n| | |] eqn:En; try discriminate H. cbn [bind] in H. destruct (u8_new n) as [m| | |] eqn:Em; try discriminate H. cbn [bind] in H.
    assert (Hne : m <> []) by (intros ->; discriminate H).
    destruct (tdfa_from_nfa m _) as [[d'|]| | |] eqn:Ed; try discriminate H; cbn [bind] in H. unfold make_dfa in H. destruct (dfa_from_tagged d'); try discriminate H. injection H as <-.
    exists e, n, m. eauto 8.
  - exfalso. destruct (working_new (tree_of e)) as [n| | |]; try discriminate H. cbn [bind] in H. unfold make_flat in H. destruct (flat_make n); try discriminate H. cbn [bind] in H. destruct (nfa_compiles n); discriminate H.
  - exfalso. destruct (working_new (tree_of e)) as [n| | |]; try discriminate H. cbn [bind] in H. destruct (u8_new n) as [m| | |]; try discriminate H. cbn [bind] in H. unfold make_flat_u8 in H. destruct (flat_make m); discriminate H.
  - exfalso. destruct (working_new (tree_of e)) as [n| | |]; try discriminate H. cbn [bind] in H. destruct (u8_new n) as [m| | |]; try discriminate H. cbn [bind] in H. destruct (op_make m) as [[op|]| | |]; discriminate H.
  - exfalso. destruct (pick_base_engine e) as [[b u]| | |]; try discriminate H. cbn [bind] in H. destruct (fixed_offsets u) as [[offs|]| | |]; try discriminate H; cbn [bind] in H. destruct (length offs =? num_capture_groups u); discriminate H.
Qed.
(** As [accepted_matches], with the groups. *)
Lemma accepted_opens T e W : accepted T e W -> exists i j L, matches T e i j L /\ (forall g, finish T (run_marks len_utf8 0 W (no_bounds g)) = Ok (map (capture T L) (seq 0 g))) /\
  forall k, last_of k L <> None -> In (IM (ESC k)) W.
Proof.
  intros [(pre & v & post & -> & Hp & Hq & _ & _ & Hv) Hr].
  assert (Hr0 := Hr). apply reads_app in Hr0 as (i & H1 & H2). apply reads_app in H2 as (j & H2 & H3).
  apply reads_chars in H1 as [Ei _]. rewrite chars_IC in Ei. cbn in Ei. subst i.
  destruct (word_matches T _ _ _ _ Hv H2) as (L & H4 & H5). exists (length pre), j, L. split; [assumption|]. split.
  - intros g. eapply finish_marks; eauto.
  - intros k Hk. apply in_or_app. right. apply in_or_app. left. eapply blog_opens; eauto.
Qed.
Lemma dfa_room s e d T cs : compiled s (EDfa d) -> Forall scalar s -> Forall scalar T -> parse_str s = ROk e -> caret_ok e = true -> engine_exec (EDfa d) T = Ok (Some cs) ->
  exists i j L, matches T e i j L /\ cs = map (capture T L) (seq 0 (tdfa_groups d)) /\ forall k, last_of k L <> None -> k < tdfa_groups d.
Proof.
  intros H Hs HT Hp Hc E. destruct (compiled_dfa s d H) as (e' & n & m & max & Hp' & En & Em & Hne & Ed). rewrite Hp in Hp'. injection Hp' as <-.
  assert (Hm := parsed_u8_ne s e Hp Hs n m En Em Hne). assert (Hm' := Hm). destruct Hm' as (M1 & M2 & M3 & M4 & M5 & M6 & M7).
  cbn [engine_exec] in E. unfold dfa_exec in E. apply bind_ok in E as (x & Ex & E). unfold run_finish in E.
  destruct (tdfa_run_exec d (utf8 T)) as [b|] eqn:Eb; [|discriminate E].
  destruct (dfa_exec_room m max d (utf8 T) b (ok_wf _ M1) ltac:(lia) Ed (utf8_bytes T HT) Eb) as (W & W1 & W2 & -> & W4).
  apply late_reads in W2; [|eapply parsed_settled; eauto]. destruct (proj1 (M4 T W HT) (conj W1 W2)) as (w & Ha & ->).
  destruct (accepted_opens T e w Ha) as (i & j & L & H1 & H2 & H3). rewrite run_marks_enc, H2 in E. cbn [bind] in E. injection E as <-.
  exists i, j, L. split; [assumption|]. split; [reflexivity|]. intros k Hk. apply W4. apply H3 in Hk. apply in_split in Hk as (u & v & ->). rewrite enc_app. apply in_or_app. right. now left.
Qed.
Lemma exec_room s e en T cs : compiled s en -> Forall scalar s -> Forall scalar T -> G_ere e s -> not_dfa en \/ caret_ok e = true -> engine_exec en T = Ok (Some cs) ->
  exists i j L, matches T e i j L /\ cs = map (capture T L) (seq 0 (engine_groups en)) /\ forall k, last_of k L <> None -> k < engine_groups en.
Proof.
  intros H Hs HT Hg Hn E. assert (Hp := Hg). apply parse_iff in Hp.
  assert (D : ~ is_dfa en \/ exists d, en = EDfa d) by (destruct en; cbn; eauto). destruct D as [D|(d & ->)].
  - destruct (compiled_first s e en T cs H Hs HT Hg Hn E) as (i & j & L & H1 & H2 & _). exists i, j, L. split; [assumption|]. split; [assumption|].
    destruct (compiled_counted s en H Hs) as (e' & Hg' & Hc). apply parse_iff in Hg'. rewrite Hp in Hg'. injection Hg' as <-. intros k Hk. eapply counted_uses; eauto.
  - destruct Hn as [[]|Hn]. now apply (dfa_room s).
Qed.
