(** Every engine reports a match that starts first. *)
From Verif Require Import PStrip.
From Verif Require Export PLazyDfa.
From Coq Require Import ZifyBool ZifyNat ZifyN.
Open Scope nat_scope.
Open Scope list_scope.
Set Default Proof Using "Type".

Section All.
  Variable s : list N.
  Variable e : ere.
  Hypothesis Hp : parse_str s = ROk e.
  Hypothesis Hs : Forall scalar s.
  Lemma make_dfa_leads n m max d en : working_new (tree_of e) = Ok n -> u8_new n = Ok m -> tdfa_from_nfa m max = Ok (Some d) -> make_dfa d = Ok en -> leads e en.
  Proof using Hp Hs.
    intros En Em Ed H. assert (Hm : m <> []) by (intros ->; discriminate). unfold make_dfa in H. destruct (dfa_from_tagged d); try discriminate. cbn [bind] in H. injection H as <-. eapply dfa_leads; eauto.
  Qed.
  Lemma make_flat_leads n en : working_new (tree_of e) = Ok n -> make_flat n = Ok en -> leads e en.
  Proof using Hp Hs.
    intros En H. unfold make_flat in H. destruct (flat_make n) as [tbl| | |] eqn:Et; try discriminate. cbn [bind] in H. destruct (nfa_compiles n); try discriminate. injection H as <-. eapply flat_char_leads; eauto. eapply flat_make_ne; eauto.
  Qed.
  Lemma make_flat_u8_leads n m en : working_new (tree_of e) = Ok n -> u8_new n = Ok m -> make_flat_u8 m = Ok en -> leads e en.
  Proof using Hp Hs.
    intros En Em H. unfold make_flat_u8 in H. destruct (flat_make m) as [tbl| | |] eqn:Et; try discriminate. cbn [bind] in H. injection H as <-. eapply flat_u8_leads; eauto. eapply flat_make_ne; eauto.
  Qed.
  Lemma base_leads b u : pick_base_engine e = Ok (b, u) -> leads e b.
  Proof using Hp Hs.
    intros H. unfold pick_base_engine in H.
    destruct (working_new (tree_of e)) as [n| | |] eqn:En; try discriminate. cbn [bind] in H. destruct (u8_new n) as [m| | |] eqn:Em; try discriminate. cbn [bind] in H.
    assert (Hne : forall o, op_make m = Ok o -> m <> []) by (intros o Ho ->; discriminate).
    destruct (op_make m) as [[op|]| | |] eqn:Eo; try discriminate; cbn [bind] in H.
    - injection H as <- <-. eapply one_pass_leads; eauto.
    - destruct (tdfa_from_nfa m _) as [[d|]| | |] eqn:Ed; try discriminate; cbn [bind] in H.
      + apply bind_ok in H as (b' & Hb & H). injection H as <- <-. eapply make_dfa_leads; eauto.
      + destruct (nfa_is_ascii n).
        * apply bind_ok in H as (b' & Hb & H). injection H as <- <-. eapply make_flat_u8_leads; eauto.
        * apply bind_ok in H as (b' & Hb & H). injection H as <- <-. eapply make_flat_leads; eauto.
  Qed.
  Lemma fixed_leads b u offs : pick_base_engine e = Ok (b, u) -> fixed_offsets u = Ok (Some offs) -> leads e (EFixed b offs).
  Proof using Hp Hs.
    intros Eb Ef T cs x y i j L HT Hx Hc Hm. destruct (base_any_right s e b u Hp Hs Eb) as (Hu & _ & Hr). destruct (fixed_every e u offs Hu Ef) as [_ Every].
    cbn [engine_exec] in Hx. destruct (engine_test b T) as [[|]| | |]; try discriminate; cbn [bind] in Hx.
    rewrite (Every T i j L HT Hm) in Hx. injection Hx as <-. apply map_nth_error_inv in Hc as (k & Ek & Hc). apply nth_seq_inv in Ek as ->.
    unfold capture in Hc. cbn [Nat.add] in Hc. rewrite (match_zero e T i j L Hm) in Hc. injection Hc as <- _. lia.
  Qed.
End All.
Theorem compiled_leads s e en : compiled s en -> Forall scalar s -> G_ere e s -> leads e en.
Proof.
  intros H Hs Hg. apply parse_iff in Hg.
  destruct H as [H|[H|[H|[H|[H|H]]]]]; apply with_ere_ok in H as (e' & Hp & H); rewrite Hg in Hp; injection Hp as <-.
  - unfold pick_engine in H. destruct (pick_base_engine e) as [[b u]| | |] eqn:Eb; try discriminate. cbn [bind] in H.
    destruct (fixed_offsets u) as [[offs|]| | |] eqn:Ef; try discriminate; cbn [bind] in H.
    + destruct (length offs =? num_capture_groups u) eqn:El; [|discriminate]. injection H as <-. eapply fixed_leads; eauto.
    + injection H as <-. eapply base_leads; eauto.
  - destruct (working_new (tree_of e)) as [n| | |] eqn:En; try discriminate. cbn [bind] in H. destruct (u8_new n) as [m| | |] eqn:Em; try discriminate. cbn [bind] in H.
    destruct (tdfa_from_nfa m _) as [[d|]| | |] eqn:Ed; try discriminate; cbn [bind] in H. eapply make_dfa_leads; eauto.
  - apply bind_ok in H as (n & En & H). eapply make_flat_leads; eauto.
  - apply bind_ok in H as (n & En & H). apply bind_ok in H as (m & Em & H). eapply make_flat_u8_leads; eauto.
  - apply bind_ok in H as (n & En & H). apply bind_ok in H as (m & Em & H). destruct (op_make m) as [[op|]| | |] eqn:Eo; try discriminate. cbn [bind] in H. injection H as <-. eapply one_pass_leads; eauto. intros ->; discriminate.
  - destruct (pick_base_engine e) as [[b u]| | |] eqn:Eb; try discriminate. cbn [bind] in H.
    destruct (fixed_offsets u) as [[offs|]| | |] eqn:Ef; try discriminate; cbn [bind] in H.
    destruct (length offs =? num_capture_groups u) eqn:El; [|discriminate]. injection H as <-. eapply fixed_leads; eauto.
Qed.

Lemma byte_pos_strict T i j : i < j -> j <= length T -> byte_pos T i < byte_pos T j.
Proof.
  revert i j. induction T as [|c T IH]; intros i j H1 H2; cbn in H2; [lia|]. destruct j as [|j]; [lia|]. assert (X : 1 <= char_bytes c) by (unfold char_bytes; repeat destruct (_ <? _)%N; lia). unfold byte_pos in *. destruct i as [|i].
  - cbn [firstn map]. change (0 < char_bytes c + list_sum (map char_bytes (firstn j T))). lia.
  - specialize (IH i j ltac:(lia) ltac:(lia)). cbn [firstn map]. change (char_bytes c + list_sum (map char_bytes (firstn i T)) < char_bytes c + list_sum (map char_bytes (firstn j T))). lia.
Qed.
Lemma compiled_first s e en T cs : compiled s en -> Forall scalar s -> Forall scalar T -> G_ere e s -> not_dfa en \/ caret_ok e = true -> engine_exec en T = Ok (Some cs) ->
  exists i j L, matches T e i j L /\ cs = map (capture T L) (seq 0 (engine_groups en)) /\ nth_error cs 0 = Some (Some (byte_pos T i, byte_pos T j)) /\ (forall i' j' L', matches T e i' j' L' -> i <= i').
Proof.
  intros H Hs HT Hg Hn E. destruct (compiled_right s en H Hs) as (e' & Hg' & Hgr & Hr). assert (e' = e) as -> by (apply parse_iff in Hg; apply parse_iff in Hg'; congruence).
  destruct (right_exec e en (Hr Hn) T HT) as (o & Eo & Ho). rewrite E in Eo. injection Eo as <-. destruct Ho as [(i & j & L & Hm & Ec) Hl]. assert (Ec' : cs = map (capture T L) (seq 0 (engine_groups en))) by (rewrite <- Hl; exact Ec). clear Ec. rename Ec' into Ec.
  exists i, j, L. split; [assumption|]. split; [assumption|].
  assert (E0 : nth_error cs 0 = Some (Some (byte_pos T i, byte_pos T j))).
  { rewrite Ec. destruct (engine_groups en); [lia|]. cbn [seq map nth_error]. unfold capture. now rewrite (match_zero e T i j L Hm). }
  split; [assumption|]. intros i' j' L' Hm'. assert (X := compiled_leads s e en H Hs Hg T cs _ _ i' j' L' HT E E0 Hm').
  destruct (le_lt_dec i i') as [|Hlt]; [assumption|exfalso]. assert (Hil : i <= length T) by (destruct (match_accepted T e HT i j L Hm) as (v & _ & R & _); apply reads_le in R; lia).
  assert (Y := byte_pos_strict T i' i Hlt Hil). lia.
Qed.
Lemma compiled_answer s e en T : compiled s en -> Forall scalar s -> Forall scalar T -> G_ere e s -> not_dfa en \/ caret_ok e = true ->
  exists o, engine_exec en T = Ok o /\ match o with Some _ => occurs e T | None => ~ occurs e T end.
Proof.
  intros H Hs HT Hg Hn. destruct (compiled_right s en H Hs) as (e' & Hg' & Hgr & Hr). assert (e' = e) as -> by (apply parse_iff in Hg; apply parse_iff in Hg'; congruence).
  destruct (right_exec e en (Hr Hn) T HT) as (o & Eo & Ho). exists o. split; [assumption|]. destruct o as [cs|]; [|assumption]. destruct Ho as [(i & j & L & Hm & _) _]. now exists i, j, L.
Qed.
