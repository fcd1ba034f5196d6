(** Where the patterns of the one-pass engine match: only at the beginning of a text, or only at its end. *)
From Verif Require Import PCompile PAll PLaws PFree PLazyAll PLiteral SpecLiteral.
From Coq Require Import ZifyBool ZifyNat ZifyN.
Open Scope nat_scope.
Open Scope list_scope.

(** A word that passes over a character and one that opens group 0 before it cannot both be in the automaton of a one-pass engine. *)
Lemma clash e m op c T1 T2 w1 w2 : byte_automaton_of e m -> op_make m = Ok (Some op) -> Forall scalar (c :: T1) -> Forall scalar (c :: T2) ->
  accepted (c :: T1) e (IC c :: w1) -> accepted (c :: T2) e (IM (ESC 0) :: w2) -> False.
Proof.
  intros Hm Hop S1 S2 A1 A2. destruct Hm as (M1 & M2 & M3 & M4 & M5 & M6 & M7).
  destruct (proj2 (M4 _ _ S1) (ex_intro _ _ (conj A1 eq_refl))) as [L1 R1]. destruct (proj2 (M4 _ _ S2) (ex_intro _ _ (conj A2 eq_refl))) as [L2 R2].
  unfold op_make in Hop. rewrite (proj2 (wfb_iff m) (ok_wf _ M1)), (wfb_tags_ok m M5) in Hop. cbn [andb guard bind] in Hop.
  destruct (op_analyse_spec m (ok_wf _ M1) M6) as (o & Eo & Ho). rewrite Eo in Hop. cbn [bind] in Hop. destruct o as [tab|]; [|discriminate].
  destruct (encode_head c) as (rb & Eb).
  destruct (rest_row_at m tab _ _ (head_byte c) Ho ltac:(lia) L1 R1) as (u1 & r1 & t1 & x1 & E1 & Hu1 & In1 & Hr1); [cbn; now rewrite Eb|].
  destruct (rest_row_at m tab _ _ (head_byte c) Ho ltac:(lia) L2 R2) as (u2 & r2 & t2 & x2 & E2 & Hu2 & In2 & Hr2); [cbn; now rewrite Eb|].
  assert (X := t_unique _ _ Ho 0 _ _ _ In1 In2 Hr1 Hr2). apply (f_equal snd) in X. cbn [snd] in X.
  assert (U1 : u1 = []). { destruct u1 as [|[x|x] u1]; [reflexivity|discriminate|]. cbn in E1. rewrite Eb in E1. discriminate. }
  assert (U2 : has (ESC 0) u2 = true). { destruct u2 as [|x u2]; cbn in E2; [discriminate|]. injection E2 as <- _. reflexivity. }
  subst u1. assert (Y : In (TagS 0) (tu_tags (tu_of (num_capture_groups m) t2 u2))).
  { apply tu_tags_In. split; [apply num_groups_pos|]. unfold tags_of. apply tags_of_In. right. exists (IM (ESC 0)). split; [now apply has_iff|now left]. }
  rewrite <- X in Y. apply tu_tags_In in Y as [_ []].
Qed.
Lemma whole_accepted T e i j v : Forall scalar T -> tlang acheck (tree_of e) v -> reads T i v j -> i = 0 -> accepted T e (v ++ map IC (skipn j T)).
Proof.
  intros HT Hv Hr ->. assert (Hl := reads_le _ _ _ _ Hr). split.
  - exists [], v, (skipn j T). repeat split; try discriminate; auto. apply Forall_forall. intros x Hx. rewrite Forall_forall in HT. apply HT. rewrite <- (firstn_skipn j T). apply in_or_app. auto.
  - apply reads_app. exists j. split; [assumption|]. assert (R := reads_IC T j (skipn j T)). rewrite skipn_length in R. replace (j + (length T - j)) with (length T) in R by lia. apply R; [|lia].
    rewrite <- (skipn_length j T). apply firstn_all.
Qed.
Lemma base_op e b u : pick_base_engine e = Ok (b, u) -> match b with EFixed _ _ => False | EOnePass op => op_make u = Ok (Some op) /\ exists n, working_new (tree_of e) = Ok n /\ u8_new n = Ok u | _ => True end.
Proof.
  intros H. unfold pick_base_engine in H.
  destruct (working_new (tree_of e)) as [n| | |] eqn:En; try discriminate. cbn [bind] in H.
  destruct (u8_new n) as [m| | |] eqn:Em; try discriminate. cbn [bind] in H.
  destruct (op_make m) as [[o|]| | |] eqn:Eo; try discriminate; cbn [bind] in H; [injection H as <- <-; eauto|].
  destruct (tdfa_from_nfa m _) as [[d|]| | |] eqn:Ed; try discriminate; cbn [bind] in H.
  - apply bind_ok in H as (x & Hx & H). injection H as -> _. unfold make_dfa in Hx. apply bind_ok in Hx as (y & _ & Hx). now injection Hx as <-.
  - apply bind_ok in H as (x & Hx & H). injection H as -> _. destruct (nfa_is_ascii n).
    + unfold make_flat_u8 in Hx. apply bind_ok in Hx as (y & _ & Hx). now injection Hx as <-.
    + unfold make_flat in Hx. apply bind_ok in Hx as (y & _ & Hx). destruct (nfa_compiles n); [|discriminate]. now injection Hx as <-.
Qed.
(** Whichever macro chose the one-pass engine, it was made from the automaton of the pattern. *)
Lemma one_pass_made s e en : compiled s en -> one_pass_based en -> parse_str s = ROk e -> exists n m op, working_new (tree_of e) = Ok n /\ u8_new n = Ok m /\ op_make m = Ok (Some op).
Proof.
  intros H Ho Hg. destruct H as [H|[H|[H|[H|[H|H]]]]]; apply with_ere_ok in H as (e' & Hp & H); rewrite Hg in Hp; injection Hp as <-.
  - unfold pick_engine in H. destruct (pick_base_engine e) as [[b u]| | |] eqn:Eb; try discriminate. cbn [bind] in H. assert (F := base_op e b u Eb).
    destruct (fixed_offsets u) as [[offs|]| | |] eqn:Ef; try discriminate; cbn [bind] in H.
    + destruct (length offs =? num_capture_groups u) eqn:El; [|discriminate]. injection H as <-. destruct b; try (now destruct Ho); try (now destruct F). destruct F as (F & n & En & Em). exists n, u, e0. auto.
    + injection H as <-. destruct b; try (now destruct Ho); try (now destruct F). destruct F as (F & n & En & Em). exists n, u, e0. auto.
  - apply bind_ok in H as (n & En & H). apply bind_ok in H as (m & Em & H). apply bind_ok in H as (d & Ed & H). destruct d as [d|]; [|discriminate]. unfold make_dfa in H. apply bind_ok in H as (y & _ & H). injection H as <-. destruct Ho.
  - apply bind_ok in H as (n & En & H). unfold make_flat in H. apply bind_ok in H as (y & _ & H). destruct (nfa_compiles n); [|discriminate]. injection H as <-. destruct Ho.
  - apply bind_ok in H as (n & En & H). apply bind_ok in H as (m & Em & H). unfold make_flat_u8 in H. apply bind_ok in H as (y & _ & H). injection H as <-. destruct Ho.
  - apply bind_ok in H as (n & En & H). apply bind_ok in H as (m & Em & H). apply bind_ok in H as ([op|] & Eo & H); [|discriminate]. exists n, m, op. auto.
  - destruct (pick_base_engine e) as [[b u]| | |] eqn:Eb; try discriminate. cbn [bind] in H. assert (F := base_op e b u Eb).
    destruct (fixed_offsets u) as [[offs|]| | |] eqn:Ef; try discriminate; cbn [bind] in H.
    destruct (length offs =? num_capture_groups u) eqn:El; [|discriminate]. injection H as <-. destruct b; try (now destruct Ho); try (now destruct F). destruct F as (F & n & En & Em). exists n, u, e0. auto.
Qed.
Theorem one_place s e en T i j L T' i' j' L' : compiled s en -> one_pass_based en -> Forall scalar s -> G_ere e s -> Forall scalar T -> Forall scalar T' ->
  matches T e i j L -> 0 < i -> matches T' e i' j' L' -> i' = length T' /\ j' = length T'.
Proof.
  intros H Ho Hs Hg HT HT' Ma Hi Ma'. apply parse_iff in Hg. destruct (one_pass_made s e en H Ho Hg) as (n & m & op & En & Em & Eo).
  assert (Hm : m <> []) by (intros ->; now apply op_make_nil in Eo). assert (Hb := parsed_u8_ne s e Hg Hs n m En Em Hm).
  assert (Q : forall T i j L, Forall scalar T -> matches T e i j L -> 0 < i < length T -> False) by (intros T0 i0 j0 L0 H0 M0 I0; rewrite (not_one_pass e m T0 i0 j0 L0 Hb H0 M0 I0) in Eo; discriminate).
  assert (Rg : i <= j <= length T) by (destruct Ma as (L0 & Ma & _); exact (proj1 (proj2 (proj2 (proj2 (m_range _)))) _ _ _ _ _ Ma)).
  assert (Rg' : i' <= j' <= length T') by (destruct Ma' as (L0 & Ma' & _); exact (proj1 (proj2 (proj2 (proj2 (m_range _)))) _ _ _ _ _ Ma')).
  destruct (Nat.eq_dec i' (length T')) as [E|Hne]; [lia|exfalso].
  destruct (Nat.eq_dec i' 0) as [->|Hz]; [|apply (Q T' i' j' L' HT' Ma'); lia]. destruct (Nat.eq_dec i (length T)) as [Ei|Hin]; [|apply (Q T i j L HT Ma); lia].
  apply (matches_word T HT) in Ma as (v & Hv & Hr & _). apply (matches_word T' HT') in Ma' as (v' & Hv' & Hr' & _).
  destruct T' as [|c T']; [cbn in Hne; lia|]. assert (Hc : scalar c) by now inversion HT'.
  assert (A1 := shifted_accepted T e i j v [c] HT ltac:(repeat constructor; assumption) Hv Hr Hi). assert (A2 := whole_accepted _ e 0 j' v' HT' Hv' Hr' eq_refl).
  rewrite (skipn_all2 T (n := i)) in A1 by lia. cbn [map app] in A1. rewrite tree_of_eq in Hv'. destruct Hv' as (v2 & _ & ->). cbn [app] in A2.
  apply (clash e m op c [] T' _ _ Hb Eo ltac:(repeat constructor; assumption) HT' A1 A2).
Qed.
Theorem one_place_exec s e en T cs a b : compiled s en -> one_pass_based en -> Forall scalar s -> G_ere e s -> Forall scalar T ->
  engine_exec en T = Ok (Some cs) -> nth_error cs 0 = Some (Some (a, b)) -> a = 0 \/ (a = b /\ b = bytes_of T).
Proof.
  intros H Ho Hs Hg HT He H0. assert (N : not_dfa en) by (destruct en as [| | | |[] ?]; try (now destruct Ho); exact I).
  destruct (compiled_first s e en T cs H Hs HT Hg (or_introl N) He) as (i & j & L & Hm & _ & E0 & _). rewrite E0 in H0. injection H0 as <- <-.
  destruct (Nat.eq_dec i 0) as [->|Hi]; [left; reflexivity|]. right. assert (P : 0 < i) by lia. destruct (one_place s e en T i j L T i j L H Ho Hs Hg HT HT Hm P Hm) as [-> ->].
  split; [reflexivity|]. unfold byte_pos, bytes_of. now rewrite firstn_all.
Qed.
Theorem inside_not_one_pass s e en T i j L : compiled s en -> Forall scalar s -> G_ere e s -> Forall scalar T -> matches T e i j L -> 0 < i < length T -> ~ one_pass_based en.
Proof.
  intros H Hs Hg HT Hm Hi Ho. destruct (one_place s e en T i j L T i j L H Ho Hs Hg HT HT Hm ltac:(lia) Hm). lia.
Qed.
