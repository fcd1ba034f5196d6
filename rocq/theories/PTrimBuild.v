(** Every state of a constructed automaton lies on a way from the first to the last one, if the pattern has no anchors and every quantifier allows a count. *)
From Verif Require Export PTrim.
From Coq Require Import ZifyBool ZifyNat.
Open Scope nat_scope.
Open Scope list_scope.
Set Default Proof Using "Type".

Section Ways.
  Context {A : Type}.
  Implicit Types n m N : nfa A.
  Definition every (a : A) (c : N) : bool := true.
  Lemma conn_path n s t : conn n s t <-> exists w, path every n s w t.
  Proof.
    split.
    - intros H. induction H as [s|s t u H1 H2 (w & IH)]; [exists []; apply p_nil|]. apply succ_all_inv in H1 as [(e & He)|(a & Ha)].
      + eexists. eapply p_eps; eauto.
      + eexists. eapply (p_sym _ _ _ _ _ 0%N); eauto.
    - intros (w & H). eapply path_conn; eauto.
  Qed.
  Lemma conn_refl n s : conn n s s.
  Proof. constructor. Qed.
  Lemma conn_step n s t u : In t (succ_all n s) -> conn n t u -> conn n s u.
  Proof. intros. econstructor; eauto. Qed.
  Lemma conn_trans n s t u : conn n s t -> conn n t u -> conn n s u.
  Proof. intros. eapply star_app; eauto. Qed.
  Lemma conn_sub N n k ex s t : fin n -> wf n -> sub_at N n k ex -> s < length n -> conn n s t -> conn N (k + s) (k + t).
  Proof. intros Hf Hw Hs Hl H. apply conn_path in H as (w & H). apply conn_path. exists w. eapply sub_in; eauto. Qed.
  Lemma conn_out N n k x e : fin n -> wf n -> trimmed n -> sub_at N n k [(x, e)] -> conn N k x.
  Proof.
    intros Hf Hw Ht Hs. destruct (fin_last _ Hf) as [_ Hl]. eapply conn_trans.
    - rewrite <- (Nat.add_0_r k) at 1. eapply (conn_sub N n k _ 0); eauto. apply Ht. lia.
    - eapply conn_step; [|apply conn_refl]. eapply succ_all_eps. rewrite Hs by lia. rewrite Nat.eqb_refl. now left.
  Qed.
  Definition between_ends N (s : nat) : Prop := conn N 0 s /\ conn N s (length N - 1).
  Lemma sub_ends N n k x e : fin n -> wf n -> trimmed n -> sub_at N n k [(x, e)] -> conn N 0 k -> conn N x (length N - 1) ->
    forall s, k <= s -> s < k + length n -> between_ends N s.
  Proof.
    intros Hf Hw Ht Hs H0 Hx s Hk Hl. replace s with (k + (s - k)) by lia. destruct (Ht (s - k)) as [H1 H2]; [lia|]. destruct (fin_last _ Hf) as [_ Hl1]. split.
    - eapply conn_trans; [exact H0|]. rewrite <- (Nat.add_0_r k) at 1. eapply conn_sub; eauto. 
    - eapply conn_trans; [eapply conn_sub; eauto; lia|]. eapply conn_step; [|exact Hx]. eapply succ_all_eps. rewrite Hs by lia. rewrite Nat.eqb_refl. now left.
  Qed.

  Lemma cl_ends (ns : list (nfa A)) : Forall fin ns -> Forall wf ns -> Forall trimmed ns -> forall pre,
    let N := pre ++ cl (length pre) ns ++ [empty_state] in
    conn N 0 (length pre) -> conn N (length pre) (length N - 1) /\ forall s, length pre <= s -> s < length N -> between_ends N s.
  Proof.
    induction ns as [|n ns IH]; intros Hf Hw Ht pre; cbv zeta; intros H0.
    - cbn in *. rewrite app_length. cbn. replace (length pre + 1 - 1) with (length pre) by lia. split; [apply conn_refl|]. intros s H1 H2. assert (s = length pre) as -> by lia. split; [assumption|].
      rewrite app_length. cbn. replace (length pre + 1 - 1) with (length pre) by lia. apply conn_refl.
    - inversion Hf as [|? ? Hf1 Hf2]; inversion Hw as [|? ? Hw1 Hw2]; inversion Ht as [|? ? Ht1 Ht2]; subst. cbn [cl] in *.
      set (x := (length pre + length n, ENone)) in *.
      set (N := pre ++ (seg (length pre) n x ++ cl (length pre + length n) ns) ++ [empty_state]) in *.
      assert (EN : N = (pre ++ seg (length pre) n x) ++ cl (length (pre ++ seg (length pre) n x)) ns ++ [empty_state]).
      { unfold N. rewrite app_length, seg_length. now rewrite <- !app_assoc. }
      assert (HS : sub_at N n (length pre) [x]).
      { unfold N. rewrite <- app_assoc. now apply sub_at_seg. }
      assert (HC := conn_out _ _ _ _ _ Hf1 Hw1 Ht1 HS).
      specialize (IH Hf2 Hw2 Ht2 (pre ++ seg (length pre) n x)). cbv zeta in IH. rewrite <- EN in IH. rewrite app_length, seg_length in IH.
      destruct IH as [I1 I2]; [eapply conn_trans; eauto|]. split; [eapply conn_trans; eauto|]. intros s H1 H2.
      destruct (Nat.lt_ge_cases s (length pre + length n)); [|now apply I2]. eapply sub_ends; eauto.
  Qed.
  Lemma concat_trimmed (ns : list (nfa A)) : Forall ok ns -> Forall trimmed ns -> trimmed (nfa_concat ns).
  Proof.
    intros Ho Ht. apply ok_all in Ho as (Hf & Hw & _). rewrite nfa_concat_eq by assumption.
    assert (H := cl_ends ns Hf Hw Ht [mkState [] [(1, ENone)]]). cbv zeta in H. cbn [length] in H. set (N := _ ++ _ ++ _) in *.
    assert (H1 : conn N 0 1) by (eapply conn_step; [|apply conn_refl]; eapply succ_all_eps; now left). destruct (H H1) as [H2 H3].
    intros [|s] Hs; [|apply H3; lia]. split; [apply conn_refl|]. eapply conn_trans; eauto.
  Qed.
  Lemma ul_ends acc (ns : list (nfa A)) : Forall fin ns -> Forall wf ns -> Forall trimmed ns -> forall pre,
    let N := pre ++ ul acc (length pre) ns ++ [empty_state] in
    acc = length N - 1 -> (forall k e, In (k, e) (uh (length pre) ns) -> conn N 0 k) -> forall s, length pre <= s -> s < length pre + sumlen ns -> between_ends N s.
  Proof.
    induction ns as [|n ns IH]; intros Hf Hw Ht pre; cbv zeta; intros Ha H0 s Hs1 Hs2.
    - cbn in Hs2. lia.
    - inversion Hf as [|? ? Hf1 Hf2]; inversion Hw as [|? ? Hw1 Hw2]; inversion Ht as [|? ? Ht1 Ht2]; subst. rewrite sumlen_cons in Hs2. cbn [ul uh] in *.
      set (x := (acc, ENone)) in *.
      set (N := pre ++ (seg (length pre) n x ++ ul acc (length pre + length n) ns) ++ [empty_state]) in *.
      assert (EN : N = (pre ++ seg (length pre) n x) ++ ul acc (length (pre ++ seg (length pre) n x)) ns ++ [empty_state]).
      { unfold N. rewrite app_length, seg_length. now rewrite <- !app_assoc. }
      assert (HS : sub_at N n (length pre) [x]).
      { unfold N. rewrite <- app_assoc. now apply sub_at_seg. }
      specialize (IH Hf2 Hw2 Ht2 (pre ++ seg (length pre) n x)). cbv zeta in IH. rewrite <- EN in IH. rewrite app_length, seg_length in IH.
      destruct (Nat.lt_ge_cases s (length pre + length n)); [|apply IH; auto; [|lia]; intros; eapply H0; right; eauto].
      eapply sub_ends; eauto; [eapply H0; now left|]. rewrite <- Ha. apply conn_refl.
  Qed.
  Lemma union_trimmed (ns : list (nfa A)) : ns <> [] -> Forall ok ns -> Forall trimmed ns -> trimmed (nfa_union ns).
  Proof.
    intros Hn Ho Ht. apply ok_all in Ho as (Hf & Hw & _). rewrite nfa_union_eq by assumption.
    assert (H := ul_ends (1 + sumlen ns) ns Hf Hw Ht [mkState [] (uh 1 ns)]). cbv zeta in H. cbn [length] in H.
    set (N := mkState [] (uh 1 ns) :: ul (1 + sumlen ns) 1 ns ++ [empty_state]) in *. change (_ ++ _ ++ _) with N in H.
    assert (HL : length N = 2 + sumlen ns) by (unfold N; cbn; rewrite app_length, ul_length; cbn; lia).
    assert (HE : forall k e, In (k, e) (uh 1 ns) -> conn N 0 k) by (intros k e Hk; eapply conn_step; [|apply conn_refl]; eapply succ_all_eps; exact Hk).
    assert (HB := H ltac:(lia) HE). destruct ns as [|n ns]; [congruence|]. inversion Hf as [|? ? Hf1 Hf2]; subst. destruct (fin_last _ Hf1) as [_ Hl].
    destruct (HB 1) as [B1 B2]; [lia|rewrite sumlen_cons; lia|].
    intros s Hs. rewrite HL in Hs. destruct (Nat.eq_dec s 0) as [->|H1]; [split; [apply conn_refl|]; eapply conn_trans; eauto|].
    destruct (Nat.lt_ge_cases s (1 + sumlen (n :: ns))); [apply HB; lia|]. replace s with (length N - 1) by lia. split; [eapply conn_trans; eauto|apply conn_refl].
  Qed.
  Lemma capture_trimmed n k : ok n -> trimmed n -> trimmed (nfa_capture n k).
  Proof.
    intros [Hf Hw _ _] Ht. destruct (fin_last _ Hf) as [_ Hl]. rewrite nfa_capture_eq by assumption. set (N := _ ++ _ ++ _).
    assert (HS : sub_at N n 1 [(S (length n), EEC k)]) by now apply (sub_at_seg [_]).
    assert (HN : length N = 2 + length n) by (unfold N; rewrite !app_length, seg_length; cbn; lia).
    assert (H0 : conn N 0 1) by (eapply conn_step; [|apply conn_refl]; eapply succ_all_eps; now left).
    assert (H1 : conn N (S (length n)) (length N - 1)) by (rewrite HN; replace (2 + length n - 1) with (S (length n)) by lia; apply conn_refl).
    assert (H2 := sub_ends _ _ _ _ _ Hf Hw Ht HS H0 H1). destruct (H2 1) as [B1 B2]; [lia|lia|].
    intros s Hs. destruct (Nat.eq_dec s 0) as [->|H3]; [split; [apply conn_refl|eapply conn_trans; eauto]|].
    destruct (Nat.lt_ge_cases s (1 + length n)); [apply H2; lia|]. replace s with (length N - 1) by lia. split; [eapply conn_trans; eauto|apply conn_refl].
  Qed.
  Lemma star_trimmed n b : ok n -> trimmed n -> trimmed (nfa_star n b).
  Proof.
    intros [Hf Hw _ _] Ht. destruct (fin_last _ Hf) as [_ Hl]. rewrite nfa_star_eq by assumption. set (N := _ ++ _ ++ _).
    assert (HS : sub_at N n 1 [(0, ENone)]) by now apply (sub_at_seg [_]).
    assert (HN : length N = 2 + length n) by (unfold N; rewrite !app_length, seg_length; cbn; lia).
    assert (HG : get N 0 = mkState [] (choice b 1 (S (length n)))) by reflexivity.
    assert (H0 : conn N 0 1) by (eapply conn_step; [|apply conn_refl]; eapply succ_all_eps; rewrite HG; apply choice_In; auto).
    assert (H1 : conn N 0 (length N - 1)) by (rewrite HN; replace (2 + length n - 1) with (S (length n)) by lia; eapply conn_step; [|apply conn_refl]; eapply succ_all_eps; rewrite HG; apply choice_In; auto).
    assert (H2 := sub_ends _ _ _ _ _ Hf Hw Ht HS H0 H1).
    intros s Hs. destruct (Nat.eq_dec s 0) as [->|H3]; [split; [apply conn_refl|assumption]|].
    destruct (Nat.lt_ge_cases s (1 + length n)); [apply H2; lia|]. replace s with (length N - 1) by lia. split; [assumption|apply conn_refl].
  Qed.
  Lemma pl_ends b n e : fin n -> wf n -> trimmed n -> forall r pre,
    let N := pre ++ pl b n e (length pre) r in
    e = length N - 1 -> conn N 0 (length pre) -> conn N (length pre) e /\ forall s, length pre <= s -> s < length N -> between_ends N s.
  Proof.
    intros Hf Hw Ht. destruct (fin_last _ Hf) as [_ Hl2].
    induction r as [|r IH]; intros pre; cbv zeta; intros He H0.
    - cbn [pl] in *. assert (E : length pre = e) by (rewrite app_length in He; cbn in He; lia). rewrite <- E. split; [apply conn_refl|].
      rewrite app_length. cbn. intros s Hs1 Hs2. assert (s = length pre) as -> by lia. split; [assumption|]. rewrite <- He, E. apply conn_refl.
    - cbn [pl] in *. set (k := length pre) in *. set (x := (S k + length n, ENone)) in *.
      set (N := pre ++ mkState [] (choice b (S k) e) :: seg (S k) n x ++ pl b n e (S k + length n) r) in *.
      set (pre' := pre ++ mkState [] (choice b (S k) e) :: seg (S k) n x).
      assert (Ek : length pre' = S k + length n).
      { unfold pre'. rewrite app_length. cbn. rewrite seg_length. fold k. lia. }
      assert (EN : N = pre' ++ pl b n e (length pre') r).
      { unfold N. rewrite Ek. unfold pre'. rewrite <- app_assoc. reflexivity. }
      assert (HS : sub_at N n (S k) [x]).
      { unfold N. change (mkState [] (choice b (S k) e) :: seg (S k) n x ++ ?z) with ([mkState [] (choice b (S k) e)] ++ seg (S k) n x ++ z).
        rewrite app_assoc. apply sub_at_seg; [assumption|]. rewrite app_length. cbn. fold k. lia. }
      assert (HG : get N k = mkState [] (choice b (S k) e)).
      { unfold get, N, k. rewrite app_nth2 by lia. rewrite Nat.sub_diag. reflexivity. }
      assert (C1 : conn N k (S k)) by (eapply conn_step; [|apply conn_refl]; eapply succ_all_eps; rewrite HG; apply choice_In; auto).
      assert (C2 : conn N k e) by (eapply conn_step; [|apply conn_refl]; eapply succ_all_eps; rewrite HG; apply choice_In; auto).
      assert (C3 := conn_out _ _ _ _ _ Hf Hw Ht HS).
      specialize (IH pre'). cbv zeta in IH. rewrite <- EN, Ek in IH. destruct (IH He) as [I1 I2]; [eapply conn_trans; [exact H0|]; eapply conn_trans; [exact C1|exact C3]|].
      split; [assumption|]. intros s Hs1 Hs2. destruct (Nat.eq_dec s k) as [->|Hsk]; [split; [assumption|now rewrite <- He]|].
      destruct (Nat.lt_ge_cases s (S k + length n)); [|now apply I2]. eapply sub_ends; eauto; [eapply conn_trans; eauto|now rewrite <- He|lia].
  Qed.
  Lemma upto_trimmed n times b : ok n -> trimmed n -> 1 <= times -> trimmed (nfa_upto n times b).
  Proof.
    intros [Hf Hw _ _] Ht H1. rewrite nfa_upto_eq by assumption. destruct (pl_ends b n ((length n + 1) * times) Hf Hw Ht times []) as [_ H]; [|apply conn_refl|].
    - cbn [app length]. rewrite pl_length. lia.
    - intros s Hs. apply H; [cbn; lia|assumption].
  Qed.
  Lemma empty_trimmed : trimmed (@nfa_empty A).
  Proof. intros s Hs. cbn in Hs. assert (s = 0) as -> by lia. split; apply conn_refl. Qed.
  Lemma symbol_trimmed a : trimmed (@nfa_symbol1 A a).
  Proof.
    assert (H : conn (nfa_symbol1 a) 0 1) by (eapply conn_step; [|apply conn_refl]; eapply (succ_all_trans _ _ _ a); now left).
    intros s Hs. cbn in *. destruct s as [|[|s]]; [split; [apply conn_refl|exact H]|split; [exact H|apply conn_refl]|lia].
  Qed.
End Ways.

(** Trees without anchors and without quantifiers that cannot be met. *)
Fixpoint steady (t : tree) : Prop :=
  match t with
  | TEmpty | TSymbol _ => True
  | TUnion l => l <> [] /\ fold_right (fun t Q => steady t /\ Q) True l
  | TConcat l => fold_right (fun t Q => steady t /\ Q) True l
  | TCapture t _ | TRepeat t _ | TUpTo t _ _ | TStar t _ => steady t
  | TStart | TEnd | TNever => False
  end.
Lemma build_trimmed t : tree_ok t -> steady t -> trimmed (build t).
Proof.
  revert t. fix IH 2. intros t [ |a|l HF|t0 k H|l HF|t0 n H|t0 n b H Hn|a b|t0 k b H| | | ]; cbn [build steady]; intros HS; try (now destruct HS).
  - apply empty_trimmed.
  - apply symbol_trimmed.
  - destruct HS as [Hn HS]. apply union_trimmed; [destruct l; [congruence|discriminate]| |].
    + apply Forall_map. eapply Forall_impl; [|exact HF]. apply build_ok.
    + clear Hn. induction HF as [|x l Hx HF IHl]; cbn; constructor; [apply (IH x Hx); apply HS|apply IHl; apply HS].
  - apply capture_trimmed; [now apply build_ok|auto].
  - apply concat_trimmed.
    + apply Forall_map. eapply Forall_impl; [|exact HF]. apply build_ok.
    + induction HF as [|x l Hx HF IHl]; cbn; constructor; [apply (IH x Hx); apply HS|apply IHl; apply HS].
  - apply concat_trimmed; apply Forall_forall; intros x Hx; apply repeat_spec in Hx as ->; [now apply build_ok|auto].
  - apply upto_trimmed; auto. now apply build_ok.
  - apply star_trimmed; [apply symbol_ok|apply symbol_trimmed].
  - apply star_trimmed; [apply capture_ok; now apply build_ok|apply capture_trimmed; [now apply build_ok|auto]].
Qed.
