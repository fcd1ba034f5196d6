(** Laws of matching, and what they say of compiled patterns. *)
From Coq Require Import String.
From Verif Require Export POptional.
From Coq Require Import ZifyBool ZifyNat ZifyN.
Open Scope nat_scope.
Open Scope list_scope.
Set Default Proof Using "Type".

(** ** Group numbers do not matter *)
Lemma regroup T : (forall p g i j L, m_part T p g i j L -> forall g', exists L', m_part T p g' i j L') /\
  (forall e n g i j L, m_iter T e n g i j L -> forall g', exists L', m_iter T e n g' i j L') /\
  (forall e g i j L, m_expr T e g i j L -> forall g', exists L', m_expr T e g' i j L') /\
  (forall e g i j L, m_alts T e g i j L -> forall g', exists L', m_alts T e g' i j L') /\
  (forall b g i j L, m_branch T b g i j L -> forall g', exists L', m_branch T b g' i j L').
Proof.
  apply (match_ind T (fun p g i j L _ => forall g', exists L', m_part T p g' i j L') (fun e n g i j L _ => forall g', exists L', m_iter T e n g' i j L')
    (fun e g i j L _ => forall g', exists L', m_expr T e g' i j L') (fun e g i j L _ => forall g', exists L', m_alts T e g' i j L') (fun b g i j L _ => forall g', exists L', m_branch T b g' i j L')).
  - intros e g i j L H IH g'. destruct (IH g') as (L' & H'). exists L'. now constructor.
  - intros e q n g i j L Hq H IH g'. destruct (IH g') as (L' & H'). exists L'. econstructor; eauto.
  - intros g g'. eexists. constructor.
  - intros g g'. eexists. constructor.
  - intros e g i Hi g'. eexists. constructor. assumption.
  - intros e n g i j k L1 L2 H1 IH1 H2 IH2 g'. destruct (IH1 g') as (M1 & M1'), (IH2 g') as (M2 & M2'). eexists. econstructor; eauto.
  - intros a g i c Hc Ha g'. eexists. econstructor; eauto.
  - intros bs g i j L H IH g'. destruct (IH (S g')) as (L' & H'). eexists. constructor; eauto.
  - intros b bs g i j L H IH g'. destruct (IH g') as (L' & H'). eexists. apply ma_here; eauto.
  - intros b bs g i j L H IH g'. destruct (IH (g' + groups_branch b)) as (L' & H'). eexists. apply ma_later; eauto.
  - intros g i Hi g'. eexists. constructor. assumption.
  - intros p b g i j k L1 L2 H1 IH1 H2 IH2 g'. destruct (IH1 g') as (M1 & M1'), (IH2 (g' + groups_part p)) as (M2 & M2'). eexists. econstructor; eauto.
Qed.

Lemma span_part T p g i j L : m_part T p g i j L -> i <= j <= List.length T.
Proof. apply m_range. Qed.
Lemma span_branch T b g i j L : m_branch T b g i j L -> i <= j <= List.length T.
Proof. apply m_range. Qed.
Lemma span_expr T e g i j L : m_expr T e g i j L -> i <= j <= List.length T.
Proof. apply m_range. Qed.
Lemma span_iter T e n g i j L : m_iter T e n g i j L -> i <= j <= List.length T.
Proof. apply m_range. Qed.

(** ** [may T e i j]: the pattern matches the characters [i .. j) *)
Definition may (T : list N) (e : ere) (i j : nat) : Prop := exists L, matches T e i j L.
Definition may_branch (T : list N) (b : branch) (i j : nat) : Prop := exists g L, m_branch T b g i j L.
Definition may_part (T : list N) (p : part) (i j : nat) : Prop := exists g L, m_part T p g i j L.
Lemma may_alts T e i j : may T e i j <-> exists g L, m_alts T e g i j L.
Proof.
  split.
  - intros (L & L' & H & _). eauto.
  - intros (g & L & H). destruct (proj1 (proj2 (proj2 (proj2 (regroup T)))) _ _ _ _ _ H 1) as (L' & H'). exists (L' ++ [(0, (i, j))]), L'. auto.
Qed.
Lemma occurs_may e T : occurs e T <-> exists i j, may T e i j.
Proof. unfold occurs, may. split; [intros (i & j & L & H); eauto|intros (i & j & L & H); eauto]. Qed.
Lemma may_nil T i j : may T [] i j <-> False.
Proof. rewrite may_alts. split; [intros (g & L & H); inversion H|tauto]. Qed.
Lemma may_cons T b e i j : may T (b :: e) i j <-> may_branch T b i j \/ may T e i j.
Proof.
  rewrite !may_alts. split.
  - intros (g & L & H). inversion H; subst; [left|right]; unfold may_branch; eauto.
  - intros [(g & L & H)|(g & L & H)]; [exists g, L; now constructor|]. destruct (proj1 (proj2 (proj2 (proj2 (regroup T)))) _ _ _ _ _ H (0 + groups_branch b)) as (L' & H').
    exists 0, L'. now apply ma_later.
Qed.
Lemma may_app T e1 e2 i j : may T (e1 ++ e2) i j <-> may T e1 i j \/ may T e2 i j.
Proof. induction e1 as [|b e1 IH]; cbn [app]; rewrite ?may_nil, ?may_cons, ?IH; tauto. Qed.
Lemma may_one T b i j : may T [b] i j <-> may_branch T b i j.
Proof. rewrite may_cons, may_nil. tauto. Qed.
Lemma may_branch_nil T i j : may_branch T [] i j <-> i = j /\ i <= List.length T.
Proof. split; [intros (g & L & H); inversion H; auto|intros [-> H]; exists 0; eexists; now constructor]. Qed.
Lemma may_branch_cons T p b i k : may_branch T (p :: b) i k <-> exists j, may_part T p i j /\ may_branch T b j k.
Proof.
  split.
  - intros (g & L & H). inversion H; subst. unfold may_part, may_branch. eauto 8.
  - intros (j & (g & L & H) & (g' & L' & H')). destruct (proj2 (proj2 (proj2 (proj2 (regroup T)))) _ _ _ _ _ H' (g + groups_part p)) as (L2 & H2). exists g. eexists. econstructor; eauto.
Qed.
Lemma may_branch_app T b c i k : (exists j, may_branch T b i j /\ may_branch T c j k) <-> may_branch T (b ++ c) i k.
Proof.
  revert i. induction b as [|p b IH]; intros i; cbn [app].
  - split; [intros (j & H1 & H2); apply may_branch_nil in H1 as [-> H1]; assumption|]. intros H. exists i. split; [|assumption]. apply may_branch_nil. split; [reflexivity|].
    destruct H as (g & L & H). apply span_branch in H. lia.
  - rewrite may_branch_cons. split.
    + intros (j & H1 & H2). apply may_branch_cons in H1 as (m & H1 & H3). exists m. split; [assumption|]. apply IH. eauto.
    + intros (m & H1 & H2). apply IH in H2 as (j & H2 & H3). exists j. split; [|assumption]. apply may_branch_cons. eauto.
Qed.

Lemma may_group T e i j : may_part T (PSingle (XSub e)) i j <-> may T e i j.
Proof.
  rewrite may_alts. split.
  - intros (g & L & H). inversion H as [x g' i' j' L' H1| | |]; subst. inversion H1; subst. eauto.
  - intros (g & L & H). destruct (proj1 (proj2 (proj2 (proj2 (regroup T)))) _ _ _ _ _ H 1) as (L' & H'). exists 0. eexists. constructor. constructor. eassumption.
Qed.
Lemma may_start T i j : may_part T PStart i j <-> i = 0 /\ j = 0.
Proof. split; [intros (g & L & H); inversion H; auto|intros [-> ->]; exists 0; eexists; constructor]. Qed.
Lemma may_end T i j : may_part T PEnd i j <-> i = List.length T /\ j = List.length T.
Proof. split; [intros (g & L & H); inversion H; auto|intros [-> ->]; exists 0; eexists; constructor]. Qed.
Lemma may_bounds T e i j : may T e i j -> i <= j <= List.length T.
Proof. rewrite may_alts. intros (g & L & H). now apply m_range in H. Qed.

(** Repetitions *)
Inductive repeats (R : nat -> nat -> Prop) (len : nat) : nat -> nat -> nat -> Prop :=
| r_none : forall i, i <= len -> repeats R len 0 i i
| r_more : forall n i j k, R i j -> repeats R len n j k -> repeats R len (S n) i k.
Lemma may_quant T e q i j : may_part T (PQuant (XSub e) q) i j <-> exists n, quant_allows (q_type q) n /\ repeats (may T e) (List.length T) n i j.
Proof.
  split.
  - intros (g & L & H). inversion H as [|x q' n g' i' j' L' Hq Hi| |]; subst. exists n. split; [assumption|]. clear H Hq. remember (XSub e) as x eqn:Ex.
    induction Hi as [x g i Hi|x n g i j k L1 L2 H1 H2 IH]; [now constructor|]. subst x. eapply r_more; [|auto]. apply may_group. exists g, L1. now constructor.
  - intros (n & Hq & H). assert (G : exists L, m_iter T (XSub e) n 0 i j L).
    { clear Hq. induction H as [i Hi|n i j k H1 H2 (L & IH)]; [eexists; now constructor|]. apply may_group in H1 as (g & L1 & H1). inversion H1 as [x g' i' j' L' H3| | |]; subst.
      destruct (proj1 (proj2 (proj2 (regroup T))) _ _ _ _ _ H3 0) as (M & H4). eexists. econstructor; eauto. }
    destruct G as (L & G). exists 0, L. econstructor; eauto.
Qed.

(** ** Patterns without anchors see only what they read *)
Section Slice.
  Variables U T V : list N.
  Notation d := (List.length U).
  Lemma nth_slice i : i < List.length T -> nth_error (U ++ T ++ V) (d + i) = nth_error T i.
  Proof. intros H. rewrite nth_error_app2 by lia. replace (d + i - d) with i by lia. now apply nth_error_app1. Qed.
  Lemma slice_in :
    (forall p g i j L, m_part T p g i j L -> free_part p = true -> exists L', m_part (U ++ T ++ V) p g (d + i) (d + j) L') /\
    (forall e n g i j L, m_iter T e n g i j L -> free_expr e = true -> exists L', m_iter (U ++ T ++ V) e n g (d + i) (d + j) L') /\
    (forall e g i j L, m_expr T e g i j L -> free_expr e = true -> exists L', m_expr (U ++ T ++ V) e g (d + i) (d + j) L') /\
    (forall e g i j L, m_alts T e g i j L -> anchor_free e = true -> exists L', m_alts (U ++ T ++ V) e g (d + i) (d + j) L') /\
    (forall b g i j L, m_branch T b g i j L -> forallb free_part b = true -> exists L', m_branch (U ++ T ++ V) b g (d + i) (d + j) L').
  Proof.
    apply (match_ind T (fun p g i j L _ => free_part p = true -> exists L', m_part (U ++ T ++ V) p g (d + i) (d + j) L')
      (fun e n g i j L _ => free_expr e = true -> exists L', m_iter (U ++ T ++ V) e n g (d + i) (d + j) L')
      (fun e g i j L _ => free_expr e = true -> exists L', m_expr (U ++ T ++ V) e g (d + i) (d + j) L')
      (fun e g i j L _ => anchor_free e = true -> exists L', m_alts (U ++ T ++ V) e g (d + i) (d + j) L')
      (fun b g i j L _ => forallb free_part b = true -> exists L', m_branch (U ++ T ++ V) b g (d + i) (d + j) L')); cbn [free_part free_expr].
    - intros e g i j L H IH Hf. destruct (IH Hf) as (L' & H'). exists L'. now constructor.
    - intros e q n g i j L Hq H IH Hf. destruct (IH Hf) as (L' & H'). exists L'. econstructor; eauto.
    - discriminate.
    - discriminate.
    - intros e g i Hi _. eexists. constructor. rewrite !app_length. lia.
    - intros e n g i j k L1 L2 H1 IH1 H2 IH2 Hf. destruct (IH1 Hf) as (M1 & M1'), (IH2 Hf) as (M2 & M2'). eexists. econstructor; eauto.
    - intros a g i c Hc Ha _. eexists. replace (d + S i) with (S (d + i)) by lia. econstructor; eauto. rewrite nth_slice; [assumption|]. apply nth_error_Some. congruence.
    - intros bs g i j L H IH Hf. destruct (IH Hf) as (L' & H'). eexists. constructor; eauto.
    - intros b bs g i j L H IH Hf. cbn in Hf. apply andb_prop in Hf as [Hf _]. destruct (IH Hf) as (L' & H'). eexists. apply ma_here; eauto.
    - intros b bs g i j L H IH Hf. cbn in Hf. apply andb_prop in Hf as [_ Hf]. destruct (IH Hf) as (L' & H'). eexists. apply ma_later; eauto.
    - intros g i Hi _. eexists. constructor. rewrite !app_length. lia.
    - intros p b g i j k L1 L2 H1 IH1 H2 IH2 Hf. cbn in Hf. apply andb_prop in Hf as [Hf1 Hf2]. destruct (IH1 Hf1) as (M1 & M1'), (IH2 Hf2) as (M2 & M2'). eexists. econstructor; eauto.
  Qed.
  Notation W := (U ++ T ++ V).
  Lemma slice_out :
    (forall p g i j L, m_part W p g i j L -> free_part p = true -> d <= i -> j <= d + List.length T -> exists L', m_part T p g (i - d) (j - d) L') /\
    (forall e n g i j L, m_iter W e n g i j L -> free_expr e = true -> d <= i -> j <= d + List.length T -> exists L', m_iter T e n g (i - d) (j - d) L') /\
    (forall e g i j L, m_expr W e g i j L -> free_expr e = true -> d <= i -> j <= d + List.length T -> exists L', m_expr T e g (i - d) (j - d) L') /\
    (forall e g i j L, m_alts W e g i j L -> anchor_free e = true -> d <= i -> j <= d + List.length T -> exists L', m_alts T e g (i - d) (j - d) L') /\
    (forall b g i j L, m_branch W b g i j L -> forallb free_part b = true -> d <= i -> j <= d + List.length T -> exists L', m_branch T b g (i - d) (j - d) L').
  Proof.
    apply (match_ind W (fun p g i j L _ => free_part p = true -> d <= i -> j <= d + List.length T -> exists L', m_part T p g (i - d) (j - d) L')
      (fun e n g i j L _ => free_expr e = true -> d <= i -> j <= d + List.length T -> exists L', m_iter T e n g (i - d) (j - d) L')
      (fun e g i j L _ => free_expr e = true -> d <= i -> j <= d + List.length T -> exists L', m_expr T e g (i - d) (j - d) L')
      (fun e g i j L _ => anchor_free e = true -> d <= i -> j <= d + List.length T -> exists L', m_alts T e g (i - d) (j - d) L')
      (fun b g i j L _ => forallb free_part b = true -> d <= i -> j <= d + List.length T -> exists L', m_branch T b g (i - d) (j - d) L')); cbn [free_part free_expr].
    - intros e g i j L H IH Hf Hi Hj. destruct (IH Hf Hi Hj) as (L' & H'). exists L'. now constructor.
    - intros e q n g i j L Hq H IH Hf Hi Hj. destruct (IH Hf Hi Hj) as (L' & H'). exists L'. econstructor; eauto.
    - discriminate.
    - discriminate.
    - intros e g i _ _ Hi Hj. eexists. constructor. lia.
    - intros e n g i j k L1 L2 H1 IH1 H2 IH2 Hf Hi Hk. assert (B1 := span_expr _ _ _ _ _ _ H1). assert (B2 := span_iter _ _ _ _ _ _ _ H2).
      destruct (IH1 Hf Hi ltac:(lia)) as (M1 & M1'), (IH2 Hf ltac:(lia) Hk) as (M2 & M2'). eexists. econstructor; eauto.
    - intros a g i c Hc Ha _ Hi Hj. eexists. replace (S i - d) with (S (i - d)) by lia. econstructor; eauto. rewrite <- nth_slice by lia. replace (d + (i - d)) with i by lia. assumption.
    - intros bs g i j L H IH Hf Hi Hj. destruct (IH Hf Hi Hj) as (L' & H'). eexists. constructor; eauto.
    - intros b bs g i j L H IH Hf Hi Hj. cbn in Hf. apply andb_prop in Hf as [Hf _]. destruct (IH Hf Hi Hj) as (L' & H'). eexists. apply ma_here; eauto.
    - intros b bs g i j L H IH Hf Hi Hj. cbn in Hf. apply andb_prop in Hf as [_ Hf]. destruct (IH Hf Hi Hj) as (L' & H'). eexists. apply ma_later; eauto.
    - intros g i _ _ Hi Hj. eexists. constructor. lia.
    - intros p b g i j k L1 L2 H1 IH1 H2 IH2 Hf Hi Hk. cbn in Hf. apply andb_prop in Hf as [Hf1 Hf2]. assert (B1 := span_part _ _ _ _ _ _ H1). assert (B2 := span_branch _ _ _ _ _ _ H2).
      destruct (IH1 Hf1 Hi ltac:(lia)) as (M1 & M1'), (IH2 Hf2 ltac:(lia) Hk) as (M2 & M2'). eexists. econstructor; eauto.
  Qed.
  Lemma may_slice e i j : anchor_free e = true -> i <= j <= List.length T -> may T e i j <-> may W e (d + i) (d + j).
  Proof.
    intros Hf Hij. rewrite !may_alts. split.
    - intros (g & L & H). exists g. now apply slice_in in H.
    - intros (g & L & H). exists g. apply slice_out in H; [|assumption|lia|lia]. replace (d + i - d) with i in H by lia. replace (d + j - d) with j in H by lia. exact H.
  Qed.
End Slice.

(** ** The texts a pattern matches from end to end *)
Definition full (e : ere) (T : list N) : Prop := may T e 0 (List.length T).
Lemma may_full e U T V : anchor_free e = true -> may (U ++ T ++ V) e (List.length U) (List.length U + List.length T) <-> full e T.
Proof. intros Hf. unfold full. rewrite (may_slice U T V e 0 (List.length T) Hf) by lia. now rewrite Nat.add_0_r. Qed.
Lemma may_split e T i j : anchor_free e = true -> may T e i j <-> exists U M V, T = U ++ M ++ V /\ List.length U = i /\ List.length U + List.length M = j /\ full e M.
Proof.
  intros Hf. split.
  - intros H. assert (B := may_bounds _ _ _ _ H). exists (firstn i T), (firstn (j - i) (skipn i T)), (skipn (j - i) (skipn i T)).
    assert (E : T = firstn i T ++ firstn (j - i) (skipn i T) ++ skipn (j - i) (skipn i T)) by now rewrite !firstn_skipn.
    assert (L1 : List.length (firstn i T) = i) by (rewrite firstn_length; lia). assert (L2 : List.length (firstn (j - i) (skipn i T)) = j - i) by (rewrite firstn_length, skipn_length; lia).
    split; [assumption|]. split; [assumption|]. split; [lia|]. apply (may_full e (firstn i T) _ (skipn (j - i) (skipn i T)) Hf). rewrite <- E, L1, L2. now replace (i + (j - i)) with j by lia.
  - intros (U & M & V & -> & <- & <- & H). now apply may_full.
Qed.
Lemma occurs_full e T : anchor_free e = true -> occurs e T <-> exists U M V, T = U ++ M ++ V /\ full e M.
Proof.
  intros Hf. rewrite occurs_may. split.
  - intros (i & j & H). apply may_split in H as (U & M & V & E & _ & _ & H); eauto.
  - intros (U & M & V & E & H). exists (List.length U), (List.length U + List.length M). apply may_split; eauto 8.
Qed.
Lemma full_app e f T : full (e ++ f) T <-> full e T \/ full f T.
Proof. apply may_app. Qed.
Definition grouped (e : ere) : part := PSingle (XSub e).
Lemma full_concat b c T : forallb free_part b = true -> forallb free_part c = true -> full [b ++ c] T <-> exists U V, T = U ++ V /\ full [b] U /\ full [c] V.
Proof.
  intros Hb Hc. assert (Fb : anchor_free [b] = true) by (cbn; now rewrite Hb). assert (Fc : anchor_free [c] = true) by (cbn; now rewrite Hc). unfold full at 1. rewrite may_one, <- may_branch_app. split.
  - intros (j & H1 & H2). apply may_one in H1, H2. apply (may_split [b] T _ _ Fb) in H1 as (U & M & V & E & E1 & E2 & H1). destruct U; [|discriminate]. cbn in E, E1, E2. exists M, V. split; [assumption|]. split; [assumption|].
    apply (may_full [c] M V [] Fc). rewrite app_nil_r, <- E, E2. assert (L := f_equal (@List.length _) E). rewrite app_length in L. now replace (j + List.length V) with (List.length T) by lia.
  - intros (U & V & -> & H1 & H2). exists (List.length U). split; apply may_one.
    + apply (may_split [b] _ 0 _ Fb). exists [], U, V. auto.
    + apply (may_split [c] _ _ _ Fc). exists U, V, []. rewrite app_nil_r, app_length. auto.
Qed.
Lemma skipn_exact {X} (u v : list X) : skipn (List.length u) (u ++ v) = v.
Proof. induction u; auto. Qed.
Lemma repeats_full e n T i : anchor_free e = true -> i <= List.length T -> repeats (may T e) (List.length T) n i (List.length T) <-> exists Ts, List.length Ts = n /\ concat Ts = skipn i T /\ Forall (full e) Ts.
Proof.
  intros Hf. revert i. induction n as [|n IH]; intros i Hi.
  - split.
    + intros H. inversion H; subst. exists []. split; [reflexivity|]. split; [|constructor]. cbn. now rewrite skipn_all.
    + intros (Ts & H1 & H2 & _). destruct Ts; [|discriminate]. cbn in H2. assert (E := f_equal (@List.length _) H2). rewrite skipn_length in E. cbn in E. assert (i = List.length T) as -> by lia. now constructor.
  - split.
    + intros H. inversion H as [|n' i' j k H1 H2]; subst. assert (B := may_bounds _ _ _ _ H1). apply IH in H2 as (Ts & L & E & F); [|lia]. apply (may_split e T i j Hf) in H1 as (U & M & V & E1 & E2 & E3 & H1).
      exists (M :: Ts). split; [cbn; lia|]. split; [|constructor; assumption]. cbn. rewrite E, E1. rewrite <- E3, <- E2. rewrite skipn_exact, <- app_length. f_equal. rewrite app_assoc. apply skipn_exact.
    + intros (Ts & L & E & F). destruct Ts as [|M Ts]; [discriminate|]. inversion F as [|? ? F1 F2]; subst. cbn in E.
      assert (ET : T = firstn i T ++ M ++ concat Ts) by (rewrite E; now rewrite firstn_skipn). assert (LU : List.length (firstn i T) = i) by (rewrite firstn_length; lia).
      assert (LT := f_equal (@List.length _) ET). rewrite !app_length, LU in LT.
      apply r_more with (j := i + List.length M); [apply (may_split e T _ _ Hf); exists (firstn i T), M, (concat Ts); rewrite LU; auto|]. apply IH; [lia|]. exists Ts. split; [cbn in L; lia|]. split; [|assumption].
      rewrite ET at 1. rewrite <- LU at 1. rewrite <- app_length, app_assoc. symmetry. apply skipn_exact.
Qed.
Lemma full_quant e q T : anchor_free e = true -> full [[PQuant (XSub e) q]] T <-> exists Ts, quant_allows (q_type q) (List.length Ts) /\ concat Ts = T /\ Forall (full e) Ts.
Proof.
  intros Hf. unfold full at 1. rewrite may_one, may_branch_cons. split.
  - intros (j & H & H1). apply may_branch_nil in H1 as [-> _]. apply may_quant in H as (n & Hq & H). apply (repeats_full e n T 0 Hf) in H as (Ts & <- & E & F); [|lia]. eauto.
  - intros (Ts & Hq & E & F). exists (List.length T). split; [|apply may_branch_nil; auto]. apply may_quant. exists (List.length Ts). split; [assumption|]. apply (repeats_full e _ T 0 Hf); [lia|]. eauto.
Qed.

(** ** Texts of patterns *)
Lemma G_either e f p q : G_ere e p -> G_ere f q -> G_ere (e ++ f) (either p q).
Proof.
  intros He Hf. unfold either. induction He as [b t Hb|b e t u Hb He IH]; cbn [app].
  - now constructor.
  - rewrite <- app_assoc. replace ((s2l "|" ++ u) ++ s2l "|" ++ q) with (s2l "|" ++ (u ++ s2l "|" ++ q)) by now rewrite app_assoc. now constructor.
Qed.
Lemma G_group e p : G_ere e p -> G_ere [[grouped e]] (parens p).
Proof. intros H. constructor. rewrite <- (app_nil_r (parens p)). constructor; [|constructor]. unfold grouped, parens. now do 2 constructor. Qed.
Lemma G_branch_app b c p q : G_branch b p -> G_branch c q -> G_branch (b ++ c) (p ++ q).
Proof. intros Hb Hc. induction Hb as [|x b t u Hx Hb IH]; [assumption|]. cbn [app]. rewrite <- app_assoc. now constructor. Qed.
Lemma G_whole e p : G_ere e p -> G_ere [[PStart; grouped e; PEnd]] (entire p).
Proof.
  intros H. constructor. change (entire p) with (s2l "^" ++ (s2l "(" ++ p ++ s2l ")$")). constructor; [constructor|]. replace (s2l "(" ++ p ++ s2l ")$") with (parens p ++ s2l "$" ++ []) by (unfold parens; rewrite <- !app_assoc; reflexivity).
  constructor; [unfold grouped, parens; now do 2 constructor|]. constructor; constructor.
Qed.
Lemma G_repeat e p q u : G_ere e p -> G_quant q u -> G_ere [[PQuant (XSub e) q]] (parens p ++ u).
Proof. intros H Hq. constructor. rewrite <- (app_nil_r (parens p ++ u)). constructor; [|constructor]. constructor; [now constructor|assumption]. Qed.

Lemma occurs_app e f T : occurs (e ++ f) T <-> occurs e T \/ occurs f T.
Proof.
  rewrite !occurs_may. split.
  - intros (i & j & H). apply may_app in H as [H|H]; eauto.
  - intros [(i & j & H)|(i & j & H)]; exists i, j; apply may_app; auto.
Qed.
Lemma may_grouped T e i j : may T [[grouped e]] i j <-> may T e i j.
Proof.
  rewrite may_one, may_branch_cons. split; [intros (k & H & H1); apply may_branch_nil in H1 as [-> _]; now apply may_group|].
  intros H. assert (B := may_bounds _ _ _ _ H). exists j. split; [now apply may_group|apply may_branch_nil; split; [reflexivity|lia]].
Qed.
Lemma occurs_group e T : occurs [[grouped e]] T <-> occurs e T.
Proof. rewrite !occurs_may. split; intros (i & j & H); exists i, j; now apply may_grouped. Qed.
Lemma occurs_whole e T : occurs [[PStart; grouped e; PEnd]] T <-> full e T.
Proof.
  rewrite occurs_may. unfold full. split.
  - intros (i & j & H). apply may_one, may_branch_cons in H as (i1 & H1 & H). apply may_start in H1 as [-> ->]. apply may_branch_cons in H as (k & H1 & H). apply may_group in H1.
    apply may_branch_cons in H as (k' & H2 & _). apply may_end in H2 as [-> _]. assumption.
  - intros H. exists 0, (List.length T). apply may_one, may_branch_cons. exists 0. split; [apply may_start; auto|]. apply may_branch_cons. exists (List.length T). split; [now apply may_group|].
    apply may_branch_cons. exists (List.length T). split; [apply may_end; auto|]. apply may_branch_nil. auto.
Qed.
Lemma occurs_repeat e q T : quant_allows (q_type q) 0 -> occurs [[PQuant (XSub e) q]] T.
Proof.
  intros Hq. apply occurs_may. exists 0, 0. apply may_one, may_branch_cons. exists 0. split; [|apply may_branch_nil; split; [reflexivity|lia]]. apply may_quant. exists 0. split; [assumption|]. constructor. lia.
Qed.
(** A positive number of repetitions is found wherever one is. *)
Lemma occurs_plus e a T : occurs [[PQuant (XSub e) {| q_type := QPlus; q_alt := a |}]] T <-> occurs e T.
Proof.
  rewrite !occurs_may. split.
  - intros (i & j & H). apply may_one, may_branch_cons in H as (k & H & _). apply may_quant in H as (n & Hn & H). cbn in Hn. inversion H; subst; [lia|eauto].
  - intros (i & j & H). exists i, j. assert (B := may_bounds _ _ _ _ H). apply may_one, may_branch_cons. exists j. split; [|apply may_branch_nil; split; [reflexivity|lia]].
    apply may_quant. exists 1. split; [cbn; lia|]. eapply r_more; [eassumption|]. constructor. lia.
Qed.
Lemma carets_free e : anchor_free e = true -> carets e = Some 0.
Proof. intros H. now apply (proj2 (proj2 (proj2 free_counts))) in H as [[H _] _]. Qed.
Lemma caret_ok_free e : anchor_free e = true -> caret_ok e = true.
Proof. intros H. unfold caret_ok. now rewrite (carets_free e H). Qed.
Lemma caret_ok_whole e : anchor_free e = true -> caret_ok [[PStart; grouped e; PEnd]] = true.
Proof.
  intros H. apply carets_free in H. assert (E : carets [[PStart; grouped e; PEnd]] = Some 1); [|unfold caret_ok; now rewrite E].
  change (carets [[PStart; grouped e; PEnd]]) with (total [Some 1; carets e; Some 0]). now rewrite H.
Qed.

(** ** Compiled patterns *)
(** The engine is not a DFA, or its pattern keeps the condition under which DFAs answer correctly (see C17). *)
Definition reliable (s : list N) (en : engine) : Prop := compiled s en /\ (not_dfa en \/ forall e, G_ere e s -> caret_ok e = true).
Lemma reliable_test s en e T : reliable s en -> Forall scalar s -> Forall scalar T -> G_ere e s -> exists b, engine_test en T = Ok b /\ (b = true <-> occurs e T).
Proof.
  intros [H Hr] Hs HT Hg. destruct (compiled_unique s en e H Hs Hg) as (_ & R & _). apply right_test; [|assumption]. apply R. destruct Hr as [Hr|Hr]; auto.
Qed.
Lemma reliable_true s en e T : reliable s en -> Forall scalar s -> Forall scalar T -> G_ere e s -> engine_test en T = Ok true <-> occurs e T.
Proof. intros H Hs HT Hg. destruct (reliable_test s en e T H Hs HT Hg) as (b & -> & Hb). rewrite <- Hb. split; [congruence|now intros ->]. Qed.
Lemma grammar_unique e f s : G_ere e s -> G_ere f s -> e = f.
Proof. intros H1 H2. apply parse_iff in H1, H2. congruence. Qed.
Lemma free_reliable s en e : compiled s en -> G_ere e s -> anchor_free e = true -> reliable s en.
Proof. intros H Hg Hf. split; [assumption|]. right. intros e' Hg'. rewrite (grammar_unique _ _ _ Hg' Hg). now apply caret_ok_free. Qed.
Lemma whole_reliable s en e : compiled (entire s) en -> G_ere e s -> anchor_free e = true -> reliable (entire s) en.
Proof. intros H Hg Hf. split; [assumption|]. right. intros e' Hg'. rewrite (grammar_unique _ _ _ Hg' (G_whole _ _ Hg)). now apply caret_ok_whole. Qed.
Lemma compiled_parsed s en : compiled s en -> Forall scalar s -> exists e, G_ere e s.
Proof. intros H Hs. destruct (compiled_right s en H Hs) as (e & G & _). eauto. Qed.

Lemma scalar_part s t u : Forall scalar (s ++ t ++ u) -> Forall scalar t.
Proof. intros H. apply Forall_app in H as [_ H]. now apply Forall_app in H as [H _]. Qed.
Lemma scalar_whole s : Forall scalar s -> Forall scalar (entire s).
Proof. intros H. unfold entire. apply Forall_app. split; [repeat constructor|]. apply Forall_app. split; [assumption|repeat constructor]. Qed.
Lemma scalar_group s : Forall scalar s -> Forall scalar (parens s).
Proof. intros H. unfold parens. apply Forall_app. split; [repeat constructor|]. apply Forall_app. split; [assumption|repeat constructor]. Qed.
Lemma scalar_either s t : Forall scalar s -> Forall scalar t -> Forall scalar (either s t).
Proof. intros H1 H2. unfold either. apply Forall_app. split; [assumption|]. apply Forall_app. split; [repeat constructor|assumption]. Qed.

Lemma law_either p q ep eq er T : reliable p ep -> reliable q eq -> reliable (either p q) er -> Forall scalar p -> Forall scalar q -> Forall scalar T ->
  exists b c, engine_test ep T = Ok b /\ engine_test eq T = Ok c /\ engine_test er T = Ok (b || c).
Proof.
  intros Hp Hq Hr Sp Sq HT. destruct (compiled_parsed p ep (proj1 Hp) Sp) as (e & He), (compiled_parsed q eq (proj1 Hq) Sq) as (f & Hf).
  destruct (reliable_test p ep e T Hp Sp HT He) as (b & Eb & Hb), (reliable_test q eq f T Hq Sq HT Hf) as (c & Ec & Hc).
  destruct (reliable_test _ er _ T Hr (scalar_either _ _ Sp Sq) HT (G_either _ _ _ _ He Hf)) as (d & Ed & Hd). exists b, c. split; [assumption|]. split; [assumption|]. rewrite Ed. f_equal.
  rewrite occurs_app, <- Hb, <- Hc in Hd. destruct b, c, d; try reflexivity; cbn; intuition congruence.
Qed.
Lemma law_group p ep er T : reliable p ep -> reliable (parens p) er -> Forall scalar p -> Forall scalar T -> engine_test er T = engine_test ep T.
Proof.
  intros Hp Hr Sp HT. destruct (compiled_parsed p ep (proj1 Hp) Sp) as (e & He).
  destruct (reliable_test p ep e T Hp Sp HT He) as (b & -> & Hb), (reliable_test _ er _ T Hr (scalar_group _ Sp) HT (G_group _ _ He)) as (d & -> & Hd). rewrite occurs_group, <- Hb in Hd. f_equal. apply eq_true_iff_eq. assumption.
Qed.
Lemma quant_scalar q u : G_quant q u -> Forall scalar u.
Proof.
  assert (D : forall ds, Forall is_digit ds -> Forall scalar ds).
  { intros ds H. eapply Forall_impl; [|exact H]. intros d [H1 H2]. unfold scalar, scalarb. change (ch "9") with 57%N in H2. apply orb_true_intro. left. apply N.ltb_lt. lia. }
  assert (Nn : forall n t, G_num n t -> Forall scalar t) by (intros n t [ds _ H _|ds _ H _]; [auto|apply Forall_app; split; [repeat constructor|auto]]).
  assert (Q : forall x t, G_qtype x t -> Forall scalar t) by (intros x t []; repeat (apply Forall_app; split); eauto; repeat constructor).
  intros [x t H|x t H]; [eauto|]. apply Forall_app. split; [eauto|repeat constructor].
Qed.
Lemma law_optional p q u er T : reliable (parens p ++ u) er -> G_quant q u -> quant_allows (q_type q) 0 -> (exists e, G_ere e p) -> Forall scalar p -> Forall scalar T -> engine_test er T = Ok true.
Proof.
  intros Hr Hq Hz (e & He) Sp HT. apply (reliable_true _ er [[PQuant (XSub e) q]] T Hr); [|assumption|exact (G_repeat _ _ _ _ He Hq)|now apply occurs_repeat].
  apply Forall_app. split; [now apply scalar_group|eapply quant_scalar; eauto].
Qed.
Lemma law_whole p er e T : reliable (entire p) er -> G_ere e p -> Forall scalar p -> Forall scalar T -> engine_test er T = Ok true <-> exists L, matches T e 0 (List.length T) L.
Proof. intros Hr He Sp HT. rewrite (reliable_true _ er _ T Hr (scalar_whole _ Sp) HT (G_whole _ _ He)). apply occurs_whole. Qed.
Lemma whole_full p er e T : compiled (entire p) er -> G_ere e p -> anchor_free e = true -> Forall scalar p -> Forall scalar T -> engine_test er T = Ok true <-> full e T.
Proof. intros Hr He Hf Sp HT. apply (law_whole p er e T); eauto using whole_reliable. Qed.

Lemma law_infix p ep ew e T : compiled p ep -> compiled (entire p) ew -> G_ere e p -> anchor_free e = true -> Forall scalar p -> Forall scalar T ->
  engine_test ep T = Ok true <-> exists U M V, T = U ++ M ++ V /\ engine_test ew M = Ok true.
Proof.
  intros Hp Hw He Hf Sp HT. rewrite (reliable_true p ep e T (free_reliable _ _ _ Hp He Hf) Sp HT He), (occurs_full e T Hf). split; intros (U & M & V & E & H); exists U, M, V; (split; [assumption|]);
    (assert (HM : Forall scalar M) by (rewrite E in HT; eapply scalar_part; eauto)); now apply (whole_full p ew e M).
Qed.
Lemma free_either e f : anchor_free e = true -> anchor_free f = true -> anchor_free (e ++ f) = true.
Proof. intros H1 H2. unfold anchor_free in *. rewrite forallb_app. apply andb_true_intro. split; assumption. Qed.
Lemma law_union p q ep eq er e f T : compiled (entire p) ep -> compiled (entire q) eq -> compiled (entire (either p q)) er -> G_ere e p -> G_ere f q -> anchor_free e = true -> anchor_free f = true ->
  Forall scalar p -> Forall scalar q -> Forall scalar T -> engine_test er T = Ok true <-> engine_test ep T = Ok true \/ engine_test eq T = Ok true.
Proof.
  intros Hp Hq Hr He Hf Fe Ff Sp Sq HT. rewrite (whole_full p ep e T), (whole_full q eq f T), (whole_full (either p q) er (e ++ f) T); eauto using free_either, G_either, scalar_either. apply full_app.
Qed.
Lemma full_grouped e T : full [[grouped e]] T <-> full e T.
Proof. apply may_grouped. Qed.
Lemma free_grouped e : anchor_free e = true -> anchor_free [[grouped e]] = true.
Proof. intros H. change (anchor_free [[grouped e]]) with (anchor_free e && true && true). now rewrite H. Qed.
Lemma law_concat p q ep eq er e f T : compiled (entire p) ep -> compiled (entire q) eq -> compiled (entire (parens p ++ parens q)) er -> G_ere e p -> G_ere f q -> anchor_free e = true -> anchor_free f = true ->
  Forall scalar p -> Forall scalar q -> Forall scalar T -> engine_test er T = Ok true <-> exists U V, T = U ++ V /\ engine_test ep U = Ok true /\ engine_test eq V = Ok true.
Proof.
  intros Hp Hq Hr He Hf Fe Ff Sp Sq HT. assert (Hg : G_ere [[grouped e] ++ [grouped f]] (parens p ++ parens q)).
  { constructor. apply G_branch_app; [assert (H := G_group e p He)|assert (H := G_group f q Hf)]; inversion H as [b t Hb|b l t u Hb Hl]; subst; try assumption; inversion Hl. }
  assert (Fg : anchor_free [[grouped e] ++ [grouped f]] = true) by (change (anchor_free [[grouped e] ++ [grouped f]]) with (anchor_free e && (anchor_free f && true) && true); now rewrite Fe, Ff).
  rewrite (whole_full _ er _ T Hr Hg Fg); [|apply Forall_app; split; now apply scalar_group|assumption].
  rewrite full_concat; [|change (forallb free_part [grouped e]) with (anchor_free e && true); now rewrite Fe|change (forallb free_part [grouped f]) with (anchor_free f && true); now rewrite Ff].
  split; intros (U & V & E & H1 & H2); exists U, V; (split; [assumption|]); (assert (HU : Forall scalar U /\ Forall scalar V) by (rewrite E in HT; now apply Forall_app in HT)); destruct HU as [HU HV].
  - rewrite (whole_full p ep e U), (whole_full q eq f V); auto. split; now apply full_grouped.
  - rewrite (whole_full p ep e U) in H1 by auto. rewrite (whole_full q eq f V) in H2 by auto. split; now apply full_grouped.
Qed.
Lemma law_repeat p q u ep er e T : compiled (entire p) ep -> compiled (entire (parens p ++ u)) er -> G_ere e p -> G_quant q u -> anchor_free e = true ->
  Forall scalar p -> Forall scalar T -> engine_test er T = Ok true <-> exists Ts, quant_allows (q_type q) (List.length Ts) /\ concat Ts = T /\ Forall (fun M => engine_test ep M = Ok true) Ts.
Proof.
  intros Hp Hr He Hq Fe Sp HT. rewrite (whole_full _ er _ T Hr (G_repeat _ _ _ _ He Hq)); [|change (anchor_free [[PQuant (XSub e) q]]) with (anchor_free e && true && true); now rewrite Fe|apply Forall_app; split; [now apply scalar_group|eapply quant_scalar; eauto]|assumption].
  rewrite (full_quant e q T Fe). split; intros (Ts & H1 & H2 & H3); exists Ts; (split; [assumption|]); (split; [assumption|]); rewrite Forall_forall in H3, HT; apply Forall_forall; intros M HM; specialize (H3 M HM);
    (assert (SM : Forall scalar M) by (rewrite Forall_forall; intros c Hc; apply HT; rewrite <- H2; apply in_concat; eauto)); now apply (whole_full p ep e M Hp He Fe Sp SM).
Qed.

(** The outer group of [(p)] reports the whole match. *)
Lemma law_outer p en T cs : compiled (parens p) en -> (exists e, G_ere e p) -> Forall scalar p -> Forall scalar T -> engine_exec en T = Ok (Some cs) -> 1 < List.length cs -> nth_error cs 1 = nth_error cs 0.
Proof.
  intros Hc (e & He) Sp HT Ex Hl. destruct (compiled_unique _ en _ Hc (scalar_group _ Sp) (G_group _ _ He)) as (_ & _ & n & _ & _ & Hs).
  destruct (Hs T HT) as (b & o & _ & Eo & _ & _ & Ho). rewrite Ex in Eo. injection Eo as <-. destruct (Ho cs eq_refl) as (_ & _ & i & j & L & Hm0 & Ecs & _). apply late_uncaret in Hm0 as (L' & Hm & ->).
  change (uncaret [[grouped e]]) with [[PSingle (XSub (uncaret e))]] in Hm. inversion Hm as [b' bs g i' j' L1 H|b' bs g i' j' L1 H]; subst; [|inversion H]. inversion H as [|x b' g i' j' k L1 L2 H1 H2]; subst. inversion H2; subst.
  inversion H1 as [x g i' j' L H3| | |]; subst. inversion H3 as [|bs g i' j' L H4]; subst. rewrite Ecs. rewrite !nth_error_map. rewrite (nth_error_nth' _ 0) by (rewrite seq_length; lia). rewrite (nth_error_nth' (seq 0 (List.length cs)) 0) by (rewrite seq_length; lia).
  rewrite !seq_nth by lia. cbn [option_map Nat.add]. unfold capture. rewrite !last_of_app. cbn. reflexivity.
Qed.

Lemma law_extend p en e U T V : compiled p en -> G_ere e p -> anchor_free e = true -> Forall scalar p -> Forall scalar (U ++ T ++ V) -> engine_test en T = Ok true -> engine_test en (U ++ T ++ V) = Ok true.
Proof.
  intros H He Hf Sp HS. assert (Hr := free_reliable p en e H He Hf). rewrite (reliable_true p en e T Hr Sp (scalar_part _ _ _ HS) He), (reliable_true p en e _ Hr Sp HS He). rewrite !(occurs_full e _ Hf).
  intros (A & M & B & -> & HM). exists (U ++ A), M, (B ++ V). split; [|assumption]. now rewrite <- !app_assoc.
Qed.
