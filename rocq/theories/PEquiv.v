(** The rules of SpecEquiv.v keep the places where a pattern matches. *)
From Verif Require Export SpecEquiv.
From Coq Require Import ZifyBool ZifyNat ZifyN.
Open Scope nat_scope.
Open Scope list_scope.

Section Sound.
  Variable T : list N.
  (** ** Group numbers do not matter *)
  Lemma any_group :
    (forall p g i j L, m_part T p g i j L -> forall g', exists L', m_part T p g' i j L') /\
    (forall e n g i j L, m_iter T e n g i j L -> forall g', exists L', m_iter T e n g' i j L') /\
    (forall e g i j L, m_expr T e g i j L -> forall g', exists L', m_expr T e g' i j L') /\
    (forall e g i j L, m_alts T e g i j L -> forall g', exists L', m_alts T e g' i j L') /\
    (forall b g i j L, m_branch T b g i j L -> forall g', exists L', m_branch T b g' i j L').
  Proof.
    apply match_ind.
    - intros e g i j L _ IH g'. destruct (IH g') as (L' & H). exists L'. now constructor.
    - intros e q n g i j L Hq _ IH g'. destruct (IH g') as (L' & H). exists L'. now apply mp_quant with (n := n).
    - intros g g'. eexists. constructor.
    - intros g g'. eexists. constructor.
    - intros e g i Hi g'. eexists. now constructor.
    - intros e n g i j k L1 L2 _ IH1 _ IH2 g'. destruct (IH1 g') as (L1' & H1), (IH2 g') as (L2' & H2). eexists. econstructor; eauto.
    - intros a g i c Hc Ha g'. eexists. econstructor; eauto.
    - intros bs g i j L _ IH g'. destruct (IH (S g')) as (L' & H). eexists. constructor. eauto.
    - intros b bs g i j L _ IH g'. destruct (IH g') as (L' & H). exists L'. now constructor.
    - intros b bs g i j L _ IH g'. destruct (IH (g' + groups_branch b)) as (L' & H). exists L'. now apply ma_later.
    - intros g i Hi g'. eexists. now constructor.
    - intros p b g i j k L1 L2 _ IH1 _ IH2 g'. destruct (IH1 g') as (L1' & H1), (IH2 (g' + groups_part p)) as (L2' & H2). eexists. econstructor; eauto.
  Qed.
  Lemma in_text :
    (forall p g i j L, m_part T p g i j L -> i <= j <= length T) /\
    (forall e n g i j L, m_iter T e n g i j L -> i <= j <= length T) /\
    (forall e g i j L, m_expr T e g i j L -> i <= j <= length T) /\
    (forall e g i j L, m_alts T e g i j L -> i <= j <= length T) /\
    (forall b g i j L, m_branch T b g i j L -> i <= j <= length T).
  Proof.
    apply match_ind; intros; try lia. assert (i < length T) by (apply nth_error_Some; congruence). lia.
  Qed.
  (** ** Where a piece of a pattern matches *)
  Definition dP p i j := exists g L, m_part T p g i j L.
  Definition dI x n i j := exists g L, m_iter T x n g i j L.
  Definition dX x i j := exists g L, m_expr T x g i j L.
  Definition dE e i j := exists g L, m_alts T e g i j L.
  Definition dB b i j := exists g L, m_branch T b g i j L.
  Lemma dP_single x i j : dP (PSingle x) i j <-> dX x i j.
  Proof. split; intros (g & L & H); exists g, L; [now inversion H|now constructor]. Qed.
  Lemma dP_quant x q i j : dP (PQuant x q) i j <-> exists n, allows q n /\ dI x n i j.
  Proof.
    split.
    - intros (g & L & H). inversion H; subst. exists n. split; [assumption|]. now exists g, L.
    - intros (n & Hn & g & L & H). exists g, L. now apply mp_quant with (n := n).
  Qed.
  Lemma dP_start i j : dP PStart i j <-> i = 0 /\ j = 0.
  Proof. split; [intros (g & L & H); now inversion H|intros [-> ->]; exists 0; eexists; constructor]. Qed.
  Lemma dP_end i j : dP PEnd i j <-> i = length T /\ j = length T.
  Proof. split; [intros (g & L & H); now inversion H|intros [-> ->]; exists 0; eexists; constructor]. Qed.
  Lemma dI_none x i j : dI x 0 i j <-> i = j /\ i <= length T.
  Proof. split; [intros (g & L & H); now inversion H|intros [<- H]; exists 0; eexists; now constructor]. Qed.
  Lemma dI_more x n i k : dI x (S n) i k <-> exists j, dX x i j /\ dI x n j k.
  Proof.
    split.
    - intros (g & L & H). inversion H; subst. exists j. split; eexists; eauto.
    - intros (j & (g & L & H) & g' & L' & H'). destruct any_group as (_ & A & _). destruct (A _ _ _ _ _ _ H' g) as (L2 & H2). exists g. eexists. econstructor; eauto.
  Qed.
  Lemma dX_sub e i j : dX (XSub e) i j <-> dE e i j.
  Proof.
    split; [intros (g & L & H); inversion H; subst; eexists; eauto|]. intros (g & L & H). destruct any_group as (_ & _ & _ & A & _). destruct (A _ _ _ _ _ H 1) as (L2 & H2). exists 0. eexists. eapply me_group. exact H2.
  Qed.
  Lemma dX_atom a i j : dX (XAtom a) i j <-> exists c, nth_error T i = Some c /\ atom_has a c /\ j = S i.
  Proof. split; [intros (g & L & H); inversion H; subst; eauto|]. intros (c & H1 & H2 & ->). exists 0. eexists. econstructor; eauto. Qed.
  Lemma dE_nil i j : ~ dE [] i j.
  Proof. intros (g & L & H). inversion H. Qed.
  Lemma dE_cons b e i j : dE (b :: e) i j <-> dB b i j \/ dE e i j.
  Proof.
    destruct any_group as (_ & _ & _ & A & _). split.
    - intros (g & L & H). inversion H; subst; [left|right]; eexists; eauto.
    - intros [(g & L & H)|(g & L & H)]; [exists g, L; now constructor|]. destruct (A _ _ _ _ _ H (0 + groups_branch b)) as (L2 & H2). exists 0, L2. now apply ma_later.
  Qed.
  Lemma dE_in e i j : dE e i j <-> exists b, In b e /\ dB b i j.
  Proof.
    induction e as [|b e IH]; [split; [now intros H%dE_nil|now intros (b & [] & _)]|]. rewrite dE_cons, IH. split.
    - intros [H|(c & Hc & H)]; [exists b; cbn; auto|exists c; cbn; auto].
    - intros (c & [<-|Hc] & H); [now left|right; eauto].
  Qed.
  Lemma dB_nil i j : dB [] i j <-> i = j /\ i <= length T.
  Proof. split; [intros (g & L & H); now inversion H|intros [<- H]; exists 0; eexists; now constructor]. Qed.
  Lemma dB_cons p b i k : dB (p :: b) i k <-> exists j, dP p i j /\ dB b j k.
  Proof.
    split.
    - intros (g & L & H). inversion H; subst. exists j. split; eexists; eauto.
    - intros (j & (g & L & H) & g' & L' & H'). destruct any_group as (_ & _ & _ & _ & A). destruct (A _ _ _ _ _ H' (g + groups_part p)) as (L2 & H2). exists g. eexists. econstructor; eauto.
  Qed.
  Lemma dB_text b i j : dB b i j -> i <= j <= length T.
  Proof. intros (g & L & H). exact (proj2 (proj2 (proj2 (proj2 in_text))) _ _ _ _ _ H). Qed.
  Lemma dI_text x n i j : dI x n i j -> i <= j <= length T.
  Proof. intros (g & L & H). exact (proj1 (proj2 in_text) _ _ _ _ _ _ H). Qed.
  Lemma dX_text x i j : dX x i j -> i <= j <= length T.
  Proof. intros (g & L & H). exact (proj1 (proj2 (proj2 in_text)) _ _ _ _ _ H). Qed.
  Lemma dB_app a b : forall i k, dB (a ++ b) i k <-> exists j, dB a i j /\ dB b j k.
  Proof.
    induction a as [|p a IH]; intros i k; cbn [app].
    - split; [intros H; exists i; rewrite dB_nil; assert (X := dB_text _ _ _ H); repeat split; auto; lia|]. intros (j & [-> _]%dB_nil & H). exact H.
    - rewrite dB_cons. setoid_rewrite IH. setoid_rewrite dB_cons. split.
      + intros (j & Hp & m & Ha & Hb). eauto.
      + intros (m & (j & Hp & Ha) & Hb). eauto.
  Qed.
  Lemma dI_app x k : forall l i m, dI x (k + l) i m <-> exists j, dI x k i j /\ dI x l j m.
  Proof.
    induction k as [|k IH]; intros l i m; cbn [Nat.add].
    - split; [intros H; exists i; rewrite dI_none; assert (X := dI_text _ _ _ _ H); repeat split; auto; lia|]. intros (j & [-> _]%dI_none & H). exact H.
    - rewrite dI_more. setoid_rewrite IH. setoid_rewrite dI_more. split.
      + intros (j & Hx & n & Ha & Hb). eauto.
      + intros (n & (j & Hx & Ha) & Hb). eauto.
  Qed.
  Lemma dI_ext x y : (forall i j, dX x i j <-> dX y i j) -> forall n i j, dI x n i j <-> dI y n i j.
  Proof. intros H. induction n as [|n IH]; intros i j; [now rewrite !dI_none|]. rewrite !dI_more. setoid_rewrite H. setoid_rewrite IH. reflexivity. Qed.
  (** Iterations of an iteration. *)
  Lemma dI_nested x r : forall n i j, dI (XSub [[PQuant x r]]) n i j <-> exists l, length l = n /\ Forall (allows r) l /\ dI x (list_sum l) i j.
  Proof.
    assert (X : forall i j, dX (XSub [[PQuant x r]]) i j <-> exists k, allows r k /\ dI x k i j).
    { intros i j. rewrite dX_sub, dE_cons. split.
      - intros [(m & H & [-> _]%dB_nil)%dB_cons|H%dE_nil]; [now apply dP_quant in H|contradiction].
      - intros H. left. apply dB_cons. exists j. split; [now apply dP_quant|]. destruct H as (k & _ & H). apply dI_text in H. apply dB_nil. lia. }
    induction n as [|n IH]; intros i j.
    - rewrite dI_none. split; [intros H; exists []; split; [reflexivity|]; split; [constructor|]; now apply dI_none|]. intros ([|a l] & El & _ & H); [now apply dI_none in H|discriminate].
    - rewrite dI_more. split.
      + intros (k & (a & Ha & H1)%X & (l & El & Hl & H2)%IH). exists (a :: l). split; [cbn; congruence|]. split; [now constructor|]. change (list_sum (a :: l)) with (a + list_sum l). apply dI_app. eauto.
      + intros ([|a l] & El & Hl & H); [discriminate|]. injection El as El. inversion Hl as [|a0 l0 Ha Hl0]; subst. change (list_sum (a :: l)) with (a + list_sum l) in H. apply dI_app in H as (k & H1 & H2).
        exists k. split; [apply X; eauto|]. apply IH. exists l. auto.
  Qed.
  Lemma sound :
    (forall x y, eq_expr x y -> forall i j, dX x i j <-> dX y i j) /\
    (forall p q, eq_part p q -> forall i j, dP p i j <-> dP q i j) /\
    (forall a b, eq_branch a b -> forall i j, dB a i j <-> dB b i j) /\
    (forall d e, eq_ere d e -> forall i j, dE d i j <-> dE e i j).
  Proof.
    apply eq_ind4; intros.
    - reflexivity.
    - rewrite !dX_sub. auto.
    - rewrite !dX_atom. setoid_rewrite i. reflexivity.
    - reflexivity.
    - rewrite !dP_single. auto.
    - rewrite !dP_quant. setoid_rewrite i. setoid_rewrite (dI_ext x y H). reflexivity.
    - reflexivity.
    - now rewrite H.
    - now rewrite H, H0.
    - rewrite !dB_cons. setoid_rewrite H. setoid_rewrite H0. reflexivity.
    - rewrite !dB_cons. split.
      + intros (k & (n & Hn & H)%dP_quant & Hb). apply i in Hn as ->. apply dI_more in H as (k' & H1 & [-> _]%dI_none). exists k. split; [now apply dP_single|assumption].
      + intros (k & H%dP_single & Hb). exists k. split; [|assumption]. apply dP_quant. exists 1. split; [now apply i|]. apply dI_more. exists k. split; [assumption|]. apply dI_none. apply dX_text in H. lia.
    - rewrite !dB_cons. split.
      + intros (k & (n & Hn & H)%dP_quant & Hb). apply i in Hn as ->. apply dI_none in H as [-> _]. exact Hb.
      + intros Hb. exists i0. split; [|assumption]. apply dP_quant. exists 0. split; [now apply i|]. apply dI_none. apply dB_text in Hb. lia.
    - rewrite dB_cons. setoid_rewrite dB_cons. setoid_rewrite dB_cons. split.
      + intros (k & (n & Hn & H)%dP_quant & Hb). apply i in Hn as (a & c & -> & Ha & Hc). apply dI_app in H as (m & H1 & H2). exists m. split; [apply dP_quant; eauto|]. exists k. split; [apply dP_quant; eauto|assumption].
      + intros (m & (a & Ha & H1)%dP_quant & k & (c & Hc & H2)%dP_quant & Hb). exists k. split; [|assumption]. apply dP_quant. exists (a + c). split; [apply i; eauto|]. apply dI_app. eauto.
    - rewrite !dB_cons. split.
      + intros (k & (n & Hn & H)%dP_quant & Hb). apply i in Hn as (l & Hl & Hr & ->). exists k. split; [|assumption]. apply dP_quant. exists (length l). split; [assumption|]. apply dI_nested. eauto.
      + intros (k & (n & Hn & H)%dP_quant & Hb). apply dI_nested in H as (l & <- & Hl & H). exists k. split; [|assumption]. apply dP_quant. exists (list_sum l). split; [apply i; eauto|assumption].
    - rewrite dB_cons, dB_app. split.
      + intros (k & H%dP_single & Hb). apply dX_sub in H. apply dE_cons in H as [H|H%dE_nil]; [eauto|contradiction].
      + intros (k & H & Hb). exists k. split; [|assumption]. apply dP_single, dX_sub, dE_cons. now left.
    - split; intros H.
      + apply dB_cons in H as (k & [-> ->]%dP_start & H). exact H.
      + assert (H' := H). apply dB_cons in H' as (k & [-> ->]%dP_start & _). apply dB_cons. exists 0. split; [now apply dP_start|exact H].
    - split; intros H.
      + apply dB_cons in H as (k & [-> ->]%dP_end & H). exact H.
      + assert (H' := H). apply dB_cons in H' as (k & [-> ->]%dP_end & _). apply dB_cons. exists (length T). split; [now apply dP_end|exact H].
    - reflexivity.
    - now rewrite H.
    - now rewrite H, H0.
    - rewrite !dE_cons. now rewrite H, H0.
    - rewrite !dE_in. split; intros (c & Hc & H); exists c; (split; [|assumption]); [eapply Permutation_in; eauto|]. eapply Permutation_in; [apply Permutation_sym|]; eauto.
    - rewrite !dE_cons. tauto.
    - rewrite dE_cons, dE_in. rewrite dE_in. setoid_rewrite in_app_iff. setoid_rewrite in_map_iff. rewrite dB_app. setoid_rewrite dB_cons. split.
      + intros [(k & Hx & m & Ha & Hy)|(b & Hb & H)]; [|exists b; auto]. apply dP_single, dX_sub, dE_in in Ha as (b & Hb & Ha). exists (x ++ b ++ y). split; [left; eauto|]. apply dB_app. exists k. split; [assumption|]. apply dB_app. eauto.
      + intros (b & [(c & <- & Hc)|Hb] & H); [left|right; eauto]. apply dB_app in H as (k & Hx & H). apply dB_app in H as (m & Ha & Hy). exists k. split; [assumption|]. exists m. split; [|assumption]. apply dP_single, dX_sub, dE_in. eauto.
    - rewrite !dE_cons, !dB_app. setoid_rewrite dB_cons. setoid_rewrite dP_quant. split.
      + intros [(k & Hu & m & (n & Hn & H) & Hv)|H]; [|auto]. apply i in Hn as [Hn|Hn]; [left|right; left]; exists k; eauto 8.
      + intros [(k & Hu & m & (n & Hn & H) & Hv)|[(k & Hu & m & (n & Hn & H) & Hv)|H]]; [left|left|auto]; exists k; (split; [assumption|]); exists m; (split; [|assumption]); exists n; (split; [apply i; auto|assumption]).
  Qed.
  Lemma dE_matches e i j : dE e i j <-> exists L, matches T e i j L.
  Proof.
    split.
    - intros (g & L & H). destruct any_group as (_ & _ & _ & A & _). destruct (A _ _ _ _ _ H 1) as (L2 & H2). eexists. exists L2. split; [assumption|reflexivity].
    - intros (L & L' & H & _). eexists. eauto.
  Qed.
End Sound.
Theorem equivalent_matches d e : eq_ere d e -> forall T i j, (exists L, matches T d i j L) <-> exists L, matches T e i j L.
Proof. intros H T i j. rewrite <- !dE_matches. now apply sound. Qed.
Corollary equivalent_occurs d e : eq_ere d e -> forall T, occurs d T <-> occurs e T.
Proof. intros H T. split; intros (i & j & L & Hm); [destruct (proj1 (equivalent_matches d e H T i j) (ex_intro _ L Hm)) as (L' & H')|destruct (proj2 (equivalent_matches d e H T i j) (ex_intro _ L Hm)) as (L' & H')]; exists i, j, L'; exact H'. Qed.
