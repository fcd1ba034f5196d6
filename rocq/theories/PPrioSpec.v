(** The ways of the specification are those of the lowered tree, in the same order; they are exactly the
    matches. *)
From Verif Require Export PPrioTree PCaret.
From Coq Require Import ZifyBool ZifyNat ZifyN.
Open Scope nat_scope.
Open Scope list_scope.
Set Default Proof Using "Type".

Lemma then_ext {X} (l : ways X) f f' : (forall j, f j = f' j) -> then_ l f = then_ l f'.
Proof. intros H. unfold then_. apply flat_map_ext. intros p. now rewrite H. Qed.
Lemma then_nil {X} (l : ways X) : then_ l (fun j => [(j, [])]) = l.
Proof.
  induction l as [|[j u] l IH]; [reflexivity|]. unfold then_ in *. cbn in *. rewrite app_nil_r. f_equal. exact IH.
Qed.

(** ** The unfolded definitions *)
Lemma w_expr_sub has T bs g i : w_expr has T (XSub bs) g i =
  map (fun p => (fst p, snd p ++ [(g, (i, fst p))])) (w_alts has T bs (S g) i).
Proof.
  cbn [w_expr]. f_equal. generalize (S g) as g0.
  induction bs as [|b bs IH]; intros g0; [reflexivity|]. cbn [w_alts]. rewrite IH. f_equal.
Qed.

Section Spec_tree.
  Variable T : list N.
  Hypothesis HT : Forall scalar T.
  Variable has : atom -> N -> bool.
  Hypothesis Hhas : forall a c, has a c = true <-> atom_has a c.

  Lemma acheck_has i c a : nth_error T i = Some c -> acheck a c = has a c.
  Proof using HT Hhas.
    intros H. apply (scalar_at T HT) in H. unfold acheck. rewrite H, andb_true_r.
    destruct (has a c) eqn:E; [apply atom_check_iff; now apply Hhas|]. destruct (atom_check a c) eqn:E2; [|reflexivity].
    apply atom_check_iff in E2. apply Hhas in E2. congruence.
  Qed.

  (** *** Ways of the tree are readings *)
  Lemma tways_sound t i j u : i <= length T -> In (j, u) (tways acheck T t i) -> tlang acheck t u /\ reads T i u j.
  Proof.
    assert (Ht : forall (w : nat -> ways item) L, (forall i j u, i <= length T -> In (j, u) (w i) -> L u /\ reads T i u j) ->
      forall m i j u, i <= length T -> In (j, u) (times w m i) -> powL L m u /\ reads T i u j).
    { intros w L H. induction m as [|m IH]; intros i0 j0 u0 Hi Hin; cbn in Hin.
      - destruct Hin as [E|[]]. injection E as <- <-. split; constructor. assumption.
      - apply then_In in Hin as (k & v & v' & H1 & H2 & ->). apply H in H1 as [H1 H3]; [|assumption].
        apply IH in H2 as [H2 H4]; [|apply reads_le in H3; lia]. split; [now constructor|]. apply reads_app. eauto. }
    assert (Hu : forall (w : nat -> ways item) L, (forall i j u, i <= length T -> In (j, u) (w i) -> L u /\ reads T i u j) ->
      forall b m i j u, i <= length T -> In (j, u) (up_to w b m i) -> (exists k, k <= m /\ powL L k u) /\ reads T i u j).
    { intros w L H b. induction m as [|m IH]; intros i0 j0 u0 Hi Hin.
      - destruct Hin as [E|[]]. injection E as <- <-. split; [exists 0; split; [lia|constructor]|constructor; assumption].
      - apply up_to_In in Hin as [E|Hin].
        + injection E as -> ->. split; [exists 0; split; [lia|constructor]|constructor; assumption].
        + apply then_In in Hin as (k & v & v' & H1 & H2 & ->). apply H in H1 as [H1 H3]; [|assumption].
          apply IH in H2 as [(m' & Hm & H2) H4]; [|apply reads_le in H3; lia].
          split; [exists (S m'); split; [lia|now constructor]|]. apply reads_app. eauto. }
    revert i j u. induction t as [ |a|l IH|t k IH|l IH|t n IH|t n b IH|t b IH| | | ] using tree_ind'; intros i j u Hi Hin; cbn [tways tlang] in *.
    - destruct Hin as [E|[]]. injection E as <- <-. split; [reflexivity|now constructor].
    - destruct (canb acheck T i a) as [c|] eqn:E; [|destruct Hin]. apply canb_iff in E as [E1 E2].
      destruct Hin as [E'|[]]. injection E' as <- <-. split; [eauto|]. constructor; [assumption|]. constructor. apply nth_error_Some. congruence.
    - apply in_flat_map in Hin as (w & Hw & Hin). apply in_map_iff in Hw as (t & <- & Ht').
      rewrite Forall_forall in IH. destruct (IH t Ht' i j u Hi Hin) as [H1 H2]. split; [|assumption].
      apply Exists_exists. exists (tlang acheck t). split; [now apply in_map|assumption].
    - apply in_map_iff in Hin as ([j' u'] & E & Hin). cbn in E. injection E as <- <-. destruct (IH _ _ _ Hi Hin) as [H1 H2].
      split; [eauto|]. constructor; try discriminate. apply reads_app. exists j'. split; [assumption|]. constructor; try discriminate.
      constructor. apply reads_le in H2. lia.
    - revert i j u Hi Hin. induction IH as [|t l Ht' IHl IH2]; intros i j u Hi Hin; cbn in Hin.
      + destruct Hin as [E|[]]. injection E as <- <-. split; constructor. assumption.
      + apply then_In in Hin as (k & v & v' & H1 & H2 & ->). apply Ht' in H1 as [H1 H3]; [|assumption].
        apply IH2 in H2 as [H2 H4]; [|apply reads_le in H3; lia]. split; [cbn; now constructor|]. apply reads_app. eauto.
    - eapply Ht; eauto.
    - eapply Hu in Hin; eauto.
    - eapply Hu in Hin; eauto. destruct Hin as [(k & _ & Hk) Hr]. eauto.
    - destruct (Nat.eqb_spec i 0); [|destruct Hin]. destruct Hin as [E|[]]. injection E as <- <-. split; [reflexivity|].
      constructor; auto; [discriminate|]. now constructor.
    - destruct (Nat.eqb_spec i (length T)); [|destruct Hin]. destruct Hin as [E|[]]. injection E as <- <-. split; [reflexivity|].
      constructor; auto; [discriminate|]. now constructor.
    - destruct Hin.
  Qed.

  (** *** The same ways in the same order *)
  Definition same (i : nat) (p : nat * log) (q : nat * word) : Prop := fst p = fst q /\ blog i (snd q) (fst q) (snd p).
  Definition aligned (w : nat -> ways (nat * (nat * nat))) (w' : nat -> ways item) : Prop :=
    forall i, i <= length T -> Forall2 (same i) (w i) (w' i).
  Lemma aligned_then i l l' f f' : Forall2 (same i) l l' -> (forall j u, In (j, u) l' -> j <= length T) -> aligned f f' ->
    Forall2 (same i) (then_ l f) (then_ l' f').
  Proof.
    intros H Hr Hf. induction H as [|[j L] [j' u] l l' [E Hb] H IH]; [constructor|]. cbn in E, Hb. subst j'.
    unfold then_. cbn [flat_map fst snd]. apply Forall2_app.
    - assert (Hj : j <= length T) by (apply (Hr j u); now left). specialize (Hf j Hj). clear - Hf Hb.
      induction Hf as [|[k L'] [k' v] m m' [E Hb'] H IH]; [constructor|]. cbn in E, Hb'. subst k'. cbn [map]. constructor; [|exact IH].
      split; [reflexivity|]. cbn. econstructor; eauto.
    - apply IH. intros j0 u0 H0. apply (Hr j0 u0). now right.
  Qed.
  Lemma aligned_nil i : Forall2 (same i) [(i, [])] [(i, [])].
  Proof. constructor; [|constructor]. split; [reflexivity|]. constructor. Qed.
  Lemma aligned_times w w' n : aligned w w' -> inr T w' -> aligned (times w n) (times w' n).
  Proof.
    clear Hhas has HT. intros H Hr. induction n as [|n IH]; intros i Hi; cbn [times]; [apply aligned_nil|].
    apply aligned_then; [now apply H| |assumption]. intros j u Hin. apply Hr in Hin; lia.
  Qed.
  Lemma aligned_up_to w w' b n : aligned w w' -> inr T w' -> aligned (up_to w b n) (up_to w' b n).
  Proof.
    clear Hhas has HT. intros H Hr. induction n as [|n IH]; intros i Hi; cbn [up_to]; [apply aligned_nil|]. cbv zeta.
    assert (Hm : Forall2 (same i) (then_ (w i) (up_to w b n)) (then_ (w' i) (up_to w' b n))).
    { apply aligned_then; [now apply H| |assumption]. intros j u Hin. apply Hr in Hin; lia. }
    destruct b.
    - constructor; [|assumption]. split; [reflexivity|constructor].
    - apply Forall2_app; [assumption|apply aligned_nil].
  Qed.
  Lemma t_concat_ways a b i : (forall l, a <> TConcat l) ->
    tways acheck T (t_concat a b) i = then_ (tways acheck T a i) (tways acheck T b).
  Proof.
    intros Ha. assert (E : t_concat a b = TConcat [a; b]) by (destruct a; try reflexivity; now destruct (Ha l)).
    rewrite E. cbn [tways map cat_ways]. apply then_ext. intros j. apply then_nil.
  Qed.
  Lemma t_repeat_ways t n i : tways acheck T (t_repeat t n) i = times (tways acheck T t) n i.
  Proof. destruct n; reflexivity. Qed.
  Lemma t_upto_ways t n b i : tways acheck T (t_upto t n b) i = up_to (tways acheck T t) (negb b) n i.
  Proof. destruct n; reflexivity. Qed.
  Lemma t_repeat_shape t n l : t_repeat t n <> TConcat l.
  Proof. destruct n; discriminate. Qed.
  Lemma quant_tree_ways c q i : (forall l, c <> TConcat l) ->
    tways acheck T (quant_tree c q) i = quant_ways T (tways acheck T c) q i.
  Proof.
    intros Hc. unfold quant_tree, quant_ways. change (xorb (quantifiers_prefer_longest config_default) (q_alt q)) with (negb (q_alt q)). destruct (q_type q) as [ | | |n|n [m|]]; cbn [t_star t_optional].
    - cbn. now rewrite negb_involutive.
    - rewrite t_concat_ways by assumption. apply then_ext. intros j. cbn. now rewrite negb_involutive.
    - unfold t_optional. rewrite t_upto_ways, negb_involutive. reflexivity.
    - apply t_repeat_ways.
    - destruct (N.ltb_spec m n); [reflexivity|]. destruct (N.eqb_spec m n) as [->|].
      + rewrite t_repeat_ways. rewrite N.sub_diag. cbn. symmetry. apply then_nil.
      + rewrite t_concat_ways by apply t_repeat_shape. rewrite t_repeat_ways. apply then_ext. intros j.
        now rewrite t_upto_ways, negb_involutive.
    - rewrite t_concat_ways by apply t_repeat_shape. rewrite t_repeat_ways. apply then_ext. intros j. cbn. now rewrite negb_involutive.
  Qed.
  Lemma quant_aligned w w' q : aligned w w' -> inr T w' -> aligned (quant_ways T w q) (quant_ways T w' q).
  Proof.
    clear Hhas has HT. intros H Hr i Hi. unfold quant_ways. destruct (q_type q) as [ | | |n|n [m|]].
    - now apply aligned_up_to.
    - apply aligned_then; [now apply H| |now apply aligned_up_to]. intros j u Hin. apply Hr in Hin; lia.
    - now apply (aligned_up_to w w' _ 1).
    - now apply aligned_times.
    - destruct (m <? n)%N; [constructor|]. apply aligned_then; [now apply aligned_times| |now apply aligned_up_to].
      intros j u Hin. apply (inr_times T) in Hin; [lia|assumption|assumption].
    - apply aligned_then; [now apply aligned_times| |now apply aligned_up_to].
      intros j u Hin. apply (inr_times T) in Hin; [lia|assumption|assumption].
  Qed.
  Lemma leaf_shape t : leaf_like t -> forall l, t <> TConcat l.
  Proof. intros [(a & ->)|(u & k & -> & _)] l; discriminate. Qed.

  Lemma ways_aligned :
    (forall p g, aligned (w_part has T p g) (tways acheck T (part_tree p g))) /\
    (forall e g, aligned (w_expr has T e g) (tways acheck T (expr_tree e g))) /\
    (forall b g, aligned (w_branch has T b g) (tways acheck T (TConcat (branch_trees b g)))) /\
    (forall e g, aligned (w_alts has T e g) (tways acheck T (TUnion (ere_trees e g)))).
  Proof using HT Hhas.
    apply syntax_ind.
    - intros e IH g i Hi. apply IH. assumption.
    - intros e q IH g i Hi. rewrite part_tree_quant. rewrite quant_tree_ways by (apply leaf_shape, trees_ok).
      cbn [w_part]. apply quant_aligned; [apply IH|apply tways_inr|assumption].
    - intros g i Hi. cbn. destruct (i =? 0); [|constructor]. constructor; [|constructor]. split; [reflexivity|]. constructor.
    - intros g i Hi. cbn. destruct (i =? length T); [|constructor]. constructor; [|constructor]. split; [reflexivity|]. constructor.
    - intros a g i Hi. cbn. unfold canb. destruct (nth_error T i) as [c|] eqn:E; [|constructor].
      rewrite (acheck_has i c a E). destruct (has a c); [|constructor]. constructor; [|constructor]. split; [reflexivity|]. constructor.
    - intros bs IH g i Hi. rewrite w_expr_sub, expr_tree_sub. specialize (IH (S g) i Hi).
      change (tways acheck T (TCapture ?t ?k) i) with (map (fun p => (fst p, IM (ESC k) :: snd p ++ [IM (EEC k)])) (tways acheck T t i)).
      assert (HF : forall q, In q (tways acheck T (TUnion (ere_trees bs (S g))) i) -> fresh g (snd q)).
      { intros [j u] Hin. apply tways_sound in Hin as [Hin _]; [|assumption]. eapply ere_fresh; eauto. }
      induction IH as [|[j L] [j' u] l l' [E Hb] H IHl]; [constructor|]. cbn in E, Hb. subst j'. cbn [map]. constructor.
      + split; [reflexivity|]. cbn. constructor; [assumption|]. apply (HF (j, u)). now left.
      + apply IHl. intros q Hq. apply HF. now right.
    - intros g i Hi. apply aligned_nil.
    - intros p b IHp IHb g i Hi. rewrite branch_trees_cons. cbn [w_branch]. cbn [tways map cat_ways].
      apply aligned_then; [now apply IHp| |].
      + intros j u Hin. apply tways_inr in Hin; lia.
      + intros j Hj. apply (IHb (g + groups_part p) j Hj).
    - intros g i Hi. constructor.
    - intros b e IHb IHe g i Hi. rewrite ere_trees_cons. cbn [w_alts]. cbn [tways map flat_map]. apply Forall2_app; [now apply IHb|].
      apply (IHe (g + groups_branch b) i Hi).
  Qed.

  (** *** Loops that read *)
  Lemma reads_grows i u j : reads T i u j -> chars u <> [] -> i < j.
  Proof. clear Hhas has. intros H Hc. apply reads_chars in H as [H _]. destruct (chars u); [congruence|]. cbn in H. lia. Qed.
  Lemma expr_grows e g : consumes_expr e = true -> grows T (tways acheck T (expr_tree e g)).
  Proof.
    intros He i j u Hi Hin. apply tways_sound in Hin as [H1 H2]; [|assumption]. eapply reads_grows; eauto.
    eapply (proj1 (proj2 (consumes_words acheck))); eauto.
  Qed.
  Lemma tloops_concat a b : tloops acheck T a -> tloops acheck T b -> tloops acheck T (t_concat a b).
  Proof.
    intros Ha Hb. assert (G : tloops acheck T (TConcat [a; b])) by (cbn; auto).
    destruct a; auto. cbn [t_concat tloops] in *. rewrite map_app. apply Forall_app. split; [assumption|]. cbn. auto.
  Qed.
  Lemma quant_tloops c q : tloops acheck T c -> (unbounded (q_type q) = true -> grows T (tways acheck T c)) ->
    tloops acheck T (quant_tree c q).
  Proof.
    intros Hc Hg. assert (HR : forall n, tloops acheck T (t_repeat c n)) by (intros []; cbn; auto).
    assert (HU : forall n b, tloops acheck T (t_upto c n b)) by (intros []; cbn; auto).
    unfold quant_tree. destruct (q_type q) as [ | | |n|n [m|]]; cbn [t_star t_optional unbounded] in *; auto.
    - cbn. auto.
    - apply tloops_concat; cbn; auto.
    - destruct (m <? n)%N; [exact I|]. destruct (m =? n)%N; auto. apply tloops_concat; auto.
    - apply tloops_concat; cbn; auto.
  Qed.
  Lemma loops_tree :
    (forall p g, loops_part p = true -> tloops acheck T (part_tree p g)) /\
    (forall e g, loops_expr e = true -> tloops acheck T (expr_tree e g)) /\
    (forall b g, forallb loops_part b = true -> Forall (tloops acheck T) (branch_trees b g)) /\
    (forall e g, loops_read e = true -> Forall (tloops acheck T) (ere_trees e g)).
  Proof.
    apply syntax_ind.
    - intros e IH g H. now apply IH.
    - intros e q IH g H. rewrite part_tree_quant. cbn [loops_part] in H. apply andb_true_iff in H as [H1 H2].
      apply quant_tloops; [now apply IH|]. intros Hq. rewrite Hq in H1. cbn in H1. now apply expr_grows.
    - intros; exact I.
    - intros; exact I.
    - intros; exact I.
    - intros bs IH g H. rewrite expr_tree_sub. cbn [tloops]. rewrite Forall_map. now apply IH.
    - constructor.
    - intros p b IHp IHb g H. cbn [forallb] in H. apply andb_true_iff in H as [H1 H2]. rewrite branch_trees_cons. constructor; auto.
    - constructor.
    - intros b e IHb IHe g H. unfold loops_read in *. cbn [forallb] in H. apply andb_true_iff in H as [H1 H2]. rewrite ere_trees_cons.
      constructor; [|auto]. cbn [tloops]. rewrite Forall_map. now apply IHb.
  Qed.
  Lemma loops_tree_of e : loops_read e = true -> tloops acheck T (tree_of e).
  Proof. intros H. rewrite tree_of_eq. cbn [tloops]. rewrite Forall_map. now apply loops_tree. Qed.

  (** *** The ways are exactly the matches *)
  Definition exact (w : nat -> ways (nat * (nat * nat))) (M : nat -> nat -> log -> Prop) : Prop :=
    forall i j L, i <= length T -> In (j, L) (w i) <-> M i j L.

  Lemma m_range :
    (forall p g i j L, m_part T p g i j L -> i <= j <= length T) /\
    (forall e n g i j L, m_iter T e n g i j L -> i <= j <= length T) /\
    (forall e g i j L, m_expr T e g i j L -> i <= j <= length T) /\
    (forall e g i j L, m_alts T e g i j L -> i <= j <= length T) /\
    (forall b g i j L, m_branch T b g i j L -> i <= j <= length T).
  Proof.
    clear Hhas has. apply (match_ind T (fun p g i j L _ => i <= j <= length T) (fun e n g i j L _ => i <= j <= length T)
      (fun e g i j L _ => i <= j <= length T) (fun e g i j L _ => i <= j <= length T) (fun e g i j L _ => i <= j <= length T)); intros; try lia.
    assert (i < length T) by (apply nth_error_Some; congruence). lia.
  Qed.
  Lemma m_grows e g i j L : consumes_expr e = true -> m_expr T e g i j L -> i < j.
  Proof using HT.
    intros He H. apply (spec_reading T HT) in H as (w & H1 & H2 & _). eapply reads_grows; eauto.
    eapply (proj1 (proj2 (consumes_words acheck))); eauto.
  Qed.
  Lemma iter_times e g n : exact (w_expr has T e g) (m_expr T e g) -> exact (times (w_expr has T e g) n) (m_iter T e n g).
  Proof.
    clear Hhas.
    intros H. induction n as [|n IH]; intros i j L Hi; cbn [times].
    - split; [intros [E|[]]; injection E as <- <-; now constructor|]. intros Hm. inv Hm. now left.
    - rewrite then_In. split.
      + intros (k & v & v' & H1 & H2 & ->). apply H in H1; [|assumption]. assert (R := proj1 (proj2 (proj2 m_range)) _ _ _ _ _ H1).
        apply IH in H2; [|lia]. econstructor; eauto.
      + intros Hm. inversion Hm as [|? ? ? ? k' ? L1 L2 H1 H2]; subst. assert (R := proj1 (proj2 (proj2 m_range)) _ _ _ _ _ H1). eexists _, _, _. split; [apply H; eauto|]. split; [apply IH; [lia|eassumption]|reflexivity].
  Qed.
  Lemma iter_up_to e g b n : exact (w_expr has T e g) (m_expr T e g) ->
    exact (up_to (w_expr has T e g) b n) (fun i j L => exists m, m <= n /\ m_iter T e m g i j L).
  Proof.
    clear Hhas.
    intros H. induction n as [|n IH]; intros i j L Hi.
    - cbn. split.
      + intros [E|[]]. injection E as <- <-. exists 0. split; [lia|now constructor].
      + intros (m & Hm & Hit). assert (m = 0) by lia. subst m. inv Hit. now left.
    - rewrite up_to_In, then_In. split.
      + intros [E|(k & v & v' & H1 & H2 & ->)].
        * injection E as -> ->. exists 0. split; [lia|now constructor].
        * apply H in H1; [|assumption]. assert (R := proj1 (proj2 (proj2 m_range)) _ _ _ _ _ H1).
          apply IH in H2 as (m & Hm & H2); [|lia]. exists (S m). split; [lia|]. econstructor; eauto.
      + intros (m & Hm & Hit). destruct m as [|m]; inversion Hit as [|? ? ? ? k' ? L1 L2 H1 H2]; subst; [now left|right].
        assert (R := proj1 (proj2 (proj2 m_range)) _ _ _ _ _ H1). eexists _, _, _. split; [apply H; eauto|].
        split; [apply IH; [lia|]; exists m; split; [lia|eassumption]|reflexivity].
  Qed.
  Lemma iter_bound e g m i j L : consumes_expr e = true -> m_iter T e m g i j L -> m <= j - i.
  Proof using HT.
    clear Hhas.
    intros He. revert i L. induction m as [|m IH]; intros i L Hm; [lia|]. inversion Hm as [|? ? ? ? k ? L1 L2 H1 H2]; subst.
    assert (R := proj1 (proj2 m_range) _ _ _ _ _ _ H2). apply m_grows in H1; [|assumption]. apply IH in H2. lia.
  Qed.
  Lemma m_iter_app e g n m i j k L1 L2 : m_iter T e n g i j L1 -> m_iter T e m g j k L2 -> m_iter T e (n + m) g i k (L1 ++ L2).
  Proof.
    revert i L1. induction n as [|n IH]; intros i L1 H1 H2; inv H1; cbn; [assumption|]. rewrite <- app_assoc. econstructor; eauto.
  Qed.
  Lemma m_iter_split e g n m i k L : m_iter T e (n + m) g i k L ->
    exists j L1 L2, L = L1 ++ L2 /\ m_iter T e n g i j L1 /\ m_iter T e m g j k L2.
  Proof.
    revert i L. induction n as [|n IH]; intros i L H; cbn in H.
    - exists i, [], L. split; [reflexivity|]. split; [|assumption]. constructor. apply m_range in H. lia.
    - inversion H as [|? ? ? ? k' ? L1 L2 H1 H2]; subst. apply IH in H2 as (j' & L3 & L4 & -> & H3 & H4). exists j', (L1 ++ L3), L4. rewrite app_assoc. split; [reflexivity|]. split; [|assumption].
      econstructor; eauto.
  Qed.
  Lemma quant_exact e g q : exact (w_expr has T e g) (m_expr T e g) -> (unbounded (q_type q) = true -> consumes_expr e = true) ->
    exact (quant_ways T (w_expr has T e g) q) (m_part T (PQuant e q) g).
  Proof using HT.
    clear Hhas.
    intros H Hc i j L Hi. assert (HP : m_part T (PQuant e q) g i j L <-> exists n, quant_allows (q_type q) n /\ m_iter T e n g i j L).
    { split; [intros Hm; inv Hm; eauto|intros (n & H1 & H2); econstructor; eauto]. }
    rewrite HP. clear HP. assert (Hb : unbounded (q_type q) = true -> forall m i j L, m_iter T e m g i j L -> m <= length T).
    { intros Hq m i' j' L' Hm. assert (R := proj1 (proj2 m_range) _ _ _ _ _ _ Hm). apply iter_bound in Hm; [lia|auto]. }
    assert (HS : forall n b h i j L, i <= length T -> In (j, L) (then_ (times (w_expr has T e g) n i) (up_to (w_expr has T e g) b h)) <->
       exists m, n <= m <= n + h /\ m_iter T e m g i j L).
    { clear i j L Hi. intros n b h i j L Hi. rewrite then_In. split.
      - intros (k & v & v' & H1 & H2 & ->). apply (iter_times e g n H) in H1; [|assumption]. assert (R := proj1 (proj2 m_range) _ _ _ _ _ _ H1).
        apply (iter_up_to e g b h H) in H2 as (m & Hm & H2); [|lia]. exists (n + m). split; [lia|]. eapply m_iter_app; eauto.
      - intros (m & Hm & Hit). replace m with (n + (m - n)) in Hit by lia. apply m_iter_split in Hit as (k & L1 & L2 & -> & H1 & H2).
        assert (R := proj1 (proj2 m_range) _ _ _ _ _ _ H1). exists k, L1, L2.
        split; [now apply (iter_times e g n H)|]. split; [|reflexivity]. apply (iter_up_to e g b h H); [lia|]. exists (m - n). split; [lia|assumption]. }
    assert (HU : forall b n i j L, i <= length T -> (In (j, L) (up_to (w_expr has T e g) b n i) <-> exists m, m <= n /\ m_iter T e m g i j L))
      by (intros b n; exact (iter_up_to e g b n H)).
    assert (HI : forall n i j L, i <= length T -> (In (j, L) (times (w_expr has T e g) n i) <-> m_iter T e n g i j L))
      by (intros n; exact (iter_times e g n H)).
    unfold quant_ways. destruct (q_type q) as [ | | |n|n [m|]]; cbn [quant_allows unbounded] in *.
    - rewrite HU by assumption. split.
      + intros (m & Hm & Hit). eauto.
      + intros (m & _ & Hit). exists m. split; [eapply Hb; eauto|assumption].
    - assert (E : forall l, then_ (w_expr has T e g i) l = then_ (times (w_expr has T e g) 1 i) l).
      { intros l. cbn [times]. change (times (w_expr has T e g) 0) with (fun j : nat => [(j, @nil (nat * (nat * nat)))]). now rewrite then_nil. }
      rewrite E, HS by assumption. split.
      + intros (m & Hm & Hit). exists m. split; [lia|assumption].
      + intros (m & Hm & Hit). exists m. split; [|assumption]. assert (m <= length T) by (eapply Hb; eauto). lia.
    - rewrite (HU _ 1) by assumption. reflexivity.
    - rewrite HI by assumption. split.
      + intros Hit. exists (N.to_nat n). split; [lia|assumption].
      + intros (m & <- & Hit). now rewrite Nat2N.id.
    - destruct (N.ltb_spec m n).
      + split; [intros []|]. intros (k & Hk & _). lia.
      + rewrite HS by assumption. split; intros (k & Hk & Hit); exists k; (split; [lia|assumption]).
    - rewrite HS by assumption. split; intros (k & Hk & Hit); exists k; (split; [|assumption]); [lia|].
      assert (k <= length T) by (eapply Hb; eauto). lia.
  Qed.
  Lemma ways_exact :
    (forall p g, loops_part p = true -> exact (w_part has T p g) (m_part T p g)) /\
    (forall e g, loops_expr e = true -> exact (w_expr has T e g) (m_expr T e g)) /\
    (forall b g, forallb loops_part b = true -> exact (w_branch has T b g) (m_branch T b g)) /\
    (forall e g, loops_read e = true -> exact (w_alts has T e g) (m_alts T e g)).
  Proof using HT Hhas.
    apply syntax_ind.
    - intros e IH g H i j L Hi. cbn [w_part]. assert (G := IH g H i j L Hi). rewrite G. split; [now constructor|]. intros Hm. now inv Hm.
    - intros e q IH g H i j L Hi. cbn [loops_part] in H. apply andb_true_iff in H as [H1 H2]. cbn [w_part].
      apply quant_exact; [now apply IH| |assumption]. intros Hq. rewrite Hq in H1. exact H1.
    - intros g _ i j L Hi. cbn. destruct (Nat.eqb_spec i 0) as [->|Hn]; split.
      + intros [E|[]]. injection E as <- <-. constructor.
      + intros Hm. inv Hm. now left.
      + intros [].
      + intros Hm. inv Hm. lia.
    - intros g _ i j L Hi. cbn. destruct (Nat.eqb_spec i (length T)) as [->|Hn]; split.
      + intros [E|[]]. injection E as <- <-. constructor.
      + intros Hm. inv Hm. now left.
      + intros [].
      + intros Hm. inv Hm. lia.
    - intros a g _ i j L Hi. cbn. destruct (nth_error T i) as [c|] eqn:E.
      + destruct (has a c) eqn:Ea; split.
        * intros [E'|[]]. injection E' as <- <-. econstructor; eauto. now apply Hhas.
        * intros Hm. inv Hm. now left.
        * intros [].
        * intros Hm. inversion Hm as [? ? ? c0 H1 H2|]; subst. assert (c0 = c) by congruence. subst c0. apply Hhas in H2. congruence.
      + split; [intros []|]. intros Hm. inv Hm. congruence.
    - intros bs IH g H i j L Hi. rewrite w_expr_sub, in_map_iff. split.
      + intros ([k L'] & E & Hin). cbn in E. injection E as <- <-. apply (IH (S g) H) in Hin; [|assumption]. now constructor.
      + intros Hm. inv Hm. exists (j, L0). split; [reflexivity|]. now apply (IH (S g) H).
    - intros g _ i j L Hi. cbn. split; [intros [E|[]]; injection E as <- <-; now constructor|]. intros Hm. inv Hm. now left.
    - intros p b IHp IHb g H i j L Hi. cbn [forallb] in H. apply andb_true_iff in H as [H1 H2]. cbn [w_branch]. rewrite then_In. split.
      + intros (k & v & v' & H3 & H4 & ->). apply (IHp g H1) in H3; [|assumption]. assert (R := proj1 m_range _ _ _ _ _ H3).
        apply (IHb _ H2) in H4; [|lia]. econstructor; eauto.
      + intros Hm. inversion Hm as [|? ? ? ? k' ? L1 L2 H3 H4]; subst. assert (R := proj1 m_range _ _ _ _ _ H3). eexists _, _, _. split; [apply (IHp g H1); eauto|].
        split; [apply (IHb _ H2); [lia|eassumption]|reflexivity].
    - intros g _ i j L Hi. cbn. split; [intros []|]. intros Hm. inv Hm.
    - intros b e IHb IHe g H i j L Hi. unfold loops_read in *. cbn [forallb] in H. apply andb_true_iff in H as [H1 H2]. cbn [w_alts].
      assert (G1 := IHb g H1 i j L Hi). assert (G2 := IHe (g + groups_branch b) H2 i j L Hi). rewrite in_app_iff, G1, G2. split.
      + intros [Hm|Hm]; [now apply ma_here|now apply ma_later].
      + intros Hm. inv Hm; auto.
  Qed.
  Lemma all_matches_iff e i j L : loops_read e = true -> In (i, j, L) (all_matches has T e) <-> matches T e i j L.
  Proof using HT Hhas.
    intros H. unfold all_matches, matches. rewrite in_flat_map. split.
    - intros (i' & Hi & Hin). apply in_seq in Hi. apply in_map_iff in Hin as ([k L'] & E & Hin). cbn in E. injection E as -> -> <-.
      apply ways_exact in Hin; [|assumption|lia]. eauto.
    - intros (L' & Hm & ->). assert (R := proj1 (proj2 (proj2 (proj2 m_range))) _ _ _ _ _ Hm). exists i. split; [apply in_seq; lia|].
      apply in_map_iff. exists (j, L'). split; [reflexivity|]. apply ways_exact; [assumption|lia|assumption].
  Qed.
End Spec_tree.
