(** The words of the lowered tree are exactly the matches of the specification. *)
From Verif Require Export Spec PWorking.
From Coq Require Import ZifyBool ZifyNat ZifyN.
Open Scope nat_scope.
Open Scope list_scope.
Set Default Proof Using "Type".

(** ** Lowering *)
Lemma tree_of_expr_sub bs g : tree_of_expr (XSub bs) g =
  (TCapture (TUnion (fst (trees_of_branches bs (S g)))) g, snd (trees_of_branches bs (S g))).
Proof.
  cbn [tree_of_expr].
  set (parts := fix parts (b : list part) (g : nat) {struct b} : list tree * nat := match b with | [] => ([], g) | p :: b' => _ end).
  set (subs := fix subs (l : list (list part)) (g : nat) {struct l} : list tree * nat := match l with | [] => ([], g) | p :: b' => _ end).
  assert (HP : forall b g, parts b g = trees_of_parts b g).
  { induction b as [|p b IH]; intros g0; cbn; [reflexivity|]. destruct (tree_of_part p g0). fold parts. now rewrite IH. }
  assert (HS : forall l g, subs l g = trees_of_branches l g).
  { induction l as [|b l IH]; intros g0; cbn; [reflexivity|]. fold parts. rewrite HP. unfold tree_of_branch.
    destruct (trees_of_parts b g0). fold subs. now rewrite IH. }
  rewrite HS. now destruct (trees_of_branches bs (S g)).
Qed.

(** Numbers of groups. *)
Lemma groups_sub bs : groups_expr (XSub bs) = S (groups bs).
Proof. reflexivity. Qed.
Lemma groups_branch_cons p b : groups_branch (p :: b) = groups_part p + groups_branch b.
Proof. reflexivity. Qed.
Lemma groups_cons b e : groups (b :: e) = groups_branch b + groups e.
Proof. reflexivity. Qed.
Lemma tree_groups :
  (forall p g, snd (tree_of_part p g) = g + groups_part p) /\
  (forall e g, snd (tree_of_expr e g) = g + groups_expr e) /\
  (forall b g, snd (trees_of_parts b g) = g + groups_branch b) /\
  (forall e g, snd (trees_of_branches e g) = g + groups e).
Proof.
  apply syntax_ind; intros.
  - apply H.
  - cbn [groups_part tree_of_part]. rewrite <- H. now destruct (tree_of_expr e g).
  - cbn. lia.
  - cbn. lia.
  - cbn. lia.
  - rewrite tree_of_expr_sub, groups_sub. cbn. rewrite H. lia.
  - unfold groups_branch. cbn. lia.
  - specialize (H g). cbn [trees_of_parts]. destruct (tree_of_part p g) as [t g1]. cbn in H. subst g1.
    specialize (H0 (g + groups_part p)). cbn [trees_of_parts]. destruct (trees_of_parts b _) as [ts g2]. cbn [snd] in *. rewrite groups_branch_cons. lia.
  - unfold groups. cbn. lia.
  - cbn [trees_of_branches]. unfold tree_of_branch. specialize (H g). destruct (trees_of_parts b g) as [t g1]. cbn in H. subst g1.
    specialize (H0 (g + groups_branch b)). destruct (trees_of_branches e _) as [ts g2]. cbn [snd] in *. rewrite groups_cons. lia.
Qed.
Definition part_tree p g := fst (tree_of_part p g).
Definition expr_tree e g := fst (tree_of_expr e g).
Definition branch_trees b g := fst (trees_of_parts b g).
Definition ere_trees e g := fst (trees_of_branches e g).
Lemma part_tree_single e g : part_tree (PSingle e) g = expr_tree e g. Proof. reflexivity. Qed.
Lemma part_tree_quant e q g : part_tree (PQuant e q) g = quant_tree (expr_tree e g) q.
Proof. unfold part_tree, expr_tree. cbn. now destruct (tree_of_expr e g). Qed.
Lemma expr_tree_sub bs g : expr_tree (XSub bs) g = TCapture (TUnion (ere_trees bs (S g))) g.
Proof. unfold expr_tree, ere_trees. now rewrite tree_of_expr_sub. Qed.
Lemma branch_trees_cons p b g : branch_trees (p :: b) g = part_tree p g :: branch_trees b (g + groups_part p).
Proof.
  unfold branch_trees, part_tree. cbn. assert (H := proj1 tree_groups p g). destruct (tree_of_part p g) as [t g1]. cbn in *. subst.
  now destruct (trees_of_parts b _).
Qed.
Lemma ere_trees_cons b e g : ere_trees (b :: e) g = TConcat (branch_trees b g) :: ere_trees e (g + groups_branch b).
Proof.
  unfold branch_trees, ere_trees. cbn. unfold tree_of_branch. assert (H := proj1 (proj2 (proj2 tree_groups)) b g).
  destruct (trees_of_parts b g) as [t g1]. cbn in *. subst. now destruct (trees_of_branches e _).
Qed.
Lemma tree_of_eq e : tree_of e = TCapture (TUnion (ere_trees e 1)) 0.
Proof. unfold tree_of, from_ere, tree_of_sub, ere_trees. now destruct (trees_of_branches e 1). Qed.

(** ** Shape *)
Definition leaf_like (t : tree) : Prop := (exists a, t = TSymbol a) \/ (exists u k, t = TCapture u k /\ tree_ok u).
Lemma leaf_ok t : leaf_like t -> tree_ok t.
Proof. intros [(a & ->)|(u & k & -> & H)]; constructor; auto. Qed.
Lemma leaf_star t b : leaf_like t -> tree_ok (TStar t b).
Proof. intros [(a & ->)|(u & k & -> & H)]; constructor; auto. Qed.
Lemma t_repeat_ok t n : tree_ok t -> tree_ok (t_repeat t n).
Proof. destruct n; intros; cbn; constructor; auto. Qed.
Lemma t_upto_ok t n b : tree_ok t -> tree_ok (t_upto t n b).
Proof. destruct n; intros; cbn; constructor; auto. lia. Qed.
Lemma t_concat_ok a b : tree_ok a -> tree_ok b -> tree_ok (t_concat a b).
Proof.
  intros Ha Hb. destruct a; try (constructor; repeat (apply Forall_cons || apply Forall_nil); assumption).
  cbn. inv Ha. constructor. apply Forall_app. auto.
Qed.
Lemma quant_tree_ok c q : leaf_like c -> tree_ok (quant_tree c q).
Proof.
  intros H. assert (Ho := leaf_ok _ H). unfold quant_tree. destruct (q_type q) as [ | | |n|n [m|]]; cbn [t_star t_optional].
  - now apply leaf_star.
  - apply t_concat_ok; [assumption|now apply leaf_star].
  - now apply t_upto_ok.
  - now apply t_repeat_ok.
  - destruct (m <? n)%N; [constructor|]. destruct (m =? n)%N; [now apply t_repeat_ok|].
    apply t_concat_ok; [now apply t_repeat_ok|now apply t_upto_ok].
  - apply t_concat_ok; [now apply t_repeat_ok|now apply leaf_star].
Qed.
Lemma trees_ok :
  (forall p g, tree_ok (part_tree p g)) /\ (forall e g, leaf_like (expr_tree e g)) /\
  (forall b g, Forall tree_ok (branch_trees b g)) /\ (forall e g, Forall tree_ok (ere_trees e g)).
Proof.
  apply syntax_ind; intros.
  - apply leaf_ok. rewrite part_tree_single. auto.
  - rewrite part_tree_quant. now apply quant_tree_ok.
  - constructor.
  - constructor.
  - left. now exists a.
  - right. rewrite expr_tree_sub. eexists _, _. split; [reflexivity|]. constructor. auto.
  - constructor.
  - rewrite branch_trees_cons. constructor; auto.
  - constructor.
  - rewrite ere_trees_cons. constructor; auto. constructor. auto.
Qed.
Lemma tree_of_ok e : tree_ok (tree_of e).
Proof. rewrite tree_of_eq. constructor. constructor. apply trees_ok. Qed.
Lemma tree_of_length e : 2 <= length (build (tree_of e)).
Proof.
  rewrite tree_of_eq. cbn [build]. rewrite nfa_capture_length; [lia|]. apply union_ok.
  apply Forall_map. eapply Forall_impl; [apply build_ok|]. apply trees_ok.
Qed.

(** ** Labels of the lowered tree *)
Fixpoint part_atoms (P : atom -> Prop) (p : part) : Prop :=
  match p with
  | PSingle e | PQuant e _ => expr_atoms P e
  | PStart | PEnd => True
  end
with expr_atoms (P : atom -> Prop) (e : expr) : Prop :=
  match e with
  | XAtom a => P a
  | XSub bs => fold_right (fun b Q => fold_right (fun p Q => part_atoms P p /\ Q) True b /\ Q) True bs
  end.
Definition branch_atoms P (b : branch) : Prop := fold_right (fun p Q => part_atoms P p /\ Q) True b.
(** Every atom of the pattern satisfies [P]. *)
Definition ere_atoms P (e : ere) : Prop := fold_right (fun b Q => branch_atoms P b /\ Q) True e.

Definition all_labels P M (l : list tree) : Prop := fold_right (fun t Q => tree_labels P M t /\ Q) True l.
Lemma all_labels_app P M l m : all_labels P M (l ++ m) <-> all_labels P M l /\ all_labels P M m.
Proof. induction l; cbn; tauto. Qed.
Lemma quant_labels P M c q : tree_labels P M c -> tree_labels P M (quant_tree c q).
Proof.
  intros H. assert (HC : forall a b, tree_labels P M a -> tree_labels P M b -> tree_labels P M (t_concat a b)).
  { intros a b Ha Hb. destruct a; cbn; auto. cbn in Ha. fold (all_labels P M (l ++ [b])). apply all_labels_app. cbn. auto. }
  assert (HR : forall n, tree_labels P M (t_repeat c n)) by (destruct n; cbn; auto).
  assert (HU : forall n b, tree_labels P M (t_upto c n b)) by (destruct n; cbn; auto).
  unfold quant_tree. destruct (q_type q) as [ | | |n|n [m|]]; cbn [t_star t_optional]; auto.
  - destruct (m <? n)%N; [exact I|]. destruct (m =? n)%N; auto.
Qed.
Definition mark_in (lo hi : nat) (e : epsk) : Prop := match e with ESC k | EEC k => lo <= k < hi | _ => True end.
Lemma tree_labels_mono P (M M' : epsk -> Prop) t : (forall e, M e -> M' e) -> tree_labels P M t -> tree_labels P M' t.
Proof.
  intros HM. induction t using tree_ind'; cbn; auto; intros HL.
  - induction H; cbn in *; [auto|]. destruct HL. auto.
  - intuition.
  - induction H; cbn in *; [auto|]. destruct HL. auto.
Qed.
Lemma all_labels_mono P (M M' : epsk -> Prop) l : (forall e, M e -> M' e) -> all_labels P M l -> all_labels P M' l.
Proof.
  intros HM. induction l; cbn; [auto|]. intros [H1 H2]. split; [now apply (tree_labels_mono P M)|exact (IHl H2)].
Qed.
Lemma trees_labels (P : atom -> Prop) :
  (forall p g, part_atoms P p -> tree_labels P (mark_in g (g + groups_part p)) (part_tree p g)) /\
  (forall e g, expr_atoms P e -> tree_labels P (mark_in g (g + groups_expr e)) (expr_tree e g)) /\
  (forall b g, branch_atoms P b -> all_labels P (mark_in g (g + groups_branch b)) (branch_trees b g)) /\
  (forall e g, ere_atoms P e -> all_labels P (mark_in g (g + groups e)) (ere_trees e g)).
Proof.
  apply syntax_ind; intros.
  - apply H. assumption.
  - rewrite part_tree_quant. apply quant_labels. apply H. assumption.
  - exact I.
  - exact I.
  - assumption.
  - rewrite expr_tree_sub, groups_sub. cbn [tree_labels mark_in]. split; [lia|]. split; [lia|].
    eapply all_labels_mono; [|apply H; assumption]. intros []; cbn; auto; lia.
  - exact I.
  - rewrite branch_trees_cons. destruct H1 as [H1 H2]. rewrite groups_branch_cons. split.
    + eapply tree_labels_mono; [|now apply H]. intros []; cbn; auto; lia.
    + eapply all_labels_mono; [|now apply H0]. intros []; cbn; auto; lia.
  - exact I.
  - rewrite ere_trees_cons. destruct H1 as [H1 H2]. rewrite groups_cons. split.
    + eapply all_labels_mono; [|now apply H]. intros []; cbn; auto; lia.
    + eapply all_labels_mono; [|now apply H0]. intros []; cbn; auto; lia.
Qed.

(** ** Words *)
Lemma t_concat_lang check a b w : tlang check (t_concat a b) w <-> exists u v, w = u ++ v /\ tlang check a u /\ tlang check b v.
Proof.
  assert (G : forall L1 L2 w, catL [L1; L2] w <-> exists u v, w = u ++ v /\ L1 u /\ L2 v).
  { clear. intros L1 L2 w. split.
    - intros H. inv H. inv H4. inv H5. rewrite app_nil_r. eauto.
    - intros (u & v & -> & H1 & H2). constructor; [assumption|]. rewrite <- (app_nil_r v). constructor; [assumption|constructor]. }
  destruct a; try apply G. cbn. rewrite map_app, catL_app. split.
  - intros (u & v & -> & H1 & H2). cbn in H2. inv H2. inv H5. rewrite app_nil_r. eauto 10.
  - intros (u & v & -> & H1 & H2). exists u, v. repeat split; auto. cbn. rewrite <- (app_nil_r v). constructor; [assumption|constructor].
Qed.
Lemma t_repeat_lang check t n w : tlang check (t_repeat t n) w <-> powL (tlang check t) n w.
Proof. destruct n; cbn; [|reflexivity]. split; [intros ->; constructor|intros H; now inv H]. Qed.
Lemma t_upto_lang check t n b w : tlang check (t_upto t n b) w <-> exists m, m <= n /\ powL (tlang check t) m w.
Proof.
  destruct n; cbn; [|reflexivity]. split; [intros ->; exists 0; split; [lia|constructor]|].
  intros (m & Hm & H). destruct m; [now inv H|lia].
Qed.
Lemma powL_split (L : word -> Prop) n m w : powL L (n + m) w -> exists u v, w = u ++ v /\ powL L n u /\ powL L m v.
Proof.
  revert w; induction n as [|n IH]; intros w H; cbn in H; [exists [], w; repeat split; auto; constructor|].
  inv H. apply IH in H2 as (x & y & -> & H3 & H4). exists (u ++ x), y. rewrite app_assoc. repeat split; auto. now constructor.
Qed.
Lemma powL_one (L : word -> Prop) w : powL L 1 w <-> L w.
Proof.
  split; [intros H; inv H; inv H2; now rewrite app_nil_r|]. intros H. rewrite <- (app_nil_r w). constructor; [assumption|constructor].
Qed.
Lemma powL_cat2 (L : word -> Prop) (n m : nat) (R : nat -> Prop) w :
  (exists u v, w = u ++ v /\ powL L n u /\ exists m, R m /\ powL L m v) <-> exists k, (exists m, R m /\ k = n + m) /\ powL L k w.
Proof.
  split.
  - intros (u & v & -> & H1 & k & H2 & H3). exists (n + k). split; [eauto|]. now apply powL_app.
  - intros (k & (m0 & Hm & ->) & H). apply powL_split in H as (u & v & -> & H1 & H2). exists u, v. eauto 10.
Qed.
Lemma quant_lang check c q w :
  tlang check (quant_tree c q) w <-> exists n, quant_allows (q_type q) n /\ powL (tlang check c) n w.
Proof.
  unfold quant_tree. set (L := tlang check c). destruct (q_type q) as [ | | |n|n [m|]]; cbn [quant_allows t_star t_optional].
  - cbn. fold L. split; [intros (m & H); eauto|intros (m & _ & H); eauto].
  - rewrite t_concat_lang. cbn [tlang]. fold L. split.
    + intros (u & v & -> & H1 & m & H2). exists (S m). split; [lia|]. now constructor.
    + intros ([|m] & Hm & H); [lia|]. inv H. eexists _, _. split; [reflexivity|]. split; [assumption|]. now exists m.
  - unfold t_optional. rewrite t_upto_lang. reflexivity.
  - rewrite t_repeat_lang. fold L. split.
    + intros H. exists (N.to_nat n). split; [lia|assumption].
    + intros (k & <- & H). now rewrite Nat2N.id.
  - destruct (N.ltb_spec m n); [|destruct (N.eqb_spec m n)].
    + cbn. split; [tauto|]. intros (k & H1 & _). lia.
    + rewrite t_repeat_lang. fold L. split.
      * intros H1. exists (N.to_nat n). split; [lia|assumption].
      * intros (k & H1 & H2). replace (N.to_nat n) with k by lia. assumption.
    + rewrite t_concat_lang. setoid_rewrite t_repeat_lang. setoid_rewrite t_upto_lang. fold L.
      split.
      * intros (u & v & -> & H1 & k & H2 & H3). exists (N.to_nat n + k). split; [lia|]. now apply powL_app.
      * intros (k & H1 & H2). replace k with (N.to_nat n + (k - N.to_nat n)) in H2 by lia.
        apply powL_split in H2 as (u & v & -> & H3 & H4). exists u, v. repeat split; auto. exists (k - N.to_nat n). split; [lia|assumption].
  - rewrite t_concat_lang. setoid_rewrite t_repeat_lang. cbn [tlang]. fold L. split.
    + intros (u & v & -> & H1 & k & H2). exists (N.to_nat n + k). split; [lia|]. now apply powL_app.
    + intros (k & H1 & H2). replace k with (N.to_nat n + (k - N.to_nat n)) in H2 by lia.
      apply powL_split in H2 as (u & v & -> & H3 & H4). exists u, v. split; [reflexivity|]. split; [assumption|]. now exists (k - N.to_nat n).
Qed.

Lemma tlang_marks check P M t w e : tree_labels P M t -> tlang check t w -> In (IM e) w -> M e.
Proof.
  revert w. induction t using tree_ind'; intros w; cbn [tree_labels tlang]; intros HL Hw Hi.
  - subst. destruct Hi.
  - destruct Hw as (c & _ & ->). destruct Hi as [E|[]]. discriminate.
  - induction H as [|t l Ht H IH]; cbn in *; inv Hw; destruct HL; eauto.
  - destruct Hw as (v & Hv & ->). destruct HL as (H1 & H2 & H3). destruct Hi as [E|Hi]; [now injection E as <-|].
    apply in_app_or in Hi as [Hi|[E|[]]]; [eauto|now injection E as <-].
  - revert w Hw Hi. induction H as [|t l Ht H IH]; intros w Hw Hi; cbn in *; inv Hw; [destruct Hi|].
    destruct HL. apply in_app_or in Hi as [Hi|Hi]; eauto.
  - induction Hw; [destruct Hi|]. apply in_app_or in Hi as [Hi|Hi]; eauto.
  - destruct Hw as (m & _ & Hw). induction Hw; [destruct Hi|]. apply in_app_or in Hi as [Hi|Hi]; eauto.
  - destruct Hw as (m & Hw). induction Hw; [destruct Hi|]. apply in_app_or in Hi as [Hi|Hi]; eauto.
  - subst. destruct Hi as [E|[]]. now injection E as <-.
  - subst. destruct Hi as [E|[]]. now injection E as <-.
  - contradiction.
Qed.

(** ** Reading a word on a text *)
Section Reads.
  Variable T : list N.

  Inductive reads : nat -> word -> nat -> Prop :=
  | rd_nil : forall i, i <= length T -> reads i [] i
  | rd_char : forall i c w j, nth_error T i = Some c -> reads (S i) w j -> reads i (IC c :: w) j
  | rd_mark : forall i e w j, (e = EStart -> i = 0) -> (e = EEnd -> i = length T) -> reads i w j -> reads i (IM e :: w) j.
  Lemma reads_app i u v j : reads i (u ++ v) j <-> exists k, reads i u k /\ reads k v j.
  Proof.
    revert i; induction u as [|x u IH]; intros i; cbn.
    - split.
      + intros H. exists i. split; [|assumption]. constructor. clear - H. induction H; auto; lia.
      + intros (k & H & H'). now inv H.
    - split.
      + intros H. inversion H as [|i0 c w j0 Hc Hr|i0 e w j0 H1 H2 Hr]; subst; apply IH in Hr as (k & ? & ?); exists k; split; auto; constructor; auto.
      + intros (k & H & H'). inv H; constructor; auto; apply IH; eauto.
  Qed.
  Lemma reads_mark_inv i e w j : reads i (IM e :: w) j -> (e = EStart -> i = 0) /\ (e = EEnd -> i = length T) /\ reads i w j.
  Proof. intros H. inv H. auto. Qed.
  Lemma reads_char_inv i c w j : reads i (IC c :: w) j -> nth_error T i = Some c /\ reads (S i) w j.
  Proof. intros H. inv H. auto. Qed.
  Lemma reads_nil_inv i j : reads i [] j -> i = j /\ i <= length T.
  Proof. intros H. inv H. auto. Qed.
  Lemma reads_le i w j : reads i w j -> i <= j <= length T.
  Proof. induction 1; lia. Qed.
  Lemma reads_chars i w j : reads i w j -> j = i + length (chars w) /\ chars w = firstn (j - i) (skipn i T).
  Proof.
    induction 1 as [i Hi|i c w j Hc H IH|i e w j H1 H2 H IH]; cbn.
    - rewrite Nat.sub_diag. split; [lia|reflexivity].
    - destruct IH as [IH1 IH2]. split; [lia|]. assert (Hl := reads_le _ _ _ H).
      replace (j - i) with (S (j - S i)) by lia.
      assert (E : skipn i T = c :: skipn (S i) T).
      { clear - Hc. revert Hc. generalize T. induction i as [|i IH]; intros [|x T'] H; cbn in *; try discriminate; [congruence|]. now apply IH. }
      rewrite E. cbn. now rewrite IH2.
    - exact IH.
  Qed.
  Lemma reads_IC i pre : firstn (length pre) (skipn i T) = pre -> i + length pre <= length T -> reads i (map IC pre) (i + length pre).
  Proof.
    revert i; induction pre as [|c pre IH]; intros i H Hl; cbn in *.
    - rewrite Nat.add_0_r in *. now constructor.
    - destruct (skipn i T) as [|x r] eqn:E; [discriminate|]. injection H as -> H.
      assert (Hn : nth_error T i = Some c /\ skipn (S i) T = r).
      { clear - E. revert E. generalize T. induction i as [|i IH]; intros [|y T'] H; cbn in *; try discriminate; [injection H as -> ->; auto|]. now apply IH. }
      destruct Hn as [Hn Hr]. constructor; [assumption|]. rewrite Nat.add_succ_r. apply (IH (S i)); [now rewrite Hr|lia].
  Qed.
End Reads.

(** Reading the whole text means: the right characters, and anchors only at the ends. *)
Lemma reads_whole T W : reads T 0 W (length T) <-> chars W = T /\ valid W.
Proof.
  split.
  - intros H. destruct (reads_chars _ _ _ _ H) as [_ E]. rewrite Nat.sub_0_r, skipn_O, firstn_all in E. split; [assumption|]. split.
    + intros u v ->. apply reads_app in H as (k & H1 & H2). apply reads_mark_inv in H2 as (H2 & _ & _). rewrite H2 in H1 by reflexivity.
      apply reads_chars in H1 as [H1 _]. destruct (chars u); [reflexivity|cbn in H1; lia].
    + intros u v ->. apply reads_app in H as (k & H1 & H2). apply reads_mark_inv in H2 as (_ & H6 & H7). rewrite H6 in H7 by reflexivity.
      apply reads_chars in H7 as [H7 _]. destruct (chars v); [reflexivity|cbn in H7; lia].
  - intros [E Hv].
    assert (G : forall v u, W = u ++ v -> reads T (length (chars u)) v (length T)).
    { induction v as [|x v IH]; intros u Hu.
      - rewrite app_nil_r in Hu. subst u. rewrite E. constructor. lia.
      - assert (Hu' : W = (u ++ [x]) ++ v) by now rewrite <- app_assoc. specialize (IH _ Hu'). rewrite chars_app in IH.
        destruct x as [c|e].
        + cbn in IH. rewrite app_length in IH. cbn in IH. rewrite Nat.add_1_r in IH. constructor; [|assumption].
          rewrite <- E, Hu, chars_app. cbn. rewrite nth_error_app2, Nat.sub_diag by lia. reflexivity.
        + cbn in IH. rewrite app_nil_r in IH. constructor; [| |assumption].
          * intros ->. destruct Hv as [Hv _]. now rewrite (Hv u v Hu).
          * intros ->. destruct Hv as [_ Hv]. rewrite <- E, Hu, chars_app. cbn. rewrite (Hv u v Hu). now rewrite app_nil_r. }
    now apply (G W []).
Qed.

(** ** Words and logs *)
Definition fresh (k : nat) (w : word) : Prop := ~ In (IM (ESC k)) w /\ ~ In (IM (EEC k)) w.
Inductive blog : nat -> word -> nat -> log -> Prop :=
| bl_nil : forall i, blog i [] i []
| bl_char : forall i c, blog i [IC c] (S i) []
| bl_start : forall i, blog i [IM EStart] i []
| bl_end : forall i, blog i [IM EEnd] i []
| bl_cap : forall k i j v L, blog i v j L -> fresh k v -> blog i (IM (ESC k) :: v ++ [IM (EEC k)]) j (L ++ [(k, (i, j))])
| bl_app : forall i j k u v L1 L2, blog i u j L1 -> blog j v k L2 -> blog i (u ++ v) k (L1 ++ L2).

Section Bridge.
  Variable T : list N.
  Hypothesis HT : Forall scalar T.

  Definition reading (t : tree) (i j : nat) (L : log) : Prop :=
    exists w, tlang acheck t w /\ reads T i w j /\ blog i w j L.

  Lemma ere_fresh bs g w : tlang acheck (TUnion (ere_trees bs (S g))) w -> fresh g w.
  Proof.
    intros Hw. assert (HL := proj2 (proj2 (proj2 (trees_labels (fun _ => True)))) bs (S g)).
    assert (HA : ere_atoms (fun _ => True) bs).
    { assert (G : (forall p, part_atoms (fun _ => True) p) /\ (forall e, expr_atoms (fun _ => True) e) /\
        (forall b, branch_atoms (fun _ => True) b) /\ (forall e, ere_atoms (fun _ => True) e)).
      { apply syntax_ind; intros; cbn; auto. }
      apply G. }
    specialize (HL HA).
    split; intros Hi; apply (tlang_marks acheck _ _ (TUnion _) w _ HL Hw) in Hi; cbn in Hi; lia.
  Qed.

  Lemma scalar_at i c : nth_error T i = Some c -> scalar c.
  Proof using HT. intros H. apply nth_error_In in H. rewrite Forall_forall in HT. auto. Qed.

  Lemma spec_reading :
    (forall p g i j L, m_part T p g i j L -> reading (part_tree p g) i j L) /\
    (forall e n g i j L, m_iter T e n g i j L -> exists w, powL (tlang acheck (expr_tree e g)) n w /\ reads T i w j /\ blog i w j L) /\
    (forall e g i j L, m_expr T e g i j L -> reading (expr_tree e g) i j L) /\
    (forall e g i j L, m_alts T e g i j L -> reading (TUnion (ere_trees e g)) i j L) /\
    (forall b g i j L, m_branch T b g i j L -> reading (TConcat (branch_trees b g)) i j L).
  Proof using HT.
    apply (match_ind T
      (fun p g i j L _ => reading (part_tree p g) i j L)
      (fun e n g i j L _ => exists w, powL (tlang acheck (expr_tree e g)) n w /\ reads T i w j /\ blog i w j L)
      (fun e g i j L _ => reading (expr_tree e g) i j L)
      (fun e g i j L _ => reading (TUnion (ere_trees e g)) i j L)
      (fun b g i j L _ => reading (TConcat (branch_trees b g)) i j L)).
    - intros e g i j L _ H. exact H.
    - intros e q n g i j L Hq _ (w & H1 & H2 & H3). rewrite part_tree_quant. exists w. rewrite quant_lang. eauto 10.
    - intros g. exists [IM EStart]. split; [reflexivity|]. split; [|constructor]. constructor; try discriminate; auto. constructor. lia.
    - intros g. exists [IM EEnd]. split; [reflexivity|]. split; [|constructor]. constructor; try discriminate; auto. constructor. lia.
    - intros e g i Hi. exists []. split; [constructor|]. split; constructor. assumption.
    - intros e n g i j k L1 L2 _ (u & H1 & H2 & H3) _ (v & H4 & H5 & H6). exists (u ++ v). split; [now constructor|].
      split; [apply reads_app; eauto|]. econstructor; eauto.
    - intros a g i c Hc Ha. exists [IC c]. split.
      + exists c. split; [|reflexivity]. unfold acheck. rewrite (scalar_at _ _ Hc), andb_true_r. now apply atom_check_iff.
      + split; [|constructor]. constructor; [assumption|]. constructor. apply nth_error_Some. congruence.
    - intros bs g i j L _ (v & H1 & H2 & H3). rewrite expr_tree_sub. exists (IM (ESC g) :: v ++ [IM (EEC g)]).
      split; [exists v; auto|]. split.
      + constructor; try discriminate. apply reads_app. exists j. split; [assumption|]. constructor; try discriminate.
        constructor. apply reads_le in H2. lia.
      + constructor; [assumption|]. eapply ere_fresh; eauto.
    - intros b bs g i j L _ (w & H1 & H2 & H3). rewrite ere_trees_cons. exists w. split; [|auto]. cbn. now left.
    - intros b bs g i j L _ (w & H1 & H2 & H3). rewrite ere_trees_cons. exists w. split; [|auto]. cbn. right. exact H1.
    - intros g i Hi. exists []. split; [constructor|]. split; constructor. assumption.
    - intros p b g i j k L1 L2 _ (u & H1 & H2 & H3) _ (v & H4 & H5 & H6). rewrite branch_trees_cons. exists (u ++ v).
      split; [cbn; now constructor|]. split; [apply reads_app; eauto|]. econstructor; eauto.
  Qed.

  Lemma reading_spec :
    (forall p g w i j, tlang acheck (part_tree p g) w -> reads T i w j -> exists L, m_part T p g i j L /\ blog i w j L) /\
    (forall e g w i j, tlang acheck (expr_tree e g) w -> reads T i w j -> exists L, m_expr T e g i j L /\ blog i w j L) /\
    (forall b g w i j, tlang acheck (TConcat (branch_trees b g)) w -> reads T i w j -> exists L, m_branch T b g i j L /\ blog i w j L) /\
    (forall e g w i j, tlang acheck (TUnion (ere_trees e g)) w -> reads T i w j -> exists L, m_alts T e g i j L /\ blog i w j L).
  Proof.
    apply syntax_ind.
    - intros e IH g w i j Hw Hr. destruct (IH g w i j Hw Hr) as (L & H1 & H2). exists L. split; [now constructor|assumption].
    - intros e q IH g w i j Hw Hr. rewrite part_tree_quant in Hw. apply quant_lang in Hw as (n & Hq & Hw).
      assert (G : exists L, m_iter T e n g i j L /\ blog i w j L).
      { clear Hq. revert i Hr. induction Hw as [|n u v Hu Hv IHv]; intros i Hr.
        - inv Hr. exists []. split; constructor. assumption.
        - apply reads_app in Hr as (k & Hr1 & Hr2). destruct (IH _ _ _ _ Hu Hr1) as (L1 & H1 & H2).
          destruct (IHv _ Hr2) as (L2 & H3 & H4). exists (L1 ++ L2). split; econstructor; eauto. }
      destruct G as (L & H1 & H2). exists L. split; [econstructor; eauto|assumption].
    - intros g w i j Hw Hr. cbv in Hw. subst w. apply reads_mark_inv in Hr as (H2 & _ & Hr). apply reads_nil_inv in Hr as [<- _]. rewrite H2 by reflexivity. exists []. split; constructor.
    - intros g w i j Hw Hr. cbv in Hw. subst w. apply reads_mark_inv in Hr as (_ & H2 & Hr). apply reads_nil_inv in Hr as [<- _]. rewrite H2 by reflexivity. exists []. split; constructor.
    - intros a g w i j (c & Hc & ->) Hr. apply reads_char_inv in Hr as [Hn Hr]. apply reads_nil_inv in Hr as [<- _]. exists []. split; [|constructor]. econstructor; eauto.
      apply atom_check_iff. now apply andb_true_iff in Hc.
    - intros bs IH g w i j Hw Hr. rewrite expr_tree_sub in Hw. destruct Hw as (v & Hv & ->). apply reads_mark_inv in Hr as (_ & _ & Hr).
      apply reads_app in Hr as (k & H5 & H6). apply reads_mark_inv in H6 as (_ & _ & H6). apply reads_nil_inv in H6 as [-> _]. destruct (IH _ _ _ _ Hv H5) as (L & H1 & H3).
      exists (L ++ [(g, (i, j))]). split; [now constructor|]. constructor; [assumption|]. eapply ere_fresh; eauto.
    - intros g w i j Hw Hr. inv Hw. inv Hr. exists []. split; constructor. assumption.
    - intros p b IHp IHb g w i j Hw Hr. rewrite branch_trees_cons in Hw. cbn in Hw. inversion Hw as [|L0 Ls u v Hu Hv]; subst. apply reads_app in Hr as (k & Hr1 & Hr2).
      destruct (IHp _ _ _ _ Hu Hr1) as (L1 & H2 & H3). destruct (IHb _ _ _ _ Hv Hr2) as (L2 & H5 & H6).
      exists (L1 ++ L2). split; econstructor; eauto.
    - intros g w i j Hw Hr. inv Hw.
    - intros b e IHb IHe g w i j Hw Hr. rewrite ere_trees_cons in Hw. cbn in Hw. inv Hw.
      + destruct (IHb _ _ _ _ H0 Hr) as (L & H1 & H2). exists L. split; [now apply ma_here|assumption].
      + destruct (IHe _ _ _ _ H0 Hr) as (L & H1 & H2). exists L. split; [now apply ma_later|assumption].
  Qed.

  Lemma matches_word e i j L : matches T e i j L -> exists w, tlang acheck (tree_of e) w /\ reads T i w j /\ blog i w j L.
  Proof using HT.
    intros (L' & H & ->). apply spec_reading in H as (v & H1 & H2 & H3). rewrite tree_of_eq.
    exists (IM (ESC 0) :: v ++ [IM (EEC 0)]). split; [exists v; auto|]. split.
    - constructor; try discriminate. apply reads_app. exists j. split; [assumption|]. constructor; try discriminate.
      constructor. apply reads_le in H2. lia.
    - constructor; [assumption|]. eapply ere_fresh; eauto.
  Qed.
  Lemma word_matches e i j w : tlang acheck (tree_of e) w -> reads T i w j -> exists L, matches T e i j L /\ blog i w j L.
  Proof.
    rewrite tree_of_eq. intros (v & Hv & ->) Hr. apply reads_mark_inv in Hr as (_ & _ & Hr).
    apply reads_app in Hr as (k & H5 & H6). apply reads_mark_inv in H6 as (_ & _ & H6). apply reads_nil_inv in H6 as [-> _].
    destruct (proj2 (proj2 (proj2 reading_spec)) _ _ _ _ _ Hv H5) as (L & H1 & H3).
    exists (L ++ [(0, (i, j))]). split; [exists L; auto|]. constructor; [assumption|]. eapply ere_fresh; eauto.
  Qed.
End Bridge.
