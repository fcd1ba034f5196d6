(** Proofs about the lowering of patterns: numbering of groups. *)
From Verif Require Export PTree SpecGroups.
From Coq Require Import ZifyBool ZifyNat ZifyN.
Open Scope nat_scope.
Open Scope list_scope.

Lemma opens_length :
  (forall p, length (opens_part p) = groups_part p) /\ (forall e, length (opens_expr e) = groups_expr e) /\
  (forall b, length (opens_branch b) = groups_branch b) /\ (forall e, length (opens e) = groups e).
Proof.
  apply syntax_ind; intros; auto.
  - change (opens_expr (XSub bs)) with (bs :: opens bs). rewrite groups_sub. cbn. now rewrite H.
  - change (opens_branch (p :: b)) with (opens_part p ++ opens_branch b). rewrite app_length, groups_branch_cons. lia.
  - change (opens (b :: e)) with (opens_branch b ++ opens e). rewrite app_length, groups_cons. lia.
Qed.
Definition numbered (l : list ere) (g : nat) (t : tree) (k : nat) : Prop :=
  exists d bs, k = g + d /\ nth_error l d = Some bs /\ t = TUnion (ere_trees bs (S k)).
Lemma numbered_l l m g t k : numbered l g t k -> numbered (l ++ m) g t k.
Proof. intros (d & bs & -> & H & Ht). exists d, bs. split; [reflexivity|]. split; [|assumption]. rewrite nth_error_app1; [assumption|]. apply nth_error_Some. congruence. Qed.
Lemma numbered_r l m g t k : numbered m (g + length l) t k -> numbered (l ++ m) g t k.
Proof. intros (d & bs & -> & H & Ht). exists (length l + d), bs. split; [lia|]. split; [|assumption]. rewrite nth_error_app2 by lia. now replace (length l + d - length l) with d by lia. Qed.
Ltac sub H := inversion H; subst; clear H.
Lemma subtree_concat t k a b : subtree (TCapture t k) (t_concat a b) -> subtree (TCapture t k) a \/ subtree (TCapture t k) b.
Proof.
  intros H. unfold t_concat in H. destruct a; try (sub H; match goal with H : In _ [_; _] |- _ => destruct H as [<-|[<-|[]]]; auto end).
  sub H. match goal with H : In _ (_ ++ _) |- _ => apply in_app_or in H as [H|[<-|[]]]; [left|right; auto] end. eapply st_concat; eauto.
Qed.
Lemma subtree_repeat t k a n : subtree (TCapture t k) (t_repeat a n) -> subtree (TCapture t k) a.
Proof. intros H. destruct n; cbn in H; sub H; auto. Qed.
Lemma subtree_upto t k a n b : subtree (TCapture t k) (t_upto a n b) -> subtree (TCapture t k) a.
Proof. intros H. destruct n; cbn in H; sub H; auto. Qed.
Lemma subtree_quant t k c q : subtree (TCapture t k) (quant_tree c q) -> subtree (TCapture t k) c.
Proof.
  unfold quant_tree. destruct (q_type q) as [ | | |n|n [m|]]; intros H.
  - sub H. auto.
  - apply subtree_concat in H as [H|H]; [auto|]. sub H. auto.
  - unfold t_optional in H. now apply subtree_upto in H.
  - now apply subtree_repeat in H.
  - destruct (m <? n)%N; [sub H|]. destruct (m =? n)%N; [now apply subtree_repeat in H|].
    apply subtree_concat in H as [H|H]; [now apply subtree_repeat in H|now apply subtree_upto in H].
  - apply subtree_concat in H as [H|H]; [now apply subtree_repeat in H|]. sub H. auto.
Qed.
Lemma subtree_numbered :
  (forall p g t k, subtree (TCapture t k) (part_tree p g) -> numbered (opens_part p) g t k) /\
  (forall e g t k, subtree (TCapture t k) (expr_tree e g) -> numbered (opens_expr e) g t k) /\
  (forall b g t k u, In u (branch_trees b g) -> subtree (TCapture t k) u -> numbered (opens_branch b) g t k) /\
  (forall e g t k u, In u (ere_trees e g) -> subtree (TCapture t k) u -> numbered (opens e) g t k).
Proof.
  apply syntax_ind.
  - intros e IH g t k H. now apply IH.
  - intros e q IH g t k H. rewrite part_tree_quant in H. apply subtree_quant in H. now apply IH.
  - intros g t k H. sub H.
  - intros g t k H. sub H.
  - intros a g t k H. sub H.
  - intros bs IH g t k H. rewrite expr_tree_sub in H. change (opens_expr (XSub bs)) with ([bs] ++ opens bs). sub H.
    + exists 0, bs. split; [lia|]. split; reflexivity.
    + apply numbered_r. cbn [length]. rewrite Nat.add_1_r. match goal with H : subtree _ (TUnion _) |- _ => sub H end. eauto.
  - intros g t k u [].
  - intros p b IHp IHb g t k u Hu H. rewrite branch_trees_cons in Hu. change (opens_branch (p :: b)) with (opens_part p ++ opens_branch b).
    destruct Hu as [<-|Hu]; [apply numbered_l; auto|]. apply numbered_r. rewrite (proj1 opens_length). eauto.
  - intros g t k u [].
  - intros b e IHb IHe g t k u Hu H. rewrite ere_trees_cons in Hu. change (opens (b :: e)) with (opens_branch b ++ opens e).
    destruct Hu as [<-|Hu]; [apply numbered_l; sub H; eauto|]. apply numbered_r. rewrite (proj1 (proj2 (proj2 opens_length))). eauto.
Qed.
Lemma tree_numbered e t k : subtree (TCapture t k) (tree_of e) ->
  (k = 0 /\ t = TUnion (ere_trees e 1)) \/ numbered (opens e) 1 t k.
Proof.
  rewrite tree_of_eq. intros H. sub H; [now left|]. right. match goal with H : subtree _ (TUnion _) |- _ => sub H end.
  eapply subtree_numbered; eauto.
Qed.
Lemma tree_nested e t k u j : subtree (TCapture t k) (tree_of e) -> subtree (TCapture u j) t -> k < j.
Proof.
  intros H Hu. assert (G : forall bs k, t = TUnion (ere_trees bs (S k)) -> k < j).
  { intros bs k' ->. sub Hu. match goal with H1 : In _ _, H2 : subtree _ _ |- _ => apply (proj2 (proj2 (proj2 subtree_numbered)) _ _ _ _ _ H1) in H2 as (d & bs' & -> & _) end. lia. }
  apply tree_numbered in H as [[-> Ht]|(d & bs & -> & _ & Ht)]; eauto.
Qed.

(** ** Presence *)
Definition present (l : list ere) (g : nat) (P : tree -> Prop) : Prop :=
  forall d bs, nth_error l d = Some bs -> exists u, P u /\ subtree (TCapture (TUnion (ere_trees bs (S (g + d)))) (g + d)) u.
Lemma present_app l m g (P Q R : tree -> Prop) : present l g P -> present m (g + length l) Q -> (forall u, P u -> R u) -> (forall u, Q u -> R u) -> present (l ++ m) g R.
Proof.
  intros H1 H2 HP HQ d bs Hd. destruct (Nat.lt_ge_cases d (length l)) as [L|L].
  - rewrite nth_error_app1 in Hd by assumption. destruct (H1 _ _ Hd) as (u & X & Y). exists u. auto.
  - rewrite nth_error_app2 in Hd by assumption. destruct (H2 _ _ Hd) as (u & X & Y). exists u. split; [auto|].
    now replace (g + length l + (d - length l)) with (g + d) in Y by lia.
Qed.
Lemma concat_l t a b : ~ (exists l, t = TConcat l) -> subtree t a -> subtree t (t_concat a b).
Proof.
  intros Ht H. unfold t_concat. destruct a; try (eapply st_concat; [left; reflexivity|assumption]).
  sub H; [exfalso; eauto|]. eapply st_concat; [apply in_or_app; left; eassumption|assumption].
Qed.
Lemma concat_r t a b : subtree t b -> subtree t (t_concat a b).
Proof.
  intros H. unfold t_concat. destruct a; try (eapply st_concat; [right; left; reflexivity|assumption]).
  eapply st_concat; [apply in_or_app; right; left; reflexivity|assumption].
Qed.
Lemma quant_subtree t k c q : (exists n, 1 <= n /\ quant_allows (q_type q) n) -> subtree (TCapture t k) c -> subtree (TCapture t k) (quant_tree c q).
Proof.
  intros (n & Hn & Hq) H. assert (NC : ~ exists l, TCapture t k = TConcat l) by (intros (l & E); discriminate).
  unfold quant_tree. destruct (q_type q) as [ | | |m|m [b|]]; cbn [quant_allows] in Hq.
  - now apply st_star.
  - apply concat_l; assumption.
  - cbn. now apply st_upto.
  - subst m. rewrite Nat2N.id. destruct n; [lia|]. now apply st_repeat.
  - destruct (N.ltb_spec b m); [lia|]. destruct (N.eqb_spec b m) as [->|].
    + destruct (N.to_nat m) eqn:E; [lia|]. now apply st_repeat.
    + apply concat_r. destruct (N.to_nat (b - m)) eqn:E; [lia|]. now apply st_upto.
  - apply concat_r. now apply st_star.
Qed.
Lemma groups_present :
  (forall p g, used_part p -> present (opens_part p) g (fun u => u = part_tree p g)) /\
  (forall e g, used_expr e -> present (opens_expr e) g (fun u => u = expr_tree e g)) /\
  (forall b g, used_branch b -> present (opens_branch b) g (fun u => In u (branch_trees b g))) /\
  (forall e g, used e -> present (opens e) g (fun u => In u (ere_trees e g))).
Proof.
  apply syntax_ind.
  - intros e IH g H. now apply IH.
  - intros e q IH g [Hq H] d bs Hd. destruct (IH g H d bs Hd) as (u & -> & Hu). eexists. split; [reflexivity|].
    rewrite part_tree_quant. now apply quant_subtree.
  - intros g _ [|d] bs Hd; discriminate.
  - intros g _ [|d] bs Hd; discriminate.
  - intros a g _ [|d] bs Hd; discriminate.
  - intros bs IH g H. change (opens_expr (XSub bs)) with ([bs] ++ opens bs).
    apply present_app with (P := fun u => u = expr_tree (XSub bs) g) (Q := fun u => u = expr_tree (XSub bs) g); auto.
    + intros [|[|d]] bs' Hd; try discriminate. injection Hd as <-. eexists. split; [reflexivity|]. rewrite expr_tree_sub, Nat.add_0_r. constructor.
    + intros d bs' Hd. destruct (IH (S g) H d bs' Hd) as (u & Hi & Hu). eexists. split; [reflexivity|]. rewrite expr_tree_sub. cbn [length]. rewrite Nat.add_1_r.
      apply st_capture. eapply st_union; eauto.
  - intros g _ [|d] bs Hd; discriminate.
  - intros p b IHp IHb g [H1 H2]. change (opens_branch (p :: b)) with (opens_part p ++ opens_branch b).
    eapply present_app; [apply IHp; exact H1|rewrite (proj1 opens_length); apply IHb; exact H2| |]; rewrite branch_trees_cons; [intros u ->; now left|intros u Hu; now right].
  - intros g _ [|d] bs Hd; discriminate.
  - intros b e IHb IHe g [H1 H2]. change (opens (b :: e)) with (opens_branch b ++ opens e).
    eapply present_app with (P := fun u => u = TConcat (branch_trees b g)); [|rewrite (proj1 (proj2 (proj2 opens_length))); apply IHe; exact H2| |]; [|rewrite ere_trees_cons; intros u ->; now left|rewrite ere_trees_cons; intros u Hu; now right].
    intros d bs Hd. destruct (IHb g H1 d bs Hd) as (u & Hi & Hu). eexists. split; [reflexivity|]. eapply st_concat; eauto.
Qed.
Lemma tree_present e d bs : used e -> nth_error (opens e) d = Some bs -> subtree (TCapture (TUnion (ere_trees bs (S (S d)))) (S d)) (tree_of e).
Proof.
  intros Hu Hd. destruct (proj2 (proj2 (proj2 groups_present)) e 1 Hu d bs Hd) as (u & Hi & H). rewrite tree_of_eq. apply st_capture. eapply st_union; eauto.
Qed.
