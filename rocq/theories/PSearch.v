(** The generic graph search marks exactly the reachable states. *)
From Verif Require Export PThompson.
From Coq Require Import ZifyBool ZifyNat Relation_Operators Operators_Properties.
Open Scope nat_scope.
Open Scope list_scope.
Set Default Proof Using "Type".

Notation marked r x := (nth x r false = true).

Lemma nth_upd_in {A} (x d : A) i j l : i < length l -> nth j (upd i x l) d = if j =? i then x else nth j l d.
Proof. intros H. rewrite nth_upd. destruct (Nat.ltb_spec i (length l)); [|lia]. now rewrite andb_true_r. Qed.
Lemma marked_lt r x : marked r x -> x < length r.
Proof.
  intros H. destruct (Nat.lt_ge_cases x (length r)) as [|Hx]; auto.
  rewrite nth_overflow in H by exact Hx. discriminate.
Qed.

  Definition unseen (seen : list bool) : nat := length (filter negb seen).
  Lemma unseen_upd seen t : nth t seen true = false -> unseen seen = S (unseen (upd t true seen)).
  Proof.
    unfold unseen. revert t; induction seen as [|b seen IH]; intros [|t] H; cbn in *; try discriminate.
    - now subst b.
    - destruct b; cbn; [auto|]. now rewrite <- IH.
  Qed.

  Lemma visit_fold ys : forall seen st seen' st',
    fold_left visit ys (seen, st) = (seen', st') ->
    Forall (fun y => y < length seen) ys ->
    Forall (fun x => marked seen x) st ->
    length seen' = length seen /\
    unseen seen' + length st' = unseen seen + length st /\
    (forall x, marked seen' x <-> marked seen x \/ In x ys) /\
    (forall x, In x st' <-> In x st \/ (In x ys /\ ~ marked seen x)) /\
    Forall (fun x => marked seen' x) st'.
  Proof.
    induction ys as [|y ys IH]; intros seen st seen' st' E Hy Hst; cbn in E.
    - injection E as <- <-. repeat split; auto; cbn; tauto.
    - inv Hy. destruct (nth y seen true) eqn:Ey.
      + assert (My : marked seen y).
        { rewrite (nth_indep _ _ true) by assumption. exact Ey. }
        destruct (IH _ _ _ _ E H2 Hst) as (H3 & H4 & H5 & H6 & H7).
        repeat split; auto.
        * intros H. apply H5 in H. cbn. tauto.
        * intros [H|[->|H]]; apply H5; auto.
        * intros H. apply H6 in H. cbn. tauto.
        * intros [H|[[->|H] Hn]]; [apply H6; auto|contradiction|apply H6; auto].
      + assert (Hny : ~ marked seen y).
        { rewrite (nth_indep _ _ true) by assumption. congruence. }
        assert (Hu : forall x, marked (upd y true seen) x <-> x = y \/ marked seen x).
        { intros x. rewrite nth_upd_in by assumption. destruct (Nat.eqb_spec x y); tauto. }
        destruct (IH _ _ _ _ E) as (H3 & H4 & H5 & H6 & H7).
        { now rewrite upd_length. }
        { constructor; [apply Hu; auto|]. eapply Forall_impl; [|exact Hst]. cbn. intros x Hx. apply Hu. auto. }
        rewrite upd_length in H3. rewrite (unseen_upd _ _ Ey). cbn [length] in H4.
        split; [assumption|]. split; [lia|]. split; [|split; [|assumption]].
        * intros x. rewrite H5, Hu. cbn. intuition auto.
        * intros x. rewrite H6, Hu. cbn. split.
          -- intros [[<-|H]|[H Hn]]; [right; auto|auto|]. right. tauto.
          -- intros [H|[[<-|H] Hn]]; [auto|auto|]. destruct (Nat.eq_dec x y) as [->|Hxy]; [auto|]. right. tauto.
  Qed.

  Lemma unseen_repeat n : unseen (repeat false n) = n.
  Proof. unfold unseen. induction n; cbn; auto. Qed.
  Lemma nth_repeat_false n x : nth x (repeat false n) false = false.
  Proof. revert x; induction n; intros [|x]; cbn; auto. Qed.

Section Search.
  Variable succ : nat -> list nat.
  Definition edge (x y : nat) : Prop := In y (succ x).
  Definition star (x y : nat) : Prop := clos_refl_trans_1n nat edge x y.

  Definition inv_ (seen : list bool) (stack : list nat) : Prop :=
    Forall (fun x => marked seen x) stack /\
    forall x, marked seen x -> In x stack \/ forall y, edge x y -> marked seen y.

  Lemma dfs_spec fuel : forall seen stack,
    (forall x y, edge x y -> y < length seen) ->
    inv_ seen stack -> unseen seen + length stack <= fuel ->
    exists r, dfs fuel succ seen stack = Ok r /\ length r = length seen /\
      (forall x, marked seen x -> marked r x) /\
      (forall x y, marked r x -> edge x y -> marked r y) /\
      (forall y, marked r y -> exists x, marked seen x /\ star x y).
  Proof.
    induction fuel as [|fuel IH]; intros seen stack HR [H1 H2] Hf.
    - destruct stack as [|s st]; [|cbn in Hf; lia]. cbn. exists seen. repeat split; auto.
      + intros x y Hx. destruct (H2 x Hx) as [[]|H]; auto.
      + intros y Hy. exists y. split; auto. constructor.
    - destruct stack as [|s st].
      { cbn. exists seen. repeat split; auto.
        + intros x y Hx. destruct (H2 x Hx) as [[]|H]; auto.
        + intros y Hy. exists y. split; auto. constructor. }
      cbn [dfs]. destruct (fold_left visit (succ s) (seen, st)) as [seen' st'] eqn:E.
      apply Forall_cons_iff in H1 as [Hms Hmst]. destruct (visit_fold _ _ _ _ _ E) as (H3 & H5 & H6 & H7 & H8).
      { apply Forall_forall. intros y Hy. eapply HR, Hy. }
      { assumption. }
      destruct (IH seen' st') as (r & Er & Hl & Ha & Hb & Hc).
      + rewrite H3. exact HR.
      + split; [assumption|]. intros x Hx. apply H6 in Hx as [Hx|Hx].
        * destruct (H2 x Hx) as [[->|Hs]|Hs].
          -- right. intros y Hy. apply H6. auto.
          -- left. apply H7. auto.
          -- right. intros y Hy. apply H6. auto.
        * destruct (nth x seen false) eqn:Ex.
          -- destruct (H2 x Ex) as [[->|Hs]|Hs].
             ++ right. intros y Hy. apply H6. auto.
             ++ left. apply H7. auto.
             ++ right. intros y Hy. apply H6. auto.
          -- left. apply H7. right. split; auto. congruence.
      + cbn [length] in Hf. lia.
      + exists r. repeat split; auto.
        * congruence.
        * intros x Hx. apply Ha, H6. auto.
        * intros y Hy. destruct (Hc y Hy) as (x & Hx & Hs). apply H6 in Hx as [Hx|Hx]; [eauto|].
          exists s. split; [assumption|]. econstructor; eauto.
  Qed.

  Lemma star_closed r x y : (forall x y, marked r x -> edge x y -> marked r y) -> marked r x -> star x y -> marked r y.
  Proof. intros H Hx Hs. induction Hs; eauto. Qed.

  Lemma reach_from_spec n s : s < n -> (forall x y, edge x y -> y < n) ->
    exists r, reach_from n succ s = Ok r /\ length r = n /\ forall y, marked r y <-> star s y.
  Proof.
    intros Hs HR. unfold reach_from.
    assert (HM : forall x, marked (upd s true (repeat false n)) x <-> x = s).
    { intros x. rewrite nth_upd_in by now rewrite repeat_length. destruct (Nat.eqb_spec x s); [tauto|].
      rewrite nth_repeat_false. split; [discriminate|contradiction]. }
    destruct (dfs_spec (S n) (upd s true (repeat false n)) [s]) as (r & Er & Hl & Ha & Hb & Hc).
    - rewrite upd_length, repeat_length. exact HR.
    - split; [constructor; [now apply HM|constructor]|]. intros x Hx. apply HM in Hx as ->. left; now left.
    - assert (E : nth s (repeat false n) true = false).
      { rewrite (nth_indep _ _ false) by now rewrite repeat_length. apply nth_repeat_false. }
      apply unseen_upd in E. rewrite unseen_repeat in E. cbn. lia.
    - exists r. rewrite upd_length, repeat_length in Hl. repeat split; auto.
      + intros Hy. destruct (Hc y Hy) as (x & Hx & Hst). apply HM in Hx as ->. exact Hst.
      + intros Hst. eapply star_closed; eauto. apply Ha. now apply HM.
  Qed.
End Search.
