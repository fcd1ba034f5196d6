(** Threads are kept in the order of the start of their match, so that the one that is reported started
    first.  Used for the lockstep engines and the DFA. *)
From Verif Require Export PLazyEps.
From Coq Require Import ZifyBool ZifyNat.
Open Scope nat_scope.
Open Scope list_scope.
Set Default Proof Using "Type".

Notation FOP := ForallOrdPairs.
Section Fop0.
  Context {X : Type}.
  Lemma fop_app (R : X -> X -> Prop) l1 l2 : FOP R l1 -> FOP R l2 -> (forall x y, In x l1 -> In y l2 -> R x y) -> FOP R (l1 ++ l2).
  Proof.
    induction 1 as [|x l1 H1 H2 IH]; intros H3 H; cbn; [assumption|]. constructor.
    - apply Forall_app. split; [assumption|]. apply Forall_forall. intros y Hy. apply H; [now left|assumption].
    - apply IH; [assumption|]. intros; apply H; [now right|assumption].
  Qed.
  Lemma fop_app_inv (R : X -> X -> Prop) l1 l2 : FOP R (l1 ++ l2) -> FOP R l1 /\ FOP R l2 /\ (forall x y, In x l1 -> In y l2 -> R x y).
  Proof.
    induction l1 as [|x l1 IH]; cbn; intros H; [split; [constructor|split; [assumption|intros ? ? []]]|]. inversion H as [|? ? H1 H2]; subst. destruct (IH H2) as (I1 & I2 & I3).
    apply Forall_app in H1 as [H1 H1']. split; [now constructor|]. split; [assumption|]. intros y z [<-|Hy] Hz; [|auto]. rewrite Forall_forall in H1'. auto.
  Qed.
  Lemma fop_filter (R : X -> X -> Prop) f l : FOP R l -> FOP R (filter f l).
  Proof.
    induction 1 as [|x l H1 H2 IH]; cbn; [constructor|]. destruct (f x); [|assumption]. constructor; [|assumption].
    apply Forall_forall. intros y Hy. apply filter_In in Hy as [Hy _]. rewrite Forall_forall in H1. auto.
  Qed.
  Lemma fop_and (R S : X -> X -> Prop) l : FOP R l -> FOP S l -> FOP (fun x y => R x y /\ S x y) l.
  Proof.
    induction 1 as [|x l H1 H2 IH]; intros H; [constructor|]. inversion H as [|? ? H3 H4]; subst. constructor; [|auto]. rewrite Forall_forall in *. auto.
  Qed.
  Lemma fop_impl (R S : X -> X -> Prop) l : (forall x y, In x l -> In y l -> R x y -> S x y) -> FOP R l -> FOP S l.
  Proof.
    intros H HF. induction HF as [|x l H1 H2 IH]; constructor.
    - rewrite Forall_forall in *. intros y Hy. apply H; [now left|now right|auto].
    - apply IH. intros; apply H; [now right|now right|assumption].
  Qed.
  Lemma fop_dedup (R : X -> X -> Prop) f l : forall seen, FOP R l -> FOP R (dedup_by f seen l).
  Proof.
    induction l as [|x l IH]; intros seen H; cbn; [constructor|]. inversion H as [|? ? H1 H2]; subst. destruct (existsb (f x) seen); [exact (IH seen H2)|]. constructor; [|exact (IH (x :: seen) H2)].
    apply Forall_forall. intros y Hy. rewrite Forall_forall in H1. exact (H1 _ (proj1 (PDfa.dedup_In f l (x :: seen) y Hy))).
  Qed.
End Fop0.
Section Fop.
  Context {X Y : Type}.
  Lemma fop_flat_map (R : Y -> Y -> Prop) (f : X -> list Y) l : (forall x, In x l -> FOP R (f x)) -> FOP (fun x y => forall a b, In a (f x) -> In b (f y) -> R a b) l -> FOP R (flat_map f l).
  Proof.
    intros H HF. induction HF as [|x l H1 H2 IH]; cbn; [constructor|]. apply fop_app; [apply H; now left|apply IH; intros; apply H; now right|].
    intros a b Ha Hb. apply in_flat_map in Hb as (y & Hy & Hb). rewrite Forall_forall in H1. eapply H1; eauto.
  Qed.
  Lemma fop_flat_map_inv (R : Y -> Y -> Prop) (f : X -> list Y) l : FOP R (flat_map f l) -> (forall x, In x l -> FOP R (f x)) /\ FOP (fun x y => forall a b, In a (f x) -> In b (f y) -> R a b) l.
  Proof.
    induction l as [|x l IH]; cbn; intros H; [split; [intros ? []|constructor]|]. apply fop_app_inv in H as (H1 & H2 & H3). destruct (IH H2) as [I1 I2].
    split; [intros y [<-|Hy]; auto|]. constructor; [|assumption]. apply Forall_forall. intros y Hy a b Ha Hb. apply H3; [assumption|]. apply in_flat_map. eauto.
  Qed.
  Lemma fop_map (R : Y -> Y -> Prop) (f : X -> Y) l : FOP (fun x y => R (f x) (f y)) l <-> FOP R (map f l).
  Proof.
    split.
    - induction 1 as [|x l H1 H2 IH]; cbn; constructor; [|assumption]. apply Forall_map. exact H1.
    - induction l as [|x l IH]; cbn; intros H; [constructor|]. inversion H as [|? ? H1 H2]; subst. constructor; [|auto]. exact (proj1 (Forall_map f (R (f x)) l) H1).
  Qed.
  (** The first of its kind is kept. *)
  Lemma dedup_dom (R : X -> X -> Prop) (f : X -> X -> bool) (g : X -> nat) l : (forall x, R x x) -> (forall x y, f x y = true <-> g x = g y) -> FOP R l ->
    forall x, In x l -> exists y, In y (dedup_by f [] l) /\ g y = g x /\ R y x.
  Proof.
    intros Hr Hf HF. assert (G : forall l, FOP R l -> forall seen x, In x l -> (exists y, In y seen /\ g y = g x) \/ exists y, In y (dedup_by f seen l) /\ g y = g x /\ R y x).
    { clear l HF. induction l as [|z l IH]; intros HF seen x Hx; [destruct Hx|]. inversion HF as [|? ? H1 H2]; subst. rewrite Forall_forall in H1. cbn [dedup_by]. destruct (existsb (f z) seen) eqn:E.
      - destruct Hx as [->|Hx]; [|now apply IH]. left. apply existsb_exists in E as (y & Hy & E). apply Hf in E. exists y. auto.
      - destruct Hx as [->|Hx]; [right; exists x; split; [now left|auto]|]. destruct (IH H2 (z :: seen) x Hx) as [(y & [<-|Hy] & Ey)|(y & Hy & Ey & Hry)].
        + right. exists z. split; [now left|]. split; [assumption|auto].
        + left. eauto.
        + right. exists y. split; [now right|auto]. }
    intros x Hx. destruct (G l HF [] x Hx) as [(y & [] & _)|H]. exact H.
  Qed.
  Lemma dedup_map (f : Y -> Y -> bool) (h : X -> Y) l : forall seen, dedup_by f (map h seen) (map h l) = map h (dedup_by (fun a b => f (h a) (h b)) seen l).
  Proof.
    assert (G : forall x seen, existsb (f (h x)) (map h seen) = existsb (fun b => f (h x) (h b)) seen) by (intros x; induction seen as [|y s IH]; cbn; [reflexivity|now rewrite IH]).
    induction l as [|x l IH]; intros seen; cbn; [reflexivity|]. rewrite G. destruct (existsb _ seen); [apply IH|]. cbn. f_equal. exact (IH (x :: seen)).
  Qed.
End Fop.

(** ** When group 0 starts *)
Definition key0 (b : bounds) : option nat := match b with (s, _) :: _ => s | [] => None end.
Definition kle (x y : option nat) : Prop := match x, y with _, None => True | None, Some _ => False | Some a, Some b => a <= b end.
Lemma kle_refl x : kle x x. Proof. destruct x; cbn; auto. Qed.
Lemma kle_trans x y z : kle x y -> kle y z -> kle x z.
Proof. destruct x, y, z; cbn; try tauto. lia. Qed.
Definition opens0 (w : word) : nat := length (filter (fun i => match i with IM (ESC 0) => true | _ => false end) w).
Lemma opens0_app u v : opens0 (u ++ v) = opens0 u + opens0 v.
Proof. unfold opens0. now rewrite filter_app, app_length. Qed.
Lemma opens0_In w : opens0 w = 0 <-> ~ In (IM (ESC 0)) w.
Proof.
  unfold opens0. induction w as [|[c|[| | |[|k]|k]] w IH]; cbn; try (rewrite IH; intuition congruence); [tauto|]. split; [discriminate|]. intros H. exfalso. apply H. now left.
Qed.
Lemma started_word t w : startedb (ep_of t w) = true <-> opens0 w <> 0.
Proof.
  unfold startedb. rewrite (existsb_eqb_iff _ _ _ tag_eqb_iff). cbn [ep_tags ep_of]. unfold tags_of. rewrite tags_of_In, opens0_In. cbn [In]. split.
  - intros [[]|(i & Hi & Ht)] H. apply H. destruct i as [c|[| | |k|k]]; cbn in Ht; try tauto; destruct Ht as [E|[]]; [|discriminate]. now injection E as ->.
  - intros H. right. destruct (has (ESC 0) w) eqn:E; [apply has_iff in E; exists (IM (ESC 0)); split; [assumption|now left]|]. exfalso. apply H. intros Hi. apply has_iff in Hi. congruence.
Qed.
Section Key.
  Variable width : N -> nat.
  Lemma key0_end k i b : key0 (set_end k i b) = key0 b. Proof. unfold set_end. now destruct b as [|[s e] b], k as [|k]. Qed.
  Lemma key0_start k i b : key0 (set_start (S k) i b) = key0 b. Proof. unfold set_start. now destruct b as [|[s e] b]. Qed.
  Lemma key0_run_none w : forall i b, opens0 w = 0 -> key0 (run_marks width i w b) = key0 b.
  Proof.
    induction w as [|[c|[| | |[|k]|k]] w IH]; intros i b H; cbn [run_marks]; try (apply IH; exact H); [reflexivity|discriminate| |].
    - rewrite IH by exact H. apply key0_start.
    - rewrite IH by exact H. apply key0_end.
  Qed.
  Lemma key0_run_one w : forall i b, b <> [] -> opens0 w <> 0 -> exists k, key0 (run_marks width i w b) = Some k /\ k <= i + wwidth width w.
  Proof.
    induction w as [|[c|e] w IH]; intros i b Hb H; [now elim H| |].
    - cbn [run_marks]. destruct (IH (i + width c) b Hb H) as (k & -> & Hk). exists k. split; [reflexivity|]. unfold wwidth, total_width in *. cbn. lia.
    - assert (Hs : forall k, set_start k i b <> []) by (intros k E; apply Hb; apply (f_equal (@length _)) in E; rewrite set_start_length in E; now destruct b).
      assert (He : forall k, set_end k i b <> []) by (intros k E; apply Hb; apply (f_equal (@length _)) in E; rewrite set_end_length in E; now destruct b).
      destruct e as [| | |[|k]|k]; cbn [run_marks]; try (apply (IH i); [auto|exact H]).
      destruct (Nat.eq_dec (opens0 w) 0) as [E|E]; [|apply (IH i); auto].
      rewrite key0_run_none by assumption. exists i. unfold set_start. destruct b as [|[s x] b]; [now elim Hb|]. cbn. split; [reflexivity|lia].
  Qed.
  Lemma key0_zero i w b : chars w = [] -> b <> [] -> opens0 w <> 0 -> key0 (run_marks width i w b) = Some i.
  Proof.
    revert b. induction w as [|[c|e] w IH]; intros b Hw Hb H; [now elim H|discriminate|].
    assert (Hs : forall k, set_start k i b <> []) by (intros k E; apply Hb; apply (f_equal (@length _)) in E; rewrite set_start_length in E; now destruct b).
    assert (He : forall k, set_end k i b <> []) by (intros k E; apply Hb; apply (f_equal (@length _)) in E; rewrite set_end_length in E; now destruct b).
    destruct e as [| | |[|k]|k]; cbn [run_marks]; try (apply IH; [exact Hw|auto|exact H]).
    destruct (Nat.eq_dec (opens0 w) 0) as [E|E]; [|apply IH; auto].
    rewrite key0_run_none by assumption. unfold set_start. destruct b as [|[s x] b]; [now elim Hb|]. reflexivity.
  Qed.
  Lemma run_marks_ne i w b : b <> [] -> run_marks width i w b <> [].
  Proof.
    revert i b. induction w as [|[c|e] w IH]; intros i b Hb; [assumption|now apply IH|].
    assert (Hs : forall k, set_start k i b <> []) by (intros k E; apply Hb; apply (f_equal (@length _)) in E; rewrite set_start_length in E; now destruct b).
    assert (He : forall k, set_end k i b <> []) by (intros k E; apply Hb; apply (f_equal (@length _)) in E; rewrite set_end_length in E; now destruct b).
    destruct e; cbn; auto.
  Qed.
End Key.
