(** Length bounds in machine integers (C67). *)
From Coq Require Import ZifyBool ZifyNat ZifyN.
From Verif Require Import SpecSize Overflow PBytes PSize PAll PStrip.
Open Scope nat_scope.
Open Scope list_scope.
Set Default Proof Using "Type".

(** No count is 0 ([NonZeroUsize]), and how much a tree can weigh. *)
Fixpoint nonzero (t : tree) : Prop :=
  match t with
  | TUnion l | TConcat l => fold_right (fun t P => nonzero t /\ P) True l
  | TCapture t _ | TStar t _ => nonzero t
  | TRepeat t n | TUpTo t n _ => 1 <= n /\ nonzero t
  | _ => True
  end.
Fixpoint weight (t : tree) : nat :=
  match t with
  | TSymbol _ => 4
  | TUnion l | TConcat l => list_sum (map weight l)
  | TCapture t _ => weight t
  | TRepeat t n | TUpTo t n _ => n * weight t
  | _ => 0
  end.
Lemma all_nonzero l : fold_right (fun t P => nonzero t /\ P) True l <-> Forall nonzero l.
Proof. induction l as [|t l IH]; cbn; [split; constructor|]. rewrite IH, Forall_cons_iff. reflexivity. Qed.
Lemma nonzero_concat a b : nonzero a -> nonzero b -> nonzero (t_concat a b).
Proof. intros Ha Hb. destruct a; cbn; try (split; [assumption|split; [assumption|exact I]]); [split; [exact I|auto]..|]. apply all_nonzero. apply Forall_app. split; [now apply all_nonzero|auto]. Qed.
Lemma nonzero_repeat t n : nonzero t -> nonzero (t_repeat t n).
Proof. destruct n; cbn; [auto|]. intros H. split; [lia|assumption]. Qed.
Lemma nonzero_upto t n b : nonzero t -> nonzero (t_upto t n b).
Proof. destruct n; cbn; [auto|]. intros H. split; [lia|assumption]. Qed.
Lemma nonzero_quant t q : nonzero t -> nonzero (quant_tree t q).
Proof.
  intros H. unfold quant_tree. destruct (q_type q) as [| | |n|n [m|]].
  - exact H.
  - now apply nonzero_concat.
  - now apply nonzero_upto.
  - now apply nonzero_repeat.
  - destruct (m <? n)%N; [exact I|]. destruct (m =? n)%N; [now apply nonzero_repeat|]. apply nonzero_concat; [now apply nonzero_repeat|now apply nonzero_upto].
  - apply nonzero_concat; [now apply nonzero_repeat|assumption].
Qed.
Lemma nonzero_trees :
  (forall p g, nonzero (part_tree p g)) /\ (forall e g, nonzero (expr_tree e g)) /\ (forall b g, Forall nonzero (branch_trees b g)) /\ (forall e g, Forall nonzero (ere_trees e g)).
Proof.
  apply syntax_ind; intros.
  - now rewrite part_tree_single.
  - rewrite part_tree_quant. now apply nonzero_quant.
  - exact I.
  - exact I.
  - exact I.
  - rewrite expr_tree_sub. cbn [nonzero]. now apply all_nonzero.
  - constructor.
  - rewrite branch_trees_cons. constructor; auto.
  - constructor.
  - rewrite ere_trees_cons. constructor; auto. cbn [nonzero]. now apply all_nonzero.
Qed.
Lemma tree_nonzero e : nonzero (tree_of e).
Proof. rewrite tree_of_eq. cbn [nonzero]. apply all_nonzero. apply nonzero_trees. Qed.

(** ** The upper bound *)
Lemma len_le c : len_utf8 c <= 4.
Proof. unfold len_utf8. repeat match goal with |- context [if ?b then _ else _] => destruct b end; lia. Qed.
Lemma opt_add_none l : fold_left opt_add l None = None.
Proof. induction l as [|x l IH]; [reflexivity|]. cbn. assumption. Qed.
Lemma opt_max_none l : fold_left opt_max l None = None.
Proof. induction l as [|x l IH]; [reflexivity|]. cbn. assumption. Qed.
Lemma fold_max_none_r l : forall x, fold_left max_opt l None = None /\ (In None l -> fold_left max_opt l x = None).
Proof.
  assert (A : forall l, fold_left max_opt l None = None) by (induction l0 as [|y l0 IH]; [reflexivity|exact IH]).
  induction l as [|y l IH]; intros x; (split; [apply A|]); [intros []|]. intros [->|H]; cbn; [destruct x; apply A|]. now apply IH.
Qed.
Lemma fold_max_N l : forall x, fold_left max_opt (map (option_map N.of_nat) l) (option_map N.of_nat x) = option_map N.of_nat (fold_left opt_max l x).
Proof. induction l as [|y l IH]; intros x; [reflexivity|]. cbn [map fold_left]. rewrite <- IH. f_equal. destruct x, y; cbn; try reflexivity. now rewrite Nat2N.inj_max. Qed.
Lemma fold_max_ge l : forall x n, fold_left opt_max l x = Some n -> forall y, In y (x :: l) -> exists m, y = Some m /\ m <= n.
Proof.
  induction l as [|z l IH]; intros x n H y Hy; cbn [fold_left] in H; [destruct Hy as [<-|[]]; subst; eauto|].
  assert (A := IH _ _ H (opt_max x z) (or_introl eq_refl)). destruct A as (k & E & Hk). destruct x as [a|], z as [b|]; try discriminate. injection E as <-.
  destruct Hy as [<-|[<-|Hy]]; [exists a|exists b|apply (IH _ _ H); now right]; (split; [reflexivity|lia]).
Qed.
Lemma fold_max_is l : forall x n, fold_left opt_max l x = Some n -> In (Some n) (x :: l).
Proof.
  induction l as [|z l IH]; intros x n H; cbn [fold_left] in H; [now left|]. apply IH in H as [H|H]; [|right; now right]. destruct x as [a|], z as [b|]; try discriminate. injection H as H. assert (n = a \/ n = b) as [->| ->] by lia; [now left|right; now left].
Qed.
Section Width.
  Variable w : N.
  Hypothesis Hw : (4 < w)%N.
  Definition capped (n : nat) : res (option N) := if (N.of_nat n <? w)%N then Ok (Some (N.of_nat n)) else Panic.
  Definition quiet {A} (r : res (option A)) : Prop := r = Ok None \/ r = Panic.
  Definition max_agrees (r : res (option N)) (x : option nat) : Prop := match x with Some n => r = capped n | None => quiet r end.
  Lemma sum_agrees l : Forall (fun t => max_agrees (max_bytes_w w t) (max_bytes t)) l -> forall acc, (N.of_nat acc < w)%N ->
    max_agrees (sum_opt w (max_bytes_w w) (N.of_nat acc) l) (fold_left opt_add (map max_bytes l) (Some acc)).
  Proof using Hw.
    intros H. induction H as [|t l Ht H IH]; intros acc Ha; cbn [sum_opt map fold_left]; [unfold max_agrees, capped; destruct (N.ltb_spec (N.of_nat acc) w); [reflexivity|lia]|].
    destruct (max_bytes t) as [n|]; cbn [max_agrees opt_add] in *.
    - rewrite Ht. unfold capped. destruct (N.ltb_spec (N.of_nat n) w) as [L|L].
      + cbn [bind]. unfold Overflow.fits. rewrite <- Nat2N.inj_add. destruct (N.ltb_spec (N.of_nat (acc + n)) w) as [L2|L2]; cbn [bind]; [now apply IH|].
        clear - L2. assert (X : forall l acc, (w <= N.of_nat acc)%N -> max_agrees Panic (fold_left opt_add l (Some acc))).
        { clear. induction l as [|[x|] l IH]; intros acc L; cbn [fold_left opt_add]; [unfold max_agrees, capped; destruct (N.ltb_spec (N.of_nat acc) w); [lia|reflexivity]|apply IH; lia|rewrite opt_add_none; right; reflexivity]. }
        now apply X.
      + cbn [bind]. assert (X : forall l acc, (w <= N.of_nat acc)%N -> max_agrees Panic (fold_left opt_add l (Some acc))).
        { clear. induction l as [|[x|] l IH]; intros acc L; cbn [fold_left opt_add]; [unfold max_agrees, capped; destruct (N.ltb_spec (N.of_nat acc) w); [lia|reflexivity]|apply IH; lia|rewrite opt_add_none; right; reflexivity]. }
        apply X. lia.
    - rewrite opt_add_none. destruct Ht as [-> | ->]; [left|right]; reflexivity.
  Qed.
  (** What [each] makes of the alternatives. *)
  Lemma each_agrees l : Forall (fun t => max_agrees (max_bytes_w w t) (max_bytes t)) l ->
    (exists xs, each (max_bytes_w w) l = Ok xs /\ xs = map (option_map N.of_nat) (map max_bytes l) /\ forall n, In (Some n) (map max_bytes l) -> (N.of_nat n < w)%N) \/
    (each (max_bytes_w w) l = Panic /\ (In None (map max_bytes l) \/ exists n, In (Some n) (map max_bytes l) /\ (w <= N.of_nat n)%N)).
  Proof using Hw.
    intros H. induction H as [|t l Ht H IH]; [left; exists []; split; [reflexivity|split; [reflexivity|intros n []]]|]. cbn [each map].
    destruct (max_bytes t) as [n|]; cbn [max_agrees] in Ht.
    - rewrite Ht. unfold capped. destruct (N.ltb_spec (N.of_nat n) w) as [L|L]; cbn [bind]; [|right; split; [reflexivity|]; right; exists n; split; [now left|assumption]].
      destruct IH as [(xs & -> & -> & I)|(-> & I)]; cbn [bind]; [left; eexists; split; [reflexivity|split; [reflexivity|]]; intros m [E|E]; [injection E as <-; assumption|now apply I]|].
      right. split; [reflexivity|]. destruct I as [I|(m & I & I')]; [left; now right|right; exists m; split; [now right|assumption]].
    - destruct Ht as [-> | ->]; cbn [bind]; [|right; split; [reflexivity|]; left; now left].
      destruct IH as [(xs & -> & -> & I)|(-> & I)]; cbn [bind]; [left; eexists; split; [reflexivity|split; [reflexivity|]]; intros m [E|E]; [discriminate|now apply I]|]. right. split; [reflexivity|]. left. now left.
  Qed.
  Lemma max_w t : nonzero t -> max_agrees (max_bytes_w w t) (max_bytes t).
  Proof using Hw.
    assert (Z : (0 < w)%N) by lia.
    induction t as [ |a|l IH|t k IH|l IH|t k IH|t k b IH|t b IH| | | ] using tree_ind'; intros H; cbn [nonzero] in H; cbn [max_bytes max_bytes_w];
      try (unfold max_agrees, capped; replace (N.of_nat 0 <? w)%N with true by lia; reflexivity).
    - destruct (rev (to_ranges a)) as [|r l]; [now left|]. unfold max_agrees, capped. assert (X := len_le (snd r)). destruct (N.ltb_spec (N.of_nat (len_utf8 (snd r))) w); [reflexivity|lia].
    - apply all_nonzero in H. assert (F : Forall (fun t => max_agrees (max_bytes_w w t) (max_bytes t)) l) by (rewrite Forall_forall in *; auto). destruct (each_agrees l F) as [(xs & -> & -> & I)|(-> & I)]; cbn [bind].
      + destruct (map max_bytes l) as [|x r] eqn:E; cbn [map]; [unfold max_agrees, capped; destruct (N.ltb_spec (N.of_nat 0) w); [reflexivity|lia]|]. rewrite fold_max_N. destruct (fold_left opt_max r x) as [n|] eqn:Ef; [|now left].
        apply fold_max_is in Ef. apply I in Ef. unfold max_agrees, capped. cbn. destruct (N.ltb_spec (N.of_nat n) w); [reflexivity|lia].
      + destruct (map max_bytes l) as [|x r] eqn:E; [destruct I as [[]|(n & [] & _)]|]. destruct (fold_left opt_max r x) as [n|] eqn:Ef; [|now right]. unfold max_agrees, capped.
        destruct I as [I|(m & I & L)]; destruct (fold_max_ge _ _ _ Ef _ I) as (m' & E' & L'); [discriminate|]. injection E' as <-. destruct (N.ltb_spec (N.of_nat n) w); [lia|reflexivity].
    - auto.
    - apply all_nonzero in H. apply (sum_agrees l) with (acc := 0); [|lia]. rewrite Forall_forall in *. auto.
    - destruct H as [H1 H2]. specialize (IH H2). destruct (max_bytes t) as [n|]; cbn [option_map max_agrees] in *.
      + rewrite IH. unfold capped. rewrite Nat2N.inj_mul. destruct (N.ltb_spec (N.of_nat n) w); cbn [bind]; unfold Overflow.fits; [destruct (N.ltb_spec (N.of_nat n * N.of_nat k) w); reflexivity|]. destruct (N.ltb_spec (N.of_nat n * N.of_nat k) w); [nia|reflexivity].
      + destruct IH as [-> | ->]; [left|right]; reflexivity.
    - destruct H as [H1 H2]. specialize (IH H2). destruct (max_bytes t) as [n|]; cbn [option_map max_agrees] in *.
      + rewrite IH. unfold capped. rewrite Nat2N.inj_mul. destruct (N.ltb_spec (N.of_nat n) w); cbn [bind]; unfold Overflow.fits; [destruct (N.ltb_spec (N.of_nat n * N.of_nat k) w); reflexivity|]. destruct (N.ltb_spec (N.of_nat n * N.of_nat k) w); [nia|reflexivity].
      + destruct IH as [-> | ->]; [left|right]; reflexivity.
    - now left.
  Qed.

  (** ** The lower bound *)
  Lemma sum_min l : Forall (fun t => forall v, min_bytes_w w t = Ok v -> v = N.of_nat (min_bytes t)) l -> forall acc v, sum_all w (min_bytes_w w) acc l = Ok v -> v = (acc + N.of_nat (list_sum (map min_bytes l)))%N.
  Proof using.
    intros H. induction H as [|t l Ht H IH]; intros acc v E; cbn [sum_all] in E; [injection E as <-; cbn; clear; lia|]. apply bind_ok in E as (x & E1 & E). apply bind_ok in E as (a & E2 & E). apply Ht in E1. apply IH in E.
    unfold Overflow.fits in E2. destruct (acc + x <? w)%N; [|discriminate E2]. injection E2 as <-. cbn [map]. rewrite list_sum_cons. clear - E E1. lia.
  Qed.
  Lemma each_min l : Forall (fun t => forall v, min_bytes_w w t = Ok v -> v = N.of_nat (min_bytes t)) l -> forall xs, each (min_bytes_w w) l = Ok xs -> xs = map N.of_nat (map min_bytes l).
  Proof using.
    intros H. induction H as [|t l Ht H IH]; intros xs E; cbn [each] in E; [now injection E as <-|]. apply bind_ok in E as (x & E1 & E). apply bind_ok in E as (ys & E2 & E). injection E as <-. cbn [map]. rewrite (Ht _ E1), (IH _ E2). reflexivity.
  Qed.
  Lemma fold_min_N l : forall x, fold_left N.min (map N.of_nat l) (N.of_nat x) = N.of_nat (fold_left Nat.min l x).
  Proof using. induction l as [|y l IH]; intros x; [reflexivity|]. cbn [map fold_left]. rewrite <- Nat2N.inj_min. apply IH. Qed.
  Lemma fold_add l : forall x, fold_left Nat.add l x = x + list_sum l.
  Proof using. induction l as [|y l IH]; intros x; [cbn; clear; lia|]. cbn [fold_left]. rewrite IH, list_sum_cons. clear. lia. Qed.
  Lemma min_w t : forall v, min_bytes_w w t = Ok v -> v = N.of_nat (min_bytes t).
  Proof using.
    induction t as [ |a|l IH|t k IH|l IH|t k IH|t k b IH|t b IH| | | ] using tree_ind'; intros v E; cbn [min_bytes_w min_bytes] in *; try (now injection E as <-).
    - injection E as <-. now destruct (to_ranges a).
    - apply bind_ok in E as (xs & E1 & E). apply (each_min l IH) in E1. subst xs. injection E as <-. destruct (map min_bytes l) as [|x r]; [reflexivity|]. cbn [map]. apply fold_min_N.
    - auto.
    - apply (sum_min l IH) in E. rewrite fold_add. clear - E. lia.
    - apply bind_ok in E as (x & E1 & E). apply IH in E1. unfold Overflow.fits in E. destruct (x * N.of_nat k <? w)%N; [|discriminate E]. injection E as <-. subst x. now rewrite Nat2N.inj_mul.
    - apply bind_ok in E as (x & E1 & E). apply IH in E1. unfold Overflow.fits in E. destruct (x * N.of_nat k <? w)%N; [|discriminate E]. injection E as <-. subst x. now rewrite Nat2N.inj_mul.
  Qed.

  (** ** Neither overflows when the tree is light *)
  Lemma max_le t : forall n, max_bytes t = Some n -> n <= weight t.
  Proof using.
    clear Hw. induction t as [ |a|l IH|t k IH|l IH|t k IH|t k b IH|t b IH| | | ] using tree_ind'; intros n E; cbn [max_bytes weight] in *; try (injection E as <-; apply Nat.le_0_l); try discriminate E.
    - destruct (rev (to_ranges a)) as [|r l]; [discriminate|]. injection E as <-. apply len_le.
    - destruct (map max_bytes l) as [|x r] eqn:Em; [injection E as <-; apply Nat.le_0_l|]. apply fold_max_is in E. rewrite <- Em in E. apply in_map_iff in E as (t & E & Ht). rewrite Forall_forall in IH. apply (IH t Ht) in E.
      etransitivity; [exact E|]. clear - Ht. induction l as [|x l IH]; [destruct Ht|]. cbn [map]. rewrite list_sum_cons. destruct Ht as [->|Ht]; [lia|]. specialize (IH Ht). lia.
    - auto.
    - assert (G : forall acc, fold_left opt_add (map max_bytes l) (Some acc) = Some n -> n <= acc + list_sum (map weight l)); [|apply (G 0 E)].
      clear E. induction IH as [|t l Ht H IHl]; intros acc E; cbn [map fold_left opt_add] in *; [injection E as <-; lia|]. rewrite list_sum_cons. destruct (max_bytes t) as [m|]; [|rewrite opt_add_none in E; discriminate]. specialize (Ht m eq_refl). apply IHl in E. lia.
    - destruct (max_bytes t) as [m|]; [|discriminate]. injection E as <-. specialize (IH m eq_refl). nia.
    - destruct (max_bytes t) as [m|]; [|discriminate]. injection E as <-. specialize (IH m eq_refl). nia.
  Qed.
  Lemma min_le t : min_bytes t <= weight t.
  Proof using.
    clear Hw. induction t as [ |a|l IH|t k IH|l IH|t k IH|t k b IH|t b IH| | | ] using tree_ind'; cbn [min_bytes weight] in *; try apply Nat.le_0_l; auto.
    - destruct (to_ranges a) as [|r l]; [lia|]. apply len_le.
    - destruct l as [|t l]; [apply Nat.le_0_l|]. cbn [map]. rewrite list_sum_cons. inversion IH as [|? ? H1 H2]; subst. destruct (PBytes.fold_min_le (map min_bytes l) (min_bytes t)) as [G _]. lia.
    - rewrite fold_add. induction IH as [|t l H IH IHl]; [reflexivity|]. cbn [map]. rewrite !list_sum_cons. lia.
    - nia.
    - nia.
  Qed.
  Lemma fits_ok n : (n < w)%N -> Overflow.fits w n = Ok n.
  Proof using. intros H. unfold Overflow.fits. apply N.ltb_lt in H. now rewrite H. Qed.
  Lemma weight_in t l : In t l -> weight t <= list_sum (map weight l).
  Proof using. clear Hw. induction l as [|x l IH]; intros []; cbn [map]; rewrite list_sum_cons; [subst; lia|]. specialize (IH H). lia. Qed.
  Lemma max_fits t : nonzero t -> (N.of_nat (weight t) < w)%N -> exists x, max_bytes_w w t = Ok x.
  Proof using Hw.
    intros Hz Hl. destruct (max_bytes t) as [n|] eqn:E.
    - assert (A := max_w t Hz). rewrite E in A. cbn in A. rewrite A. unfold capped. apply max_le in E. destruct (N.ltb_spec (N.of_nat n) w); [eauto|lia].
    - clear E. induction t as [ |a|l IH|t k IH|l IH|t k IH|t k b IH|t b IH| | | ] using tree_ind'; cbn [max_bytes_w weight nonzero] in *; eauto.
      + apply all_nonzero in Hz. assert (G : exists xs, each (max_bytes_w w) l = Ok xs); [|destruct G as (xs & ->); cbn [bind]; eauto].
        assert (B : forall t, In t l -> (N.of_nat (weight t) < w)%N) by (intros t Ht; apply weight_in in Ht; lia). clear Hl. induction IH as [|t l Ht H IHl]; [cbn; eauto|]. inversion Hz as [|? ? Z1 Z2]; subst. cbn [each].
        destruct (Ht Z1 (B t (or_introl eq_refl))) as (x & ->). cbn [bind]. destruct (IHl Z2) as (xs & ->); [intros; apply B; now right|]. cbn [bind]. eauto.
      + apply all_nonzero in Hz. assert (G : forall acc, (acc + N.of_nat (list_sum (map weight l)) < w)%N -> exists x, sum_opt w (max_bytes_w w) acc l = Ok x); [|apply G; lia].
        clear Hl. induction IH as [|t l Ht H IHl]; intros acc Hl; cbn [sum_opt]; [eauto|]. inversion Hz as [|? ? Z1 Z2]; subst. cbn [map] in Hl. rewrite list_sum_cons in Hl.
        destruct (Ht Z1 ltac:(lia)) as (x & Ex). rewrite Ex. cbn [bind]. destruct x as [y|]; [|eauto].
        assert (Y : (y <= N.of_nat (weight t))%N). { assert (A := max_w t Z1). rewrite Ex in A. destruct (max_bytes t) as [m|] eqn:Em; cbn in A; [|destruct A; discriminate]. unfold capped in A. destruct (N.of_nat m <? w)%N; [|discriminate]. injection A as ->. apply max_le in Em. lia. }
        rewrite fits_ok by lia. cbn [bind]. apply IHl; [assumption|lia].
      + destruct Hz as [Z1 Z2]. destruct (IH Z2 ltac:(nia)) as (x & Ex). rewrite Ex. cbn [bind]. destruct x as [y|]; [|eauto].
        assert (Y : (y <= N.of_nat (weight t))%N). { assert (A := max_w t Z2). rewrite Ex in A. destruct (max_bytes t) as [m|] eqn:Em; cbn in A; [|destruct A; discriminate]. unfold capped in A. destruct (N.of_nat m <? w)%N; [|discriminate]. injection A as ->. apply max_le in Em. lia. }
        rewrite fits_ok by nia. cbn [bind]. eauto.
      + destruct Hz as [Z1 Z2]. destruct (IH Z2 ltac:(nia)) as (x & Ex). rewrite Ex. cbn [bind]. destruct x as [y|]; [|eauto].
        assert (Y : (y <= N.of_nat (weight t))%N). { assert (A := max_w t Z2). rewrite Ex in A. destruct (max_bytes t) as [m|] eqn:Em; cbn in A; [|destruct A; discriminate]. unfold capped in A. destruct (N.of_nat m <? w)%N; [|discriminate]. injection A as ->. apply max_le in Em. lia. }
        rewrite fits_ok by nia. cbn [bind]. eauto.
  Qed.
  Lemma min_fits t : nonzero t -> (N.of_nat (weight t) < w)%N -> min_bytes_w w t = Ok (N.of_nat (min_bytes t)).
  Proof using Hw.
    intros Hz Hl. assert (G : exists x, min_bytes_w w t = Ok x); [|destruct G as (x & E); rewrite E; f_equal; now apply min_w].
    induction t as [ |a|l IH|t k IH|l IH|t k IH|t k b IH|t b IH| | | ] using tree_ind'; cbn [min_bytes_w weight nonzero] in *; eauto.
    - apply all_nonzero in Hz. assert (G : exists xs, each (min_bytes_w w) l = Ok xs); [|destruct G as (xs & ->); cbn [bind]; eauto].
      assert (B : forall t, In t l -> (N.of_nat (weight t) < w)%N) by (intros t Ht; apply weight_in in Ht; lia). clear Hl. induction IH as [|t l Ht H IHl]; [cbn; eauto|]. inversion Hz as [|? ? Z1 Z2]; subst. cbn [each].
      destruct (Ht Z1 (B t (or_introl eq_refl))) as (x & ->). cbn [bind]. destruct (IHl Z2) as (xs & ->); [intros; apply B; now right|]. cbn [bind]. eauto.
    - apply all_nonzero in Hz. assert (G : forall acc, (acc + N.of_nat (list_sum (map weight l)) < w)%N -> exists x, sum_all w (min_bytes_w w) acc l = Ok x); [|apply G; lia].
      clear Hl. induction IH as [|t l Ht H IHl]; intros acc Hl; cbn [sum_all]; [eauto|]. inversion Hz as [|? ? Z1 Z2]; subst. cbn [map] in Hl. rewrite list_sum_cons in Hl.
      destruct (Ht Z1 ltac:(lia)) as (x & Ex). rewrite Ex. cbn [bind]. apply min_w in Ex. assert (Y := min_le t). rewrite fits_ok by lia. cbn [bind]. apply IHl; [assumption|lia].
    - destruct Hz as [Z1 Z2]. destruct (IH Z2 ltac:(nia)) as (x & Ex). rewrite Ex. cbn [bind]. apply min_w in Ex. assert (Y := min_le t). rewrite fits_ok by nia. eauto.
    - destruct Hz as [Z1 Z2]. destruct (IH Z2 ltac:(nia)) as (x & Ex). rewrite Ex. cbn [bind]. apply min_w in Ex. assert (Y := min_le t). rewrite fits_ok by nia. eauto.
  Qed.
End Width.

(** ** The weight of a pattern *)
Lemma weight_concat a b : weight (t_concat a b) = weight a + weight b.
Proof. destruct a; unfold t_concat; cbn [weight]; rewrite ?map_app, ?list_sum_app; cbn [map weight]; rewrite ?list_sum_cons; cbn [list_sum fold_right]; lia. Qed.
Lemma weight_repeat t n : weight (t_repeat t n) = n * weight t.
Proof. now destruct n. Qed.
Lemma weight_upto t n b : weight (t_upto t n b) = n * weight t.
Proof. now destruct n. Qed.
Lemma weight_quant t q z : weight t <= 4 * z -> weight (quant_tree t q) <= 4 * (1 + copies (q_type q) * (1 + z)).
Proof.
  intros H. unfold quant_tree. destruct (q_type q) as [| | |n|n [m|]]; cbn [copies].
  - cbn. lia.
  - rewrite weight_concat. cbn [t_star weight]. lia.
  - unfold t_optional. rewrite weight_upto. lia.
  - rewrite weight_repeat. nia.
  - destruct (N.ltb_spec m n); [cbn; lia|]. destruct (N.eqb_spec m n); [subst; rewrite weight_repeat; nia|]. rewrite weight_concat, weight_repeat, weight_upto.
    assert (E : N.to_nat m = N.to_nat n + N.to_nat (m - n)) by lia. rewrite E. generalize (N.to_nat (m - n)) (N.to_nat n). intros x y. nia.
  - rewrite weight_concat, weight_repeat. cbn [t_star weight]. nia.
Qed.
Lemma weight_trees (f : atom -> nat) :
  (forall p g, weight (part_tree p g) <= 4 * size_part f p) /\ (forall e g, weight (expr_tree e g) <= 4 * size_expr f e) /\
  (forall b g, list_sum (map weight (branch_trees b g)) <= 4 * size_branch f b) /\ (forall e g, list_sum (map weight (ere_trees e g)) <= 4 * size f e).
Proof.
  apply syntax_ind; intros.
  - rewrite part_tree_single. apply H.
  - rewrite part_tree_quant. now apply weight_quant.
  - apply Nat.le_0_l.
  - apply Nat.le_0_l.
  - unfold expr_tree. cbn [tree_of_expr fst weight size_expr]. lia.
  - rewrite expr_tree_sub. cbn [weight]. change (size_expr f (XSub bs)) with (size f bs). apply H.
  - apply Nat.le_0_l.
  - rewrite branch_trees_cons. unfold size_branch in *. cbn [map]. rewrite !list_sum_cons. specialize (H g). specialize (H0 (g + groups_part p)). lia.
  - apply Nat.le_0_l.
  - rewrite ere_trees_cons. unfold size in *. cbn [map weight]. rewrite !list_sum_cons. specialize (H g). specialize (H0 (g + groups_branch b)). lia.
Qed.
Lemma tree_weight e : weight (tree_of e) <= 4 * size (fun _ => 0) e.
Proof. rewrite tree_of_eq. cbn [weight]. apply weight_trees. Qed.
