(** Proofs about atoms. *)
From Verif Require Export SpecAtom.
From Coq Require Import ZifyBool ZifyNat ZifyN Sorted Permutation.
Open Scope N_scope.
Open Scope list_scope.

Ltac unbool := repeat match goal with
  | H : andb _ _ = true |- _ => apply andb_prop in H; destruct H
  | H : _ && _ = true |- _ => apply andb_prop in H; destruct H
  end.

Lemma in_ranges_iff c rs : in_ranges c rs = true <-> covered c rs.
Proof.
  unfold in_ranges, covered. rewrite existsb_exists. unfold in_range.
  split; intros [r [H1 H2]]; exists r; split; auto; lia.
Qed.
Lemma covered_cons c r rs : covered c (r :: rs) <-> fst r <= c <= snd r \/ covered c rs.
Proof.
  unfold covered; split.
  - intros (x & [->|Hx] & H); [left|right]; eauto.
  - intros [H|(x & Hx & H)]; [exists r|exists x]; simpl; auto.
Qed.
Lemma covered_nil c : covered c [] <-> False.
Proof. unfold covered; split; [intros (x & [] & _)|tauto]. Qed.
Lemma covered_app c l m : covered c (l ++ m) <-> covered c l \/ covered c m.
Proof.
  unfold covered; split.
  - intros (x & Hx & H); apply in_app_or in Hx as [?|?]; [left|right]; eauto.
  - intros [(x & Hx & H)|(x & Hx & H)]; exists x; split; auto; apply in_or_app; auto.
Qed.
Lemma covered_flat_map {A} c (f : A -> list range) l :
  covered c (flat_map f l) <-> exists x, In x l /\ covered c (f x).
Proof.
  induction l as [|a l IH]; simpl.
  - rewrite covered_nil; split; [tauto|intros (x & [] & _)].
  - rewrite covered_app, IH; split.
    + intros [H|(x & Hx & H)]; [exists a|exists x]; auto.
    + intros (x & [->|Hx] & H); [left|right]; eauto.
Qed.
Lemma covered_perm c l m : Permutation l m -> covered c l <-> covered c m.
Proof.
  intros P; unfold covered; split; intros (x & Hx & H); exists x; split; auto.
  - eapply Permutation_in; eauto.
  - eapply Permutation_in; [apply Permutation_sym|]; eauto.
Qed.

(** ** Sorting *)
Lemma insert_perm {A} (key : A -> N) x l : Permutation (x :: l) (insert_by key x l).
Proof.
  induction l as [|y l IH]; simpl; auto.
  destruct (key x <=? key y); auto.
  rewrite perm_swap; auto.
Qed.
Lemma sort_perm {A} (key : A -> N) l : Permutation l (sort_by_key key l).
Proof.
  induction l as [|y l IH]; simpl; auto.
  rewrite <- insert_perm; auto.
Qed.
Definition sorted_by {A} (key : A -> N) := StronglySorted (fun x y => key x <= key y).
Lemma insert_sorted {A} (key : A -> N) x l : sorted_by key l -> sorted_by key (insert_by key x l).
Proof.
  induction l as [|y l IH]; simpl; intros H.
  - repeat constructor.
  - destruct (key x <=? key y) eqn:E.
    + constructor; auto. inversion H; subst. constructor; [lia|].
      eapply Forall_impl; [|eassumption]. simpl; intros; lia.
    + inversion H; subst. constructor; [apply IH; auto|].
      rewrite Forall_forall in *. intros z Hz.
      apply (Permutation_in z (Permutation_sym (insert_perm key x l))) in Hz.
      destruct Hz as [<-|Hz]; auto; lia.
Qed.
Lemma sort_sorted {A} (key : A -> N) l : sorted_by key (sort_by_key key l).
Proof. induction l; simpl; [constructor|apply insert_sorted; auto]. Qed.

(** ** Classes *)
Ltac ascii_consts := cbv [ch s2l List.map List.hd String.list_ascii_of_string] in *; simpl (Ascii.N_of_ascii _) in *.
Lemma class_check_iff k c : class_check k c = true <-> class_has k c.
Proof.
  destruct k; simpl class_has; unfold class_check,
    is_ascii_alphanumeric, is_ascii_alphabetic, is_ascii_digit, is_ascii_lowercase, is_ascii_uppercase,
    is_ascii_control, is_ascii_whitespace, is_ascii_graphic, is_ascii_punctuation, is_ascii_hexdigit,
    is_ascii_digit, sp_punct, sp_graph, sp_print, sp_blank, sp_space, sp_xdigit, sp_alnum, sp_digit, sp_alpha,
    sp_lower, sp_upper, sp_cntrl, between; cbn [In]; ascii_consts; lia.
Qed.
Lemma class_ranges_iff k c : covered c (class_ranges k) <-> class_has k c.
Proof.
  destruct k; simpl class_has; cbn [class_ranges];
  repeat rewrite covered_cons; rewrite covered_nil; cbn [fst snd];
  unfold sp_punct, sp_graph, sp_print, sp_blank, sp_space, sp_xdigit, sp_alnum, sp_digit, sp_alpha,
    sp_lower, sp_upper, sp_cntrl, between; cbn [In]; ascii_consts; lia.
Qed.
Lemma class_ascii k c : class_has k c -> c < 128.
Proof.
  destruct k; simpl class_has;
  unfold sp_punct, sp_graph, sp_print, sp_blank, sp_space, sp_xdigit, sp_alnum, sp_digit, sp_alpha,
    sp_lower, sp_upper, sp_cntrl, between; cbn [In]; ascii_consts; lia.
Qed.

(** ** Terms and atoms, by membership *)
Lemma term_check_iff t c : term_check t c = true <-> term_has t c.
Proof. destruct t; simpl; [lia|lia|apply class_check_iff]. Qed.
Lemma terms_check_iff ts c : existsb (fun t => term_check t c) ts = true <-> exists t, In t ts /\ term_has t c.
Proof. rewrite existsb_exists. split; intros (t & H1 & H2); exists t; split; auto; apply term_check_iff; auto. Qed.
Lemma atom_check_iff a c : atom_check a c = true <-> atom_has a c.
Proof.
  destruct a; simpl.
  - lia.
  - lia.
  - apply terms_check_iff.
  - rewrite <- terms_check_iff. rewrite negb_true_iff. destruct existsb; intuition congruence.
Qed.
Lemma term_ranges_iff t c : covered c (term_ranges t) <-> term_has t c.
Proof.
  destruct t; simpl term_has; cbn [term_ranges].
  - rewrite covered_cons, covered_nil; cbn [fst snd]; lia.
  - rewrite covered_cons, covered_nil; cbn [fst snd]; lia.
  - apply class_ranges_iff.
Qed.
Lemma terms_ranges_iff ts c : covered c (flat_map term_ranges ts) <-> exists t, In t ts /\ term_has t c.
Proof.
  rewrite covered_flat_map. split; intros (t & H1 & H2); exists t; split; auto; apply term_ranges_iff; auto.
Qed.

(** ** Range combination *)
Definition range_ok (r : range) : Prop := scalar (fst r) /\ scalar (snd r).
Lemma term_ranges_ok t : term_ok t -> Forall range_ok (term_ranges t).
Proof.
  destruct t; cbn [term_ranges term_ok]; intros H.
  - repeat constructor; auto.
  - repeat constructor; simpl; tauto.
  - destruct k; cbn [class_ranges]; repeat constructor; vm_compute; reflexivity.
Qed.
Lemma terms_ranges_ok ts : Forall term_ok ts -> Forall range_ok (flat_map term_ranges ts).
Proof.
  induction 1; simpl; [constructor|]. apply Forall_app; split; auto. apply term_ranges_ok; auto.
Qed.

Lemma scalar_gap c d : scalar c -> scalar d -> d < c <-> succ_char d <= c.
Proof.
  unfold scalar, scalarb, succ_char, char_max. intros.
  destruct (d =? 0xD7FF) eqn:E; lia.
Qed.
Lemma scalar_gap' c d : scalar c -> scalar d -> 0 < d -> c < d <-> c <= pred_char d.
Proof.
  unfold scalar, scalarb, pred_char, char_max. intros.
  destruct (d =? 0xE000) eqn:E; lia.
Qed.

Lemma combine_loop_iff c ts : scalar c -> forall cs ce,
  Forall range_ok ts -> scalar ce -> sorted_by fst ts -> Forall (fun t => cs <= fst t) ts ->
  covered c (combine_loop cs ce ts) <-> cs <= c <= ce \/ covered c ts.
Proof.
  intros Hc. induction ts as [|t ts IH]; intros cs ce Hok Hce Hs Hle.
  - cbn [combine_loop]. rewrite covered_cons, !covered_nil; cbn [fst snd]; tauto.
  - cbn [combine_loop]. inversion Hok; subst. inversion Hs; subst. inversion Hle; subst.
    rewrite covered_cons. unfold range_is_empty.
    destruct (snd t <? fst t) eqn:E1.
    + rewrite IH; auto. assert (~ (fst t <= c <= snd t)) by lia. tauto.
    + destruct H1 as [Hf Hd].
      assert (scalar (N.max ce (snd t))) as Hmax.
      { destruct (N.max_spec ce (snd t)) as [[_ ->]|[_ ->]]; auto. }
      destruct ((fst t <=? ce) || (fst t =? succ_char ce)) eqn:E2.
      * rewrite IH; auto.
        assert (cs <= c <= N.max ce (snd t) <-> cs <= c <= ce \/ fst t <= c <= snd t).
        { pose proof (scalar_gap c ce Hc Hce). lia. }
        tauto.
      * rewrite covered_cons. cbn [fst snd]. rewrite IH; auto. tauto.
Qed.
Lemma combine_ranges_iff c rs : scalar c -> Forall range_ok rs ->
  covered c (combine_ranges rs) <-> covered c rs.
Proof.
  intros Hc Hok. unfold combine_ranges.
  rewrite (covered_perm c _ _ (sort_perm fst rs)).
  pose proof (sort_sorted fst rs) as Hs.
  assert (Forall range_ok (sort_by_key fst rs)) as Hok'.
  { rewrite Forall_forall in *. intros x Hx. apply Hok.
    eapply Permutation_in; [apply Permutation_sym, sort_perm|]; eauto. }
  destruct (sort_by_key fst rs) as [|f ts]; [tauto|].
  inversion Hs; subst. inversion Hok'; subst.
  rewrite combine_loop_iff; auto.
  - rewrite covered_cons; tauto.
  - apply H3.
Qed.

(** ** Range subtraction *)
Lemma subtract_one_iff c t r : scalar c -> range_ok t -> scalar (fst r) -> scalar (snd r) ->
  covered c (subtract_one t r) <-> fst r <= c <= snd r /\ ~ (fst t <= c <= snd t).
Proof.
  intros Hc [Ha Hb] Hr1 Hr2. unfold subtract_one.
  destruct ((snd t <? fst r) || (snd r <? fst t)) eqn:E.
  - rewrite covered_cons, covered_nil. lia.
  - pose proof (scalar_gap c (snd t) Hc Hb) as G1.
    pose proof (scalar_gap' c (fst t) Hc Ha) as G2.
    rewrite covered_app.
    destruct (fst r <? fst t) eqn:E1; destruct (snd t <? snd r) eqn:E2;
    repeat rewrite covered_cons; repeat rewrite covered_nil; cbn [fst snd]; lia.
Qed.
Lemma succ_scalar c : scalar c -> c < char_max -> scalar (succ_char c).
Proof. unfold scalar, scalarb, succ_char, char_max. intros. destruct (c =? 0xD7FF) eqn:E; lia. Qed.
Lemma pred_scalar c : scalar c -> 0 < c -> scalar (pred_char c).
Proof. unfold scalar, scalarb, pred_char, char_max. intros. destruct (c =? 0xE000) eqn:E; lia. Qed.
Lemma scalar_max c : scalar c -> c <= char_max.
Proof. unfold scalar, scalarb, char_max. lia. Qed.
Lemma subtract_one_ok t r : range_ok t -> range_ok r -> Forall range_ok (subtract_one t r).
Proof.
  intros [Ha Hb] [Hr1 Hr2]. unfold subtract_one.
  destruct ((snd t <? fst r) || (snd r <? fst t)) eqn:E.
  - repeat constructor; auto.
  - apply Forall_app; split.
    + destruct (fst r <? fst t) eqn:E1; repeat constructor; auto. simpl. apply pred_scalar; auto; lia.
    + destruct (snd t <? snd r) eqn:E1; repeat constructor; auto. simpl. apply succ_scalar; auto.
      pose proof (scalar_max _ Hr2). lia.
Qed.
Lemma subtract_ok t rs : range_ok t -> Forall range_ok rs -> Forall range_ok (subtract rs t).
Proof.
  intros Ht. induction 1; simpl; [constructor|]. apply Forall_app; split; auto. apply subtract_one_ok; auto.
Qed.
Lemma subtract_iff c t rs : scalar c -> range_ok t -> Forall range_ok rs ->
  covered c (subtract rs t) <-> covered c rs /\ ~ (fst t <= c <= snd t).
Proof.
  intros Hc Ht. induction 1 as [|r rs [Hr1 Hr2] H IH]; simpl.
  - rewrite covered_nil. tauto.
  - rewrite covered_app, covered_cons, subtract_one_iff, IH; auto. tauto.
Qed.
Lemma subtract_all_iff c ts : scalar c -> Forall range_ok ts -> forall rs, Forall range_ok rs ->
  covered c (fold_left subtract ts rs) <-> covered c rs /\ ~ covered c ts.
Proof.
  intros Hc. induction 1 as [|t ts Ht H IH]; intros rs Hrs; simpl.
  - rewrite covered_nil. tauto.
  - rewrite IH, subtract_iff, covered_cons; auto. tauto. apply subtract_ok; auto.
Qed.
Lemma subtract_all_ok ts : Forall range_ok ts -> forall rs, Forall range_ok rs ->
  Forall range_ok (fold_left subtract ts rs).
Proof. induction 1; intros; simpl; auto. apply IHForall. apply subtract_ok; auto. Qed.

Lemma full_ok : range_ok (0, char_max).
Proof. split; vm_compute; reflexivity. Qed.

Lemma to_ranges_iff a c : atom_ok a -> scalar c -> covered c (to_ranges a) <-> atom_has a c.
Proof.
  intros Ha Hc. destruct a; cbn [to_ranges atom_has atom_ok] in *.
  - rewrite covered_cons, covered_nil; cbn [fst snd]. lia.
  - rewrite covered_cons, covered_nil; cbn [fst snd]. pose proof (scalar_max _ Hc). lia.
  - rewrite combine_ranges_iff, terms_ranges_iff; auto. tauto. apply terms_ranges_ok; auto.
  - rewrite <- (covered_perm c _ _ (sort_perm fst _)).
    rewrite subtract_all_iff, terms_ranges_iff; auto.
    + rewrite covered_cons, covered_nil; cbn [fst snd]. pose proof (scalar_max _ Hc).
      split; [tauto|]. intros; split; auto. left; lia.
    + apply terms_ranges_ok; auto.
    + repeat constructor; apply full_ok.
Qed.
Lemma to_ranges_check a c : atom_ok a -> scalar c -> in_ranges c (to_ranges a) = atom_check a c.
Proof.
  intros Ha Hc. apply eq_true_iff_eq. rewrite in_ranges_iff, atom_check_iff. apply to_ranges_iff; auto.
Qed.

Lemma combine_loop_ok ts : Forall range_ok ts -> forall cs ce, scalar cs -> scalar ce ->
  Forall range_ok (combine_loop cs ce ts).
Proof.
  induction 1 as [|t ts [H1 H2] H IH]; intros cs ce Hcs Hce; simpl.
  - repeat constructor; auto.
  - destruct range_is_empty; auto. destruct (_ || _).
    + apply IH; auto. destruct (N.max_spec ce (snd t)) as [[_ ->]|[_ ->]]; auto.
    + constructor; auto. split; auto.
Qed.
Lemma Forall_perm {A} (P : A -> Prop) l m : Permutation l m -> Forall P l -> Forall P m.
Proof.
  intros Hp. rewrite !Forall_forall. intros H x Hx. apply H.
  eapply Permutation_in; [apply Permutation_sym|]; eauto.
Qed.
Lemma to_ranges_ok a : atom_ok a -> Forall range_ok (to_ranges a).
Proof.
  destruct a; cbn [to_ranges atom_ok]; intros Ha.
  - repeat constructor; auto.
  - repeat constructor; vm_compute; reflexivity.
  - unfold combine_ranges. apply terms_ranges_ok in Ha.
    apply (Forall_perm _ _ _ (sort_perm fst _)) in Ha.
    destruct sort_by_key; [constructor|]. inversion Ha; subst.
    apply combine_loop_ok; auto; apply H1.
  - eapply Forall_perm; [apply sort_perm|]. apply subtract_all_ok.
    + apply terms_ranges_ok; auto.
    + repeat constructor; apply full_ok.
Qed.

(** ** Canonical form *)
(** Sorted, non-empty, and with at least one character between consecutive ranges. *)
Definition apart (r s : range) : Prop := succ_char (snd r) < fst s.
Definition canonical (rs : list range) : Prop :=
  Forall (fun r => fst r <= snd r) rs /\ StronglySorted apart rs.

Lemma combine_loop_canonical ts : Forall range_ok ts -> forall cs ce,
  scalar cs -> scalar ce -> cs <= ce -> sorted_by fst ts -> Forall (fun t => cs <= fst t) ts ->
  canonical (combine_loop cs ce ts) /\ Forall (fun r => cs <= fst r) (combine_loop cs ce ts).
Proof.
  induction 1 as [|t ts [H1 H2] H IH]; intros cs ce Hcs Hce Hle Hs Hl; simpl.
  - repeat constructor; auto; simpl; lia.
  - inversion Hs; subst. inversion Hl; subst. unfold range_is_empty.
    destruct (snd t <? fst t) eqn:E1; [apply IH; auto|].
    destruct ((fst t <=? ce) || (fst t =? succ_char ce)) eqn:E2.
    + apply IH; auto.
      * destruct (N.max_spec ce (snd t)) as [[_ ->]|[_ ->]]; auto.
      * lia.
    + destruct (IH (fst t) (snd t)) as [[C1 C2] C3]; auto; [lia|].
      assert (succ_char ce < fst t).
      { pose proof (scalar_gap (fst t) ce H1 Hce). lia. }
      split; [split|].
      * constructor; auto.
      * constructor; auto. eapply Forall_impl; [|exact C3]. unfold apart; simpl; intros; lia.
      * constructor; [simpl; lia|]. eapply Forall_impl; [|exact C3]. simpl; intros; lia.
Qed.

(** Two canonical lists covering the same scalars are equal. *)
Lemma canonical_head_min r l c : canonical (r :: l) -> covered c (r :: l) -> fst r <= c.
Proof.
  intros [H1 H2] (x & [<-|Hx] & Hc); [lia|].
  inversion H2; subst. rewrite Forall_forall in *. specialize (H4 x Hx). unfold apart in H4.
  specialize (H1 r (or_introl eq_refl)). unfold succ_char in H4. destruct (snd r =? 0xD7FF) eqn:E; lia.
Qed.
Lemma canonical_ext l : forall m, canonical l -> canonical m -> Forall range_ok l -> Forall range_ok m ->
  (forall c, scalar c -> covered c l <-> covered c m) -> l = m.
Proof.
  induction l as [|r l IH]; intros m Cl Cm Ol Om Heq.
  - destruct m as [|s m]; auto. exfalso.
    inversion Om; subst. destruct H1. destruct Cm as [Cm _]. inversion Cm; subst.
    assert (covered (fst s) []) as X.
    { apply Heq; auto. exists s; split; simpl; auto; lia. }
    apply covered_nil in X; auto.
  - destruct m as [|s m].
    + exfalso. inversion Ol; subst. destruct H1. destruct Cl as [Cl _]. inversion Cl; subst.
      assert (covered (fst r) []) as X.
      { apply Heq; auto. exists r; split; simpl; auto; lia. }
      apply covered_nil in X; auto.
    + pose proof Cl as [Cl1 Cl2]. pose proof Cm as [Cm1 Cm2].
      inversion Ol as [|? ? [Or1 Or2] Ol']; subst. inversion Om as [|? ? [Os1 Os2] Om']; subst.
      inversion Cl1 as [|? ? Lr Cl1']; subst. inversion Cm1 as [|? ? Ls Cm1']; subst.
      inversion Cl2 as [|? ? Cl2' Ar]; subst. inversion Cm2 as [|? ? Cm2' As]; subst.
      assert (fst r = fst s) as E1.
      { assert (fst s <= fst r).
        { apply (canonical_head_min s m); auto. apply Heq; auto. exists r; split; simpl; auto; lia. }
        assert (fst r <= fst s).
        { apply (canonical_head_min r l); auto. apply Heq; auto. exists s; split; simpl; auto; lia. }
        lia. }
      assert (G : forall (x y : range) lx, range_ok x -> range_ok y -> fst x = fst y -> fst x <= snd x -> fst y <= snd y ->
                  Forall (apart x) lx -> Forall range_ok lx ->
                  (forall c, scalar c -> fst y <= c <= snd y -> covered c (x :: lx)) -> snd y <= snd x).
      { intros x y lx [X1 X2] [Y1 Y2] E Lx Ly Ax Olx Hc.
        destruct (N.leb_spec (snd y) (snd x)) as [|Hlt]; auto. exfalso.
        assert (scalar (succ_char (snd x))) as Hsc.
        { apply succ_scalar; auto. pose proof (scalar_max _ Y2); lia. }
        pose proof (scalar_gap (snd y) (snd x) Y2 X2).
        assert (snd x < succ_char (snd x)).
        { unfold succ_char. destruct (snd x =? 0xD7FF) eqn:?; lia. }
        destruct (Hc (succ_char (snd x))) as (z & Hz & Hzz); auto; [lia|].
        destruct Hz as [<-|Hz]; [lia|]. rewrite Forall_forall in Ax. specialize (Ax z Hz). unfold apart in Ax. lia. }
      assert (snd r = snd s) as E2.
      { assert (snd s <= snd r).
        { apply (G r s l); auto; try (split; auto; fail).
          intros c Hc1 Hc2. apply Heq; auto. exists s; split; simpl; auto. }
        assert (snd r <= snd s).
        { apply (G s r m); auto; try (split; auto; fail).
          intros c Hc1 Hc2. apply Heq; auto. exists r; split; simpl; auto. }
        lia. }
      f_equal.
      * destruct r, s; simpl in *; congruence.
      * apply IH; auto; try (split; auto; fail).
        intros c Hc. specialize (Heq c Hc). rewrite !covered_cons in Heq.
        assert (forall (x : range) lx, fst x <= snd x -> Forall (apart x) lx -> covered c lx -> ~ (fst x <= c <= snd x)) as D.
        { intros x lx Lx Ax (z & Hz & Hzz) Hx. rewrite Forall_forall in Ax. specialize (Ax z Hz). unfold apart, succ_char in Ax.
          destruct (snd x =? 0xD7FF) eqn:?; lia. }
        pose proof (D r l Lr Ar). pose proof (D s m Ls As). rewrite E1, E2 in *. tauto.
Qed.

Lemma range_eqb_eq r s : range_eqb r s = true <-> r = s.
Proof.
  unfold range_eqb. destruct r, s; simpl. rewrite andb_true_iff, !N.eqb_eq. split; [intros [-> ->]; auto|].
  intros E; inversion E; auto.
Qed.
Lemma ranges_eqb_eq l m : ranges_eqb l m = true <-> l = m.
Proof.
  revert m; induction l as [|x l IH]; destruct m as [|y m]; simpl; try (split; congruence).
  rewrite andb_true_iff, range_eqb_eq, IH. split; [intros [-> ->]; auto|]. intros E; inversion E; auto.
Qed.
(** Equal atoms accept the same characters (no hypothesis on ranges). *)
Lemma atom_eqb_sound a b c : atom_ok a -> atom_ok b -> scalar c ->
  atom_eqb a b = true -> (atom_has a c <-> atom_has b c).
Proof.
  intros Ha Hb Hc E. unfold atom_eqb in E. apply ranges_eqb_eq in E.
  rewrite <- (to_ranges_iff a), <- (to_ranges_iff b), E; tauto.
Qed.

(** ** Canonicity of [to_ranges] when no range is reversed *)
Lemma sort_id {A} (key : A -> N) l : sorted_by key l -> sort_by_key key l = l.
Proof.
  induction 1 as [|x l H IH Hf]; simpl; auto. rewrite IH.
  destruct l as [|y l]; simpl; auto. inversion Hf; subst.
  destruct (key x <=? key y) eqn:E; auto. lia.
Qed.
Lemma succ_pred c : scalar c -> 0 < c -> succ_char (pred_char c) = c.
Proof.
  unfold scalar, scalarb, succ_char, pred_char, char_max. intros.
  destruct (c =? 0xE000) eqn:E; [|destruct (c - 1 =? 0xD7FF) eqn:E2]; try lia.
  apply N.eqb_eq in E; subst. reflexivity.
Qed.
Lemma succ_gt c : c < succ_char c.
Proof. unfold succ_char. destruct (c =? 0xD7FF) eqn:?; lia. Qed.
Lemma succ_mono c d : scalar c -> scalar d -> c <= d -> succ_char c <= succ_char d.
Proof.
  unfold scalar, scalarb, succ_char, char_max. intros.
  destruct (c =? 0xD7FF) eqn:?; destruct (d =? 0xD7FF) eqn:?; lia.
Qed.
Lemma subtract_one_canonical t r : range_ok t -> range_ok r -> fst t <= snd t -> fst r <= snd r ->
  canonical (subtract_one t r) /\
  Forall (fun x => fst r <= fst x /\ snd x <= snd r) (subtract_one t r).
Proof.
  intros [Ha Hb] [Hr1 Hr2] Lt Lr. unfold subtract_one.
  destruct ((snd t <? fst r) || (snd r <? fst t)) eqn:E.
  - repeat constructor; simpl; try lia.
  - pose proof (scalar_gap' (fst r) (fst t) Hr1 Ha).
    pose proof (scalar_gap (snd r) (snd t) Hr2 Hb).
    assert (0 < fst t -> pred_char (fst t) < fst t).
    { intros. unfold pred_char. destruct (fst t =? 0xE000) eqn:?; lia. }
    pose proof (succ_gt (snd t)).
    destruct (fst r <? fst t) eqn:E1; destruct (snd t <? snd r) eqn:E2; simpl;
      split; try split; repeat constructor; simpl; try lia.
    unfold apart; simpl. rewrite succ_pred; auto; lia.
Qed.
Lemma ssorted_app {A} (R : A -> A -> Prop) l m :
  StronglySorted R l -> StronglySorted R m -> (forall x y, In x l -> In y m -> R x y) ->
  StronglySorted R (l ++ m).
Proof.
  induction 1 as [|x l H IH Hf]; simpl; intros Hm Hx; auto.
  constructor; [apply IH; auto|]. apply Forall_app; split; auto.
  apply Forall_forall. intros y Hy. apply Hx; auto.
Qed.
Lemma subtract_canonical t rs : range_ok t -> fst t <= snd t -> Forall range_ok rs -> canonical rs ->
  canonical (subtract rs t).
Proof.
  intros Ht Lt. induction rs as [|r rs IH]; intros Hok [C1 C2]; simpl; [repeat constructor|].
  inversion Hok; subst. inversion C1; subst. inversion C2; subst.
  destruct (subtract_one_canonical t r) as [[A1 A2] A3]; auto.
  destruct IH as [B1 B2]; auto; [split; auto|].
  split; [apply Forall_app; auto|].
  apply ssorted_app; auto. intros x y Hx Hy.
  unfold subtract in Hy. apply in_flat_map in Hy as (z & Hz & Hy).
  rewrite Forall_forall in *.
  destruct (subtract_one_canonical t z) as [_ A4]; auto. rewrite Forall_forall in A4.
  specialize (A3 x Hx). specialize (A4 y Hy). specialize (H6 z Hz). unfold apart in *.
  assert (range_ok x) as [X1 X2].
  { pose proof (subtract_one_ok t r Ht H1) as Q. rewrite Forall_forall in Q. auto. }
  pose proof (succ_mono (snd x) (snd r) X2 (proj2 H1)). lia.
Qed.
Lemma subtract_all_canonical ts : Forall range_ok ts -> Forall (fun t => fst t <= snd t) ts -> forall rs,
  Forall range_ok rs -> canonical rs -> canonical (fold_left subtract ts rs).
Proof.
  induction 1; intros Hf rs Hok Hc; simpl; auto. inversion Hf; subst.
  apply IHForall; auto; [apply subtract_ok|apply subtract_canonical]; auto.
Qed.
Lemma canonical_sorted rs : Forall range_ok rs -> canonical rs -> sorted_by fst rs.
Proof.
  intros Hok [C1 C2]. induction C2; constructor.
  - apply IHC2; [inversion Hok|inversion C1]; auto.
  - rewrite Forall_forall in *. intros x Hx. specialize (H x Hx). unfold apart in H.
    pose proof (C1 a (or_introl eq_refl)). pose proof (succ_gt (snd a)). lia.
Qed.
Lemma term_ranges_fwd t : term_fwd t -> Forall (fun r => fst r <= snd r) (term_ranges t).
Proof.
  destruct t; cbn [term_fwd term_ranges]; intros H.
  - repeat constructor; simpl; lia.
  - repeat constructor; auto.
  - destruct k; repeat constructor; vm_compute; intros; discriminate.
Qed.
Lemma terms_ranges_fwd ts : Forall term_fwd ts -> Forall (fun r => fst r <= snd r) (flat_map term_ranges ts).
Proof. induction 1; simpl; [constructor|]. apply Forall_app; split; auto. apply term_ranges_fwd; auto. Qed.

Lemma to_ranges_canonical a : atom_ok a -> atom_fwd a -> canonical (to_ranges a).
Proof.
  destruct a; cbn [to_ranges atom_ok atom_fwd]; intros Ha Hf.
  - repeat constructor; simpl; lia.
  - repeat constructor; simpl; vm_compute; discriminate.
  - unfold combine_ranges. apply terms_ranges_ok in Ha. apply terms_ranges_fwd in Hf.
    pose proof (sort_sorted fst (flat_map term_ranges ts)) as Hs.
    apply (Forall_perm _ _ _ (sort_perm fst _)) in Ha.
    apply (Forall_perm _ _ _ (sort_perm fst _)) in Hf.
    destruct sort_by_key; [repeat constructor|]. inversion Ha; subst. inversion Hf; subst. inversion Hs; subst.
    apply combine_loop_canonical; auto; apply H1.
  - apply terms_ranges_ok in Ha. apply terms_ranges_fwd in Hf.
    assert (canonical (fold_left subtract (flat_map term_ranges ts) [(0, char_max)])) as C.
    { apply subtract_all_canonical; auto; repeat constructor; simpl; try apply full_ok. vm_compute; discriminate. }
    rewrite sort_id; auto. apply canonical_sorted; auto.
    apply subtract_all_ok; auto. repeat constructor; apply full_ok.
Qed.
(** Equality of atoms without reversed ranges is semantic. *)
Lemma atom_eqb_iff a b : atom_ok a -> atom_ok b -> atom_fwd a -> atom_fwd b ->
  atom_eqb a b = true <-> (forall c, scalar c -> atom_has a c <-> atom_has b c).
Proof.
  intros Ha Hb Fa Fb. split.
  - intros E c Hc. apply atom_eqb_sound; auto.
  - intros H. unfold atom_eqb. apply ranges_eqb_eq. apply canonical_ext.
    + apply to_ranges_canonical; auto.
    + apply to_ranges_canonical; auto.
    + apply to_ranges_ok; auto.
    + apply to_ranges_ok; auto.
    + intros c Hc. rewrite !to_ranges_iff; auto.
Qed.
