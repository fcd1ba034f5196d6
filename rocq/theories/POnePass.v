(** The one-pass analysis finds the summaries of all zero-width paths, and both forms of the engine
    follow the only possible run. *)
From Verif Require Export PFlat PByte OnePass.
From Coq Require Import ZifyBool ZifyNat Permutation.
Open Scope nat_scope.
Open Scope list_scope.
Set Default Proof Using "Type".

(** ** Bounded iteration *)
Section Iter.
  Context {S R : Type}.
  Variable step : S -> S + R.
  Definition once (x : S + R) : S + R := match x with inl s => step s | inr _ => x end.
  Fixpoint iter (k : nat) (x : S + R) : S + R := match k with O => x | Datatypes.S k => once (iter k x) end.
  Lemma iter_inr k r : iter k (inr r) = inr r.
  Proof. induction k as [|k IH]; cbn; [reflexivity|]. now rewrite IH. Qed.
  Lemma iter_add a b x : iter (a + b) x = iter a (iter b x).
  Proof. induction a as [|a IH]; cbn; [reflexivity|]. now rewrite IH. Qed.
  Lemma pow_iter_iter k : forall x, pow_iter k step x = iter (2 ^ k) x.
  Proof.
    induction k as [|k IH]; intros x; cbn [pow_iter].
    - destruct x; reflexivity.
    - destruct x as [s|r]; [|now rewrite iter_inr]. rewrite !IH, <- iter_add. f_equal. cbn. lia.
  Qed.
  (** A loop with a decreasing measure finishes, and keeps invariants. *)
  Variable mu : S -> nat.
  Variable I : S -> Prop.
  Hypothesis Hdec : forall s s', I s -> step s = inl s' -> mu s' < mu s /\ I s'.
  Lemma iter_finish k : forall s, I s -> mu s < k -> exists s' r, I s' /\ step s' = inr r /\ iter k (inl s) = inr r.
  Proof using Hdec.
    induction k as [|k IH]; intros s Hi Hk; [lia|]. rewrite <- Nat.add_1_r, iter_add. cbn [iter once].
    destruct (step s) as [s'|r] eqn:E.
    - destruct (Hdec _ _ Hi E) as [H1 H2]. apply IH; [assumption|lia].
    - exists s, r. split; [assumption|]. split; [assumption|]. apply iter_inr.
  Qed.
  Lemma pow_iter_finish k s : I s -> mu s < 2 ^ k -> exists s' r, I s' /\ step s' = inr r /\ pow_iter k step (inl s) = inr r.
  Proof using Hdec. intros Hi Hk. rewrite pow_iter_iter. now apply iter_finish. Qed.
End Iter.

(** ** Summaries of zero-width words *)
Definition caps_of (g : nat) (w : word) : list (bool * bool) := map (fun k => (has (ESC k) w, has (EEC k) w)) (seq 0 g).
Definition tu_of (g t : nat) (w : word) : tupd := mkTu t (caps_of g w) (has EStart w) (has EEnd w).
Lemma modify_map_seq {A} (f : nat -> A) (h : A -> A) k : forall s g, modify k h (map f (seq s g)) = map (fun i => if i =? s + k then h (f i) else f i) (seq s g).
Proof.
  induction k as [|k IH]; intros s [|g]; cbn [seq map modify]; try reflexivity.
  - rewrite Nat.add_0_r, Nat.eqb_refl. f_equal. apply map_ext_in. intros i Hi. apply in_seq in Hi. destruct (Nat.eqb_spec i s); [lia|reflexivity].
  - rewrite IH. destruct (Nat.eqb_spec s (s + S k)); [lia|]. f_equal. apply map_ext. intros i. replace (S s + k) with (s + S k) by lia. reflexivity.
Qed.
Lemma tu_step_of g t w u e : tu_step (tu_of g t w) (u, e) = tu_of g u (w ++ mark e).
Proof.
  unfold tu_of, caps_of. destruct e; cbn [tu_step fst snd mark tu_caps tu_start tu_end];
    f_equal; rewrite ?app_nil_r, ?has_app; cbn; rewrite ?orb_false_r, ?orb_true_r; try reflexivity.
  - apply map_ext. intros k. rewrite !has_app. cbn. now rewrite !orb_false_r.
  - apply map_ext. intros k. rewrite !has_app. cbn. now rewrite !orb_false_r.
  - rewrite modify_map_seq. apply map_ext. intros i. rewrite !has_app. cbn. destruct (Nat.eqb_spec i k); cbn.
    + subst. rewrite Nat.eqb_refl. cbn. now rewrite orb_true_r, orb_false_r.
    + destruct (Nat.eqb_spec k i); [congruence|]. cbn. now rewrite !orb_false_r.
  - rewrite modify_map_seq. apply map_ext. intros i. rewrite !has_app. cbn. destruct (Nat.eqb_spec i k); cbn.
    + subst. rewrite Nat.eqb_refl. cbn. now rewrite orb_true_r, orb_false_r.
    + destruct (Nat.eqb_spec k i); [congruence|]. cbn. now rewrite !orb_false_r.
Qed.
Lemma tu_new_of g s : tu_new s g = tu_of g s [].
Proof.
  unfold tu_new, tu_of, caps_of. f_equal. generalize 0. induction g as [|g IH]; intros s0; cbn; [reflexivity|]. f_equal. apply IH.
Qed.
Lemma bb_eqb_iff a b : bb_eqb a b = true <-> a = b.
Proof. unfold bb_eqb. rewrite andb_true_iff, !Bool.eqb_true_iff. destruct a, b; cbn. split; [intros [-> ->]; reflexivity|intros [= -> ->]; auto]. Qed.
Lemma tupd_eqb_iff a b : tupd_eqb a b = true <-> a = b.
Proof.
  unfold tupd_eqb. rewrite !andb_true_iff, Nat.eqb_eq, (list_eqb_eq bb_eqb bb_eqb_iff), !Bool.eqb_true_iff.
  destruct a, b; cbn. split; [intros [[[-> ->] ->] ->]; reflexivity|intros [= -> -> -> ->]; auto].
Qed.
Lemma strans_eqb_iff a b : strans_eqb a b = true <-> a = b.
Proof.
  unfold strans_eqb. rewrite andb_true_iff, range_eqb_eq, tupd_eqb_iff. destruct a, b; cbn. split; [intros [-> ->]; reflexivity|intros [= -> ->]; auto].
Qed.

(** Applying the tags of a summary. *)
Lemma apply_tags_swap i ts us : forall b, apply_tags i ts (apply_tags i us b) = apply_tags i us (apply_tags i ts b).
Proof.
  induction ts as [|t ts IH]; intros b; [reflexivity|].
  change (apply_tags i ts (apply_tag i (apply_tags i us b) t) = apply_tags i us (apply_tags i ts (apply_tag i b t))).
  rewrite <- IH. f_equal. exact (apply_tags_tag i us t b).
Qed.
Lemma apply_tags_incl i ts us : incl ts us -> forall b, apply_tags i us (apply_tags i ts b) = apply_tags i us b.
Proof.
  induction ts as [|t ts IH]; intros Hi b; [reflexivity|].
  change (apply_tags i us (apply_tags i ts (apply_tag i b t)) = apply_tags i us b). rewrite IH by (intros x Hx; apply Hi; now right).
  apply apply_tags_In. apply Hi. now left.
Qed.
Lemma apply_tags_ext i ts us b : (forall t, In t ts <-> In t us) -> apply_tags i ts b = apply_tags i us b.
Proof.
  intros H. rewrite <- (apply_tags_incl i us ts) by (intros x; apply H). rewrite apply_tags_swap. apply apply_tags_incl. intros x; apply H.
Qed.
Lemma tu_tags_In g t w x : In x (tu_tags (tu_of g t w)) <-> tag_group x < g /\ In x (tags_of w).
Proof.
  assert (E : In x (tags_of w) <-> match x with TagS k => has (ESC k) w = true | TagE k => has (EEC k) w = true end).
  { unfold tags_of. rewrite tags_of_In. destruct x as [k|k]; rewrite has_iff; split.
    - intros [[]|([c|e] & Hi & Ht)]; [destruct Ht|]. destruct e; cbn in Ht; try tauto; destruct Ht as [E|[]]; try discriminate. injection E as ->. exact Hi.
    - intros H. right. exists (IM (ESC k)). split; [exact H|now left].
    - intros [[]|([c|e] & Hi & Ht)]; [destruct Ht|]. destruct e; cbn in Ht; try tauto; destruct Ht as [E|[]]; try discriminate. injection E as ->. exact Hi.
    - intros H. right. exists (IM (EEC k)). split; [exact H|now left]. }
  rewrite E. clear E. unfold tu_tags. cbn [tu_caps tu_of]. unfold caps_of. rewrite in_flat_map. split.
  - intros ([i p] & Hp & Hx). apply In_enumerate in Hp. assert (Hl : i < g) by (assert (X : i < length (map (fun k => (has (ESC k) w, has (EEC k) w)) (seq 0 g))) by (apply nth_error_Some; congruence); now rewrite map_length, seq_length in X).
    rewrite (map_nth_error _ i (seq 0 g) (d := i)) in Hp by (rewrite (nth_error_nth' _ 0) by (now rewrite seq_length); now rewrite seq_nth).
    injection Hp as <-. cbn [fst snd] in Hx. apply in_app_or in Hx as [Hx|Hx].
    + destruct (has (ESC i) w) eqn:Eh; [|destruct Hx]. destruct Hx as [<-|[]]. cbn. auto.
    + destruct (has (EEC i) w) eqn:Eh; [|destruct Hx]. destruct Hx as [<-|[]]. cbn. auto.
  - intros [Hg Hx]. exists (tag_group x, (has (ESC (tag_group x)) w, has (EEC (tag_group x)) w)). split.
    + apply In_enumerate. rewrite (map_nth_error _ (tag_group x) (seq 0 g) (d := tag_group x)); [reflexivity|].
      rewrite (nth_error_nth' _ 0) by (now rewrite seq_length). now rewrite seq_nth.
    + cbn [fst snd]. destruct x; cbn [tag_group] in *; rewrite Hx; apply in_or_app; [left|right]; now left.
Qed.
Lemma apply_tu_of g t w i b : (forall k, In (IM (ESC k)) w \/ In (IM (EEC k)) w -> k < g) -> chars w = [] ->
  apply_tu i (tu_of g t w) b = run_marks (fun _ => 1) i w b.
Proof.
  intros Hg Hc. unfold apply_tu. rewrite <- (apply_tags_of (fun _ => 1) w i b Hc). apply apply_tags_ext. intros x. rewrite tu_tags_In. split; [tauto|].
  intros H. split; [|assumption]. unfold tags_of in H. apply tags_of_In in H as [[]|([c|e] & Hi & Ht)]; [destruct Ht|].
  destruct e; cbn in Ht; try tauto; destruct Ht as [<-|[]]; cbn; apply Hg; auto.
Qed.

(** ** Exploring from one state *)
Section Explore.
  Variable n : nfa range.
  Hypothesis Hwf : wf n.
  Variable g : nat.
  Variable s0 : nat.
  Hypothesis Hs0 : s0 < length n.

  (** All conceivable threads. *)
  Definition bools := [false; true].
  Definition pairs := list_prod bools bools.
  Fixpoint all_caps (k : nat) : list (list (bool * bool)) :=
    match k with O => [[]] | S k => flat_map (fun p => map (cons p) (all_caps k)) pairs end.
  Lemma all_caps_length k : length (all_caps k) = 4 ^ k.
  Proof.
    induction k as [|k IH]; [reflexivity|]. cbn [all_caps]. unfold pairs, bools. cbn [list_prod map app flat_map]. rewrite !app_length, !map_length, IH. clear. cbn. lia.
  Qed.
  Lemma all_caps_In l : In l (all_caps (length l)).
  Proof.
    induction l as [|[a b] l IH]; [now left|]. cbn [all_caps length]. apply in_flat_map. exists (a, b). split.
    - destruct a, b; cbn; auto.
    - now apply in_map.
  Qed.
  Definition all_tu : list tupd :=
    flat_map (fun s => flat_map (fun c => map (fun p : bool * bool => mkTu s c (fst p) (snd p)) pairs) (all_caps g)) (seq 0 (length n)).
  Lemma flat_map_const {X Y} (f : X -> list Y) c l : (forall x, length (f x) = c) -> length (flat_map f l) = length l * c.
  Proof. intros H. induction l as [|x l IH]; cbn; [reflexivity|]. now rewrite app_length, H, IH. Qed.
  Lemma all_tu_length : length all_tu = length n * (4 ^ g * 4).
  Proof.
    unfold all_tu. rewrite (flat_map_const _ (4 ^ g * 4)); [now rewrite seq_length|]. intros s.
    rewrite (flat_map_const _ 4); [now rewrite all_caps_length|]. reflexivity.
  Qed.
  Lemma all_tu_bound : length all_tu < 2 ^ (length n + 2 * g + 4).
  Proof.
    rewrite all_tu_length, !Nat.pow_add_r, Nat.pow_mul_r. change (2 ^ 2) with 4. change (2 ^ 4) with 16.
    assert (H := Nat.pow_gt_lin_r 2 (length n) ltac:(apply le_n)). assert (H1 : 4 ^ g <> 0) by (apply Nat.pow_nonzero; discriminate). clear - H H1. nia.
  Qed.
  Definition reached_tu (tu : tupd) : Prop := exists t w, zpath n s0 w t /\ tu = tu_of g t w.
  Lemma zpath_lt w t : zpath n s0 w t -> t < length n.
  Proof using Hwf Hs0. induction 1; [assumption|]. eapply wf_eps; eauto. Qed.
  Lemma reached_all tu : reached_tu tu -> In tu all_tu.
  Proof using Hwf Hs0.
    intros (t & w & Hz & ->). apply zpath_lt in Hz. unfold all_tu. apply in_flat_map. exists t. split; [apply in_seq; lia|].
    apply in_flat_map. exists (caps_of g w). split.
    - assert (E : length (caps_of g w) = g) by (unfold caps_of; now rewrite map_length, seq_length). rewrite <- E at 2. apply all_caps_In.
    - apply in_map_iff. exists (has EStart w, has EEnd w). split; [reflexivity|]. destruct (has EStart w), (has EEnd w); cbn; auto.
  Qed.

  Definition tu_nexts (tu : tupd) : list tupd := map (tu_step tu) (eps (get n (tu_state tu))).
  Definition tu_syms (tu : tupd) : list strans :=
    map (fun t => (snd t, mkTu (fst t) (tu_caps tu) (tu_start tu) (tu_end tu))) (trans (get n (tu_state tu))).
  Lemma nexts_reached tu x : reached_tu tu -> In x (tu_nexts tu) -> reached_tu x.
  Proof.
    intros (t & w & Hz & ->) Hx. unfold tu_nexts in Hx. apply in_map_iff in Hx as ([u e] & <- & He). cbn in He. rewrite tu_step_of.
    exists u, (w ++ mark e). split; [econstructor; eauto|reflexivity].
  Qed.
  (** Everything reached is on the stack or processed; processed threads have their successors reached. *)
  Definition inv (st : op_loop_state) : Prop :=
    let '(stack, reached, syms, accs) := st in
    NoDup reached /\ (forall x, In x reached -> reached_tu x) /\ incl stack reached /\
    In (tu_of g s0 []) reached /\ length stack <= length reached /\
    (forall x, In x reached -> In x stack \/ (incl (tu_nexts x) reached /\ incl (tu_syms x) syms /\ (tu_state x + 1 = length n -> In x accs))) /\
    (forall y, In y syms -> exists x, In x reached /\ In y (tu_syms x)) /\
    (forall x, In x accs -> In x reached /\ tu_state x + 1 = length n).
  Definition op_mu (st : op_loop_state) : nat := let '(stack, reached, _, _) := st in length all_tu - length reached + length stack.
  Lemma op_push_fold l : forall stack reached, NoDup reached -> incl stack reached ->
    exists new, fold_left op_push l (stack, reached) = (rev new ++ stack, reached ++ new) /\ NoDup (reached ++ new) /\
      incl new l /\ incl l (reached ++ new).
  Proof.
    induction l as [|x l IH]; intros stack reached Hn Hi; cbn [fold_left].
    - exists []. rewrite app_nil_r. split; [reflexivity|]. split; [assumption|]. split; [apply incl_refl|intros y []].
    - unfold op_push at 2. destruct (existsb (tupd_eqb x) reached) eqn:E.
      + apply (existsb_eqb_iff _ _ _ tupd_eqb_iff) in E. destruct (IH stack reached Hn Hi) as (new & -> & H1 & H2 & H3). exists new.
        split; [reflexivity|]. split; [assumption|]. split; [intros y Hy; right; auto|]. intros y [<-|Hy]; [apply in_or_app; now left|auto].
      + apply (existsb_eqb_false _ _ _ tupd_eqb_iff) in E. destruct (IH (x :: stack) (reached ++ [x])) as (new & -> & H1 & H2 & H3).
        * rewrite <- (rev_involutive (reached ++ [x])), rev_app_distr. apply NoDup_rev. cbn. constructor; [now rewrite <- in_rev|now apply NoDup_rev].
        * intros y [<-|Hy]; apply in_or_app; [right; now left|left; auto].
        * exists (x :: new). rewrite <- !app_assoc in *. cbn [rev app] in *. rewrite <- app_assoc. cbn [app] in *. split; [reflexivity|]. split; [assumption|].
          split; [intros y [<-|Hy]; [now left|right; auto]|]. intros y [<-|Hy]; [apply in_or_app; right; now left|auto].
  Qed.
  Lemma op_add_fold l : forall acc, (forall y, In y (fold_left op_add_trans l acc) <-> In y acc \/ In y l).
  Proof.
    induction l as [|x l IH]; intros acc y; cbn [fold_left]; [cbn; tauto|]. rewrite IH. unfold op_add_trans.
    destruct (existsb (strans_eqb x) acc) eqn:E.
    - apply (existsb_eqb_iff _ _ _ strans_eqb_iff) in E. cbn. split; [tauto|]. intros [H|[<-|H]]; auto.
    - rewrite in_app_iff. cbn. tauto.
  Qed.
  Lemma op_inv_step st st' : inv st -> op_step n st = inl st' -> op_mu st' < op_mu st /\ inv st'.
  Proof using Hwf Hs0.
    destruct st as [[[stack reached] syms] accs]. intros (I1 & I2 & I3 & I4 & I5 & I6 & I7 & I8) E. unfold op_step in E.
    destruct stack as [|th stack]; [discriminate|]. assert (Hth := I3 th (or_introl eq_refl)).
    change (map (tu_step th) (eps (get n (tu_state th)))) with (tu_nexts th) in E.
    change (map (fun t : nat * range => (snd t, mkTu (fst t) (tu_caps th) (tu_start th) (tu_end th))) (trans (get n (tu_state th)))) with (tu_syms th) in E.
    destruct (op_push_fold (tu_nexts th) stack reached I1) as (new & En & N1 & N2 & N3); [intros y Hy; apply I3; now right|].
    rewrite En in E. injection E as <-.
    assert (R : forall x, In x (reached ++ new) -> reached_tu x).
    { intros x Hx. apply in_app_or in Hx as [Hx|Hx]; [auto|]. apply (nexts_reached th); auto. }
    assert (L : length (reached ++ new) <= length all_tu) by (apply NoDup_incl_length; [assumption|]; intros x Hx; now apply reached_all, R).
    split.
    - unfold op_mu. rewrite !app_length, rev_length in *. cbn [length]. lia.
    - split; [assumption|]. split; [assumption|]. split.
      { intros y Hy. apply in_app_or in Hy as [Hy|Hy]; apply in_or_app; [right; now apply in_rev|left; apply I3; now right]. }
      split; [apply in_or_app; now left|]. split; [rewrite !app_length, rev_length; cbn in I5; lia|]. split; [|split].
      + intros x Hx. assert (D : In x stack \/ x = th \/ (In x reached /\ ~ In x (th :: stack)) \/ In x new).
        { apply in_app_or in Hx as [Hx|Hx]; [|auto]. destruct (existsb (tupd_eqb x) (th :: stack)) eqn:Ex.
          - apply (existsb_eqb_iff _ _ _ tupd_eqb_iff) in Ex. destruct Ex as [<-|]; auto.
          - apply (existsb_eqb_false _ _ _ tupd_eqb_iff) in Ex. auto. }
        destruct D as [D|[->|[[D1 D2]|D]]].
        * left. apply in_or_app. now right.
        * right. split; [assumption|]. split; [intros y Hy; apply op_add_fold; now right|]. intros Ex. rewrite (proj2 (Nat.eqb_eq _ _) Ex). apply in_or_app. right. now left.
        * right. destruct (I6 x D1) as [?|(A1 & A2 & A3)]; [contradiction|]. split; [intros y Hy; apply in_or_app; left; auto|].
          split; [intros y Hy; apply op_add_fold; left; auto|]. intros Ex. destruct (_ =? _); [apply in_or_app; left|]; auto.
        * left. apply in_or_app. left. now apply -> in_rev.
      + intros y Hy. apply op_add_fold in Hy as [Hy|Hy].
        * destruct (I7 y Hy) as (x & Hx & Hxy). exists x. split; [apply in_or_app; now left|assumption].
        * exists th. split; [apply in_or_app; now left|assumption].
      + intros x Hx. destruct (Nat.eqb_spec (tu_state th + 1) (length n)) as [Ex|Ex].
        * apply in_app_or in Hx as [Hx|[<-|[]]]; [destruct (I8 x Hx); split; [apply in_or_app; now left|assumption]|]. split; [apply in_or_app; now left|assumption].
        * destruct (I8 x Hx). split; [apply in_or_app; now left|assumption].
  Qed.
  Lemma op_explore_spec : exists syms accs, op_explore n g s0 = Ok (syms, accs) /\
    (forall r tu, In (r, tu) syms <-> exists w q t, zpath n s0 w q /\ In (t, r) (trans (get n q)) /\ tu = tu_of g t w) /\
    (forall tu, In tu accs <-> exists w, zpath n s0 w (length n - 1) /\ tu = tu_of g (length n - 1) w).
  Proof using Hwf Hs0.
    unfold op_explore. rewrite tu_new_of.
    destruct (pow_iter_finish (op_step n) op_mu inv op_inv_step (length n + 2 * g + 4) ([tu_of g s0 []], [tu_of g s0 []], [], [])) as (st & [syms accs] & HI & Hst & Epow).
    - cbn [inv]. split; [repeat constructor; intros []|]. split; [intros x [<-|[]]; exists s0, []; split; [constructor|reflexivity]|].
      split; [apply incl_refl|]. split; [now left|]. split; [apply le_n|]. split; [auto|]. split; intros x [].
    - cbn [op_mu length]. assert (H := all_tu_bound). assert (length all_tu <> 0); [|lia].
      intros E. apply length_zero_iff_nil in E. assert (In (tu_of g s0 []) all_tu) by (apply reached_all; exists s0, []; split; [constructor|reflexivity]).
      rewrite E in H0. destruct H0.
    - exists syms, accs. split; [set (x := pow_iter _ _ _); assert (Ex : x = inr (syms, accs)) by exact Epow; now rewrite Ex|]. clear Epow. destruct st as [[[stack reached] syms'] accs']. unfold op_step in Hst.
      destruct stack as [|th stack]; [|destruct (fold_left op_push _ _); discriminate]. injection Hst as -> ->.
      destruct HI as (I1 & I2 & I3 & I4 & I5 & I6 & I7 & I8).
      assert (C : forall w t, zpath n s0 w t -> In (tu_of g t w) reached).
      { induction 1 as [|w t e u Hz IH He]; [assumption|]. destruct (I6 _ IH) as [[]|(A & _)]. apply A. unfold tu_nexts. apply in_map_iff.
        exists (u, e). split; [apply tu_step_of|exact He]. }
      split.
      + intros r tu. split.
        * intros Hy. destruct (I7 _ Hy) as (x & Hx & Hxy). destruct (I2 _ Hx) as (q & w & Hz & ->). unfold tu_syms in Hxy.
          apply in_map_iff in Hxy as ([t r'] & E & Ht). cbn in E, Ht. injection E as <- <-. exists w, q, t. auto.
        * intros (w & q & t & Hz & Ht & ->). destruct (I6 _ (C _ _ Hz)) as [[]|(_ & A & _)]. apply A. unfold tu_syms. apply in_map_iff. exists (t, r). auto.
      + intros tu. split.
        * intros Hx. destruct (I8 _ Hx) as [H1 H2]. destruct (I2 _ H1) as (t & w & Hz & ->). cbn in H2. exists w. replace (length n - 1) with t by lia. auto.
        * intros (w & Hz & ->). destruct (I6 _ (C _ _ Hz)) as [[]|(_ & _ & A)]. apply A. cbn. lia.
  Qed.
End Explore.

(** ** The tables *)
Lemma op_sort_In l x : In x (op_sort l) <-> In x l.
Proof. split; apply Permutation_in; [apply Permutation_sym|]; apply sort_perm. Qed.
Lemma op_disjoint_unique l : Forall (fun x : strans => (fst (fst x) <= snd (fst x))%N) l -> op_disjoint l = true ->
  forall x y c, In x l -> In y l -> in_range c (fst x) = true -> in_range c (fst y) = true -> x = y.
Proof.
  assert (G : forall l a, Forall (fun x : strans => (fst (fst x) <= snd (fst x))%N) (a :: l) -> op_disjoint (a :: l) = true ->
    op_disjoint l = true /\ forall y, In y l -> (snd (fst a) < fst (fst y))%N).
  { induction l0 as [|b l0 IH]; intros a Hf Hd; [split; [reflexivity|intros y []]|].
    change ((snd (fst a) <? fst (fst b))%N && op_disjoint (b :: l0) = true) in Hd. apply andb_true_iff in Hd as [H1 H2].
    apply N.ltb_lt in H1. inversion Hf as [|? ? Ha Hf']; subst. split; [assumption|]. intros y [<-|Hy]; [assumption|].
    destruct (IH b Hf' H2) as [_ H3]. inversion Hf' as [|? ? Hb _]; subst. apply N.lt_trans with (snd (fst b)); [|auto]. apply N.lt_le_trans with (fst (fst b)); assumption. }
  induction l as [|a l IH]; intros Hf Hd x y c Hx Hy Rx Ry; [destruct Hx|]. destruct (G l a Hf Hd) as [Hd' Hlt].
  apply in_range_iff in Rx, Ry. destruct Hx as [<-|Hx], Hy as [<-|Hy].
  - reflexivity.
  - exfalso. apply Hlt in Hy. destruct Rx, Ry. apply (N.lt_irrefl c). apply N.le_lt_trans with (snd (fst a)); [assumption|]. now apply N.lt_le_trans with (fst (fst y)).
  - exfalso. apply Hlt in Hx. destruct Rx, Ry. apply (N.lt_irrefl c). apply N.le_lt_trans with (snd (fst a)); [assumption|]. now apply N.lt_le_trans with (fst (fst x)).
  - inversion Hf; subst. apply (IH H2 Hd' x y c); auto; now apply in_range_iff.
Qed.

Section Tables.
  Variable n : nfa range.
  Hypothesis Hwf : wf n.
  Hypothesis Hbytes : forall s t r, In (t, r) (trans (get n s)) -> byte_ok r.
  Hypothesis Hgr : groups_ok n.
  Notation g := (num_capture_groups n).
  (** What the tables say about the automaton. *)
  Record tables (tab : op_tables) : Prop := {
    t_syms_len : length (op_syms tab) = length n;
    t_accs_len : length (op_accs tab) = length n;
    t_syms : forall s r tu, s < length n -> In (r, tu) (nth s (op_syms tab) []) <-> exists w q t, zpath n s w q /\ In (t, r) (trans (get n q)) /\ tu = tu_of g t w;
    t_accs : forall s tu, s < length n -> In tu (nth s (op_accs tab) []) <-> exists w, zpath n s w (length n - 1) /\ tu = tu_of g (length n - 1) w;
    t_unique : forall s x y c, In x (nth s (op_syms tab) []) -> In y (nth s (op_syms tab) []) -> in_range c (fst x) = true -> in_range c (fst y) = true -> x = y }.
  Lemma op_analyse_spec : exists o, op_analyse n = Ok o /\ match o with Some tab => tables tab | None => True end.
  Proof using Hwf Hbytes.
    unfold op_analyse.
    destruct (mapM_spec (op_explore n g) (fun s p =>
      (forall r tu, In (r, tu) (fst p) <-> exists w q t, zpath n s w q /\ In (t, r) (trans (get n q)) /\ tu = tu_of g t w) /\
      (forall tu, In tu (snd p) <-> exists w, zpath n s w (length n - 1) /\ tu = tu_of g (length n - 1) w)) (seq 0 (length n))) as (rs & -> & HR).
    { intros s Hs. apply in_seq in Hs. destruct (op_explore_spec n Hwf g s ltac:(lia)) as (syms & accs & E & H1 & H2). exists (syms, accs). auto. }
    cbn [bind]. assert (El : length rs = length n) by (apply Forall2_length in HR; rewrite seq_length in HR; congruence).
    destruct (forallb op_disjoint _) eqn:Ed; [|exists None; auto].
    eexists. split; [reflexivity|]. cbn beta iota.
    assert (HN : forall s, s < length n -> _) by (intros s Hs; exact (Forall2_nth _ _ _ s 0 ([], []) HR ltac:(now rewrite seq_length))).
    assert (HS : forall s, s < length n -> nth s (map (fun r : list strans * list tupd => op_sort (fst r)) rs) [] = op_sort (fst (nth s rs ([], [])))).
    { intros s Hs. now rewrite (nth_indep _ [] (op_sort (fst (@nil strans, @nil tupd)))), (map_nth (fun r : list strans * list tupd => op_sort (fst r))) by (rewrite map_length; lia). }
    assert (HA : forall s, s < length n -> nth s (map snd rs) [] = snd (nth s rs ([], []))).
    { intros s Hs. now rewrite (nth_indep _ [] (@snd (list strans) (list tupd) ([], []))), (map_nth snd) by (rewrite map_length; lia). }
    assert (HSy : forall s r tu, s < length n -> In (r, tu) (nth s (map (fun r : list strans * list tupd => op_sort (fst r)) rs) []) <-> exists w q t, zpath n s w q /\ In (t, r) (trans (get n q)) /\ tu = tu_of g t w).
    { intros s r tu Hs. rewrite HS, op_sort_In by assumption. specialize (HN s Hs). rewrite seq_nth in HN by assumption. apply HN. }
    constructor; cbn [op_syms op_accs].
    - now rewrite map_length.
    - now rewrite map_length.
    - exact HSy.
    - intros s tu Hs. rewrite HA by assumption. specialize (HN s Hs). rewrite seq_nth in HN by assumption. apply HN.
    - intros s. destruct (Nat.lt_ge_cases s (length n)) as [Hs|Hs]; [|intros x y c Hx; rewrite nth_overflow in Hx by (rewrite map_length; lia); destruct Hx].
      apply op_disjoint_unique.
      + apply Forall_forall. intros [r tu] Hx. apply HSy in Hx as (w & q & t & _ & Ht & _); [|assumption]. apply (Hbytes _ _ _ Ht).
      + rewrite forallb_forall in Ed. apply Ed. apply nth_In. rewrite map_length. lia.
  Qed.
  Hypothesis Hlen : 1 <= length n.
  Lemma op_excluded_spec s : entered n s -> s < length n -> nth s (op_excluded n) true = false.
  Proof using Hlen.
    intros He Hs. unfold op_excluded. set (F := fun out (st : state range) => _).
    assert (HF : forall l p s, nth s l true = false -> nth s (F l p) true = false).
    { intros l st x H. unfold F. revert l H. induction (trans st) as [|t ts IH]; intros l H; cbn; [assumption|]. apply IH. now apply nth_upd_false. }
    assert (HFl : forall l p, length (F l p) = length l).
    { intros l st. unfold F. apply fold_length. intros l' t. now rewrite !upd_length. }
    assert (HFF : forall ps l s, nth s l true = false -> nth s (fold_left F ps l) true = false).
    { induction ps as [|p ps IH]; intros l x H; cbn; auto. }
    destruct He as [->|(q & a & Ha)].
    - apply HFF. rewrite nth_upd, repeat_length. destruct (Nat.ltb_spec 0 (length n)); [reflexivity|lia].
    - assert (Hi : In (get n q) n) by (apply get_In; eapply trans_range; eauto).
      set (l0 := upd 0 _ _). assert (El : length l0 = length n) by (unfold l0; now rewrite !upd_length, repeat_length).
      clearbody l0. assert (G : forall ps l0, In (get n q) ps -> length l0 = length n -> nth s (fold_left F ps l0) true = false); [|now apply G].
      clear l0 El Hi. induction ps as [|p ps IH]; intros l0 Hi El; [destruct Hi|]. cbn [fold_left].
      destruct Hi as [->|Hi]; [|apply IH; [assumption|now rewrite HFl]].
      apply HFF. unfold F. clear - Ha El Hs. revert l0 El. induction (trans (get n q)) as [|t ts IH]; intros l El; [destruct Ha|]. cbn [fold_left].
      destruct Ha as [->|Ha]; [|apply IH; [assumption|now rewrite upd_length]].
      assert (G : forall ts l, nth s l true = false -> nth s (fold_left (fun out (t : nat * range) => upd (fst t) false out) ts l) true = false).
      { clear. induction ts as [|t ts IH]; intros l H; cbn; [assumption|]. apply IH. now apply nth_upd_false. }
      apply G. cbn [fst]. rewrite nth_upd, Nat.eqb_refl. destruct (Nat.ltb_spec s (length l)); [reflexivity|lia].
  Qed.
  Lemma zpath_groups s w t k : zpath n s w t -> In (IM (ESC k)) w \/ In (IM (EEC k)) w -> k < g.
  Proof using Hgr.
    intros Hz [H|H]; destruct (zpath_items n _ _ _ Hz _ H) as (q & u & Hq); apply (Hgr q u); auto.
  Qed.
End Tables.

Lemma filter_concat_two {X} (f : X -> bool) (l : list (list X)) i j : i <> j ->
  length (filter f (nth i l [])) + length (filter f (nth j l [])) <= length (filter f (concat l)).
Proof.
  assert (G1 : forall (l : list (list X)) i, length (filter f (nth i l [])) <= length (filter f (concat l))).
  { induction l0 as [|x l0 IH]; intros [|k]; cbn; try lia; rewrite filter_app, app_length; [lia|]. specialize (IH k). lia. }
  revert i j. induction l as [|x l IH]; intros [|i] [|j] Hij; cbn; try lia; rewrite filter_app, app_length.
  - specialize (G1 l j). lia.
  - specialize (G1 l i). lia.
  - specialize (IH i j). lia.
Qed.
Lemma filter_pos {X} (f : X -> bool) l x : In x l -> f x = true -> 1 <= length (filter f l).
Proof. intros H E. assert (Hf : In x (filter f l)) by (now apply filter_In). destruct (filter f l); [destruct Hf|cbn; lia]. Qed.
(** ** One step of a run *)
Section Run.
  Variable n : nfa range.
  Hypothesis Hok : ok n.
  Hypothesis Hlen : 1 <= length n.
  Hypothesis Hgr : groups_ok n.
  Notation g := (num_capture_groups n).
  Variable tab : op_tables.
  Hypothesis Htab : tables n tab.
  Variable T : list N.
  Notation rests := (rest T byte_check n).
  Notation marks1 := (run_marks (fun _ => 1)).

  Lemma in_range_check a c : byte_check a c = in_range c a.
  Proof. reflexivity. Qed.
  (** A symbol row gives runs... *)
  Lemma row_rest s j r tu c w : s < length n -> In (r, tu) (nth s (op_syms tab) []) -> nth_error T j = Some c -> in_range c r = true ->
    tu_end tu = false -> (tu_start tu = true -> j = 0) -> rests (S j) (tu_state tu) w ->
    exists u, rests j s (u ++ IC c :: w) /\ chars u = [] /\ forall b, apply_tu j tu b = marks1 j u b.
  Proof using Hok Hlen Hgr Htab.
    intros Hs Hin Hc Hr He Hst [Hp Hrd]. apply (t_syms _ _ Htab) in Hin as (u & q & t & Hz & Ht & ->); [|assumption].
    exists u. assert (Hu := zpath_chars _ _ _ _ Hz). assert (Hj : j <= length T) by (apply Nat.lt_le_incl, nth_error_Some; congruence). split; [|split].
    - apply (zpath_rest T byte_check n j s u q (IC c :: w) Hz).
      + apply zero_reads; auto. split; [exact Hst|]. cbn in He. rewrite He. discriminate.
      + split; [eapply p_sym; eauto|now constructor].
    - assumption.
    - intros b. apply apply_tu_of; [|assumption]. intros k Hk. eapply zpath_groups; eauto.
  Qed.
  (** ... and every run follows one. *)
  Lemma rest_row s j w : s < length n -> rests j s w -> j < length T -> exists u r tu c w', w = u ++ IC c :: w' /\
    In (r, tu) (nth s (op_syms tab) []) /\ nth_error T j = Some c /\ in_range c r = true /\ tu_end tu = false /\ (tu_start tu = true -> j = 0) /\
    rests (S j) (tu_state tu) w'.
  Proof using Hok Hlen Hgr Htab.
    intros Hs Hr Hj. destruct (rest_now T byte_check n j s w Hr) as (u & q & v & -> & Hz & Hu & [(_ & _ & ->)|(t & a & c & w' & -> & Hc & Ha & Hca & Hr')]); [lia|].
    exists u, a, (tu_of g t u), c, w'. split; [reflexivity|]. split; [apply (proj2 (t_syms _ _ Htab s _ _ Hs)); exists u, q, t; auto|]. split; [assumption|]. split; [assumption|].
    apply zero_reads in Hu as [H1 H2]; [|eapply zpath_chars; eauto|lia]. split; [|split; [exact H1|exact Hr']].
    cbn. destruct (has EEnd u); [|reflexivity]. specialize (H2 eq_refl). lia.
  Qed.
  Lemma acc_rest s tu : s < length n -> In tu (nth s (op_accs tab) []) -> (tu_start tu = true -> length T = 0) ->
    exists u, rests (length T) s u /\ forall b, apply_tu (length T) tu b = marks1 (length T) u b.
  Proof using Hok Hlen Hgr Htab.
    intros Hs Hin Hst. apply (t_accs _ _ Htab) in Hin as (u & Hz & ->); [|assumption]. assert (Hu := zpath_chars _ _ _ _ Hz). exists u. split.
    - split; [now apply zpath_path|]. apply zero_reads; auto.
    - intros b. apply apply_tu_of; [|assumption]. intros k Hk. eapply zpath_groups; eauto.
  Qed.
  Lemma rest_acc s w : s < length n -> rests (length T) s w -> exists tu, In tu (nth s (op_accs tab) []) /\ (tu_start tu = true -> length T = 0).
  Proof using Hok Hlen Hgr Htab.
    intros Hs Hr. destruct (rest_now T byte_check n _ s w Hr) as (u & q & v & -> & Hz & Hu & [(_ & -> & _)|(t & a & c & w' & -> & Hc & _)]).
    - exists (tu_of g (length n - 1) u). split; [apply (proj2 (t_accs _ _ Htab s _ Hs)); exists u; auto|]. apply zero_reads in Hu as [H1 _]; [exact H1|eapply zpath_chars; eauto|apply le_n].
    - assert (X : nth_error T (length T) <> None) by congruence. apply nth_error_Some in X. lia.
  Qed.
  Lemma row_entered s r tu : s < length n -> In (r, tu) (nth s (op_syms tab) []) -> entered n (tu_state tu) /\ tu_state tu < length n.
  Proof using Hok Hlen Hgr Htab.
    intros Hs Hin. apply (t_syms _ _ Htab) in Hin as (u & q & t & Hz & Ht & ->); [|assumption]. cbn. split; [right; eauto|]. eapply wf_trans; eauto. apply Hok.
  Qed.

  (** *** The state-machine form *)
  Lemma vm_accs s : vm_compiles n tab = true -> s < length n -> entered n s -> forall tu, In tu (nth s (op_accs tab) []) -> tu_start tu = false.
  Proof using Hok Hlen Hgr Htab.
    intros H Hs He tu Htu. unfold vm_compiles in H. rewrite forallb_forall in H.
    assert (El : length (op_excluded n) = length n).
    { unfold op_excluded. rewrite fold_length; [now rewrite upd_length, repeat_length|]. intros l st. apply fold_length. intros l' t. apply upd_length. }
    specialize (H (nth s (op_excluded n) true, nth s (op_accs tab) [])).
    rewrite (op_excluded_spec n Hlen s He Hs) in H. cbn [orb] in H. assert (Hin : In (false, nth s (op_accs tab) []) (combine (op_excluded n) (op_accs tab))).
    { rewrite <- (op_excluded_spec n Hlen s He Hs), <- (combine_nth (op_excluded n) (op_accs tab)); [apply nth_In; rewrite combine_length, El, (t_accs_len _ _ Htab); lia|].
      now rewrite El, (t_accs_len _ _ Htab). }
    specialize (H Hin). rewrite forallb_forall in H. apply negb_true_iff. now apply H.
  Qed.
  Lemma vm_exec_spec text : vm_compiles n tab = true -> forall j s b, s < length n -> entered n s -> j <= length T -> skipn j T = text ->
    match vm_exec_loop tab s j b text with
    | Some b' => exists w, rests j s w /\ b' = marks1 j w b
    | None => forall w, ~ rests j s w
    end.
  Proof using Hok Hlen Hgr Htab.
    intros Hc. induction text as [|c text IH]; intros j s b Hs He Hj Hsk; cbn [vm_exec_loop].
    - apply skipn_nil_ge in Hsk; [|assumption]. subst j. destruct (nth s (op_accs tab) []) as [|tu accs] eqn:Ea.
      + intros w Hw. apply rest_acc in Hw as (tu & Htu & _); [|assumption]. rewrite Ea in Htu. destruct Htu.
      + assert (Htu : In tu (nth s (op_accs tab) [])) by (rewrite Ea; now left). destruct (acc_rest s tu Hs Htu) as (u & Hu & Hb).
        { rewrite (vm_accs s Hc Hs He tu Htu). discriminate. }
        exists u. auto.
    - destruct (skipn_nth _ _ _ _ Hsk) as [Hcj Hsk']. assert (Hj' : j < length T) by (apply nth_error_Some; congruence).
      unfold vm_arm. destruct (find _ _) as [[r tu]|] eqn:Ef.
      + apply find_some in Ef as [Hin Hf]. cbn [fst snd] in Hf. rewrite !andb_true_iff, orb_true_iff, !negb_true_iff, Nat.eqb_eq in Hf. destruct Hf as [[F1 F2] F3].
        assert (F3' : tu_start tu = true -> j = 0) by (intros X; destruct F3; congruence).
        destruct (row_entered s r tu Hs Hin) as [E1 E2]. specialize (IH (S j) (tu_state tu) (apply_tu j tu b) E2 E1 Hj' Hsk').
        destruct (vm_exec_loop tab (tu_state tu) (S j) (apply_tu j tu b) text) as [b'|].
        * destruct IH as (w & Hw & ->). destruct (row_rest s j r tu c w Hs Hin Hcj F2 F1 F3' Hw) as (u & Hu & Hcu & Hb). exists (u ++ IC c :: w).
          split; [assumption|]. rewrite run_marks_app. unfold wwidth. rewrite Hcu. cbn [run_marks]. rewrite Hb. f_equal. cbn. lia.
        * intros w Hw. destruct (rest_row s j w Hs Hw Hj') as (u & r' & tu' & c' & w' & -> & Hin' & Hc' & Hr' & He' & Hst' & Hw').
          assert (c' = c) by congruence. subst c'. assert (X := t_unique _ _ Htab s _ _ c Hin Hin' F2 Hr'). injection X as <- <-. exact (IH w' Hw').
      + intros w Hw. destruct (rest_row s j w Hs Hw Hj') as (u & r' & tu' & c' & w' & -> & Hin' & Hc' & Hr' & He' & Hst' & Hw').
        assert (c' = c) by congruence. subst c'. apply (find_none _ _ Ef) in Hin'. cbn [fst snd] in Hin'. rewrite He', Hr' in Hin'. cbn in Hin'.
        destruct (tu_start tu'); [rewrite (Hst' eq_refl) in Hin'|]; discriminate.
  Qed.
  Lemma vm_test_exec text : forall j s b, vm_test_loop tab s j text = match vm_exec_loop tab s j b text with Some _ => true | None => false end.
  Proof.
    induction text as [|c text IH]; intros j s b; cbn [vm_exec_loop vm_test_loop].
    - destruct (nth s (op_accs tab) []); reflexivity.
    - destruct (vm_arm tab s j c); [apply IH|reflexivity].
  Qed.

  (** *** Straight-line runs *)
  Notation syms := (op_syms tab).
  Lemma run_next_spec s t r ts : s < length n -> run_next syms s = Some (t, r, ts) ->
    ts = [] /\ s <> length n - 1 /\ eps (get n s) = [] /\ In (t, r) (trans (get n s)) /\ forall e, In e (trans (get n s)) -> e = (t, r).
  Proof using Hok Hlen Hgr Htab.
    intros Hs H. unfold run_next in H. destruct (nth s syms []) as [|[r' tu] [|]] eqn:E; try discriminate.
    destruct (_ || _) eqn:Ec; [discriminate|]. injection H as <- <- <-. apply orb_false_iff in Ec as [Ec Einc]. apply negb_false_iff, Nat.eqb_eq in Einc.
    assert (Hin : In (r', tu) (nth s syms [])) by (rewrite E; now left).
    destruct (proj1 (t_syms _ _ Htab s r' tu Hs) Hin) as (w & q & t & Hz & Ht & Etu). subst tu. cbn [tu_state tu_of] in *.
    assert (Hq := trans_range _ _ _ Ht). destruct (Nat.eq_dec q s) as [->|Hne].
    2:{ exfalso. assert (Hin' : In (r', tu_of g t []) (nth q syms [])) by (apply (t_syms _ _ Htab); [assumption|]; exists [], q, t; repeat split; auto; constructor).
        assert (X : length (filter (fun x : strans => tu_state (snd x) =? t) (nth s syms [])) + length (filter (fun x : strans => tu_state (snd x) =? t) (nth q syms [])) <= op_incoming syms t)
          by exact (filter_concat_two (fun x : strans => tu_state (snd x) =? t) syms s q ltac:(congruence)).
        rewrite Einc in X. assert (X1 := filter_pos (fun x : strans => tu_state (snd x) =? t) _ _ Hin (Nat.eqb_refl t)).
        assert (X2 := filter_pos (fun x : strans => tu_state (snd x) =? t) _ _ Hin' (Nat.eqb_refl t)). lia. }
    assert (Heps : eps (get n s) = []).
    { assert (P := ok_pure _ Hok). rewrite Forall_forall in P. destruct (P (get n s) (get_In _ _ Hs)) as [P'|P']; [|assumption]. rewrite P' in Ht. destruct Ht. }
    assert (Hw : w = []).
    { clear - Hz Heps. assert (G : forall w q, zpath n s w q -> w = [] /\ q = s); [|now apply (G w s)].
      induction 1 as [|w' t' e u Hz' [IH ->] He]; [auto|]. rewrite Heps in He. destruct He. }
    subst w. split; [|split; [|split; [assumption|split; [assumption|]]]].
    - rewrite <- (app_nil_l (tu_tags _)). destruct (tu_tags (tu_of g t [])) as [|x l] eqn:Et; [reflexivity|].
      assert (X : In x (tu_tags (tu_of g t []))) by (rewrite Et; now left). apply tu_tags_In in X as [_ []].
    - intros ->. destruct (ok_fin _ Hok) as (m & Em). unfold get in Ht. rewrite Em, app_length in Ht. cbn in Ht. rewrite app_nth2 in Ht by lia.
      replace (length m + 1 - 1 - length m) with 0 in Ht by lia. destruct Ht.
    - intros [t' r''] He. assert (X : In (r'', tu_of g t' []) (nth s syms [])) by (apply (t_syms _ _ Htab); [assumption|]; exists [], s, t'; repeat split; auto; constructor).
      rewrite E in X. destruct X as [X|[]]. injection X as <- Et. congruence.
  Qed.
  Lemma run_next_rest s t r ts j w : s < length n -> run_next syms s = Some (t, r, ts) ->
    rests j s w <-> exists c w', w = IC c :: w' /\ nth_error T j = Some c /\ in_range c r = true /\ rests (S j) t w'.
  Proof using Hok Hlen Hgr Htab.
    intros Hs H. destruct (run_next_spec s t r ts Hs H) as (_ & H1 & H2 & H3 & H4). split.
    - intros [Hp Hr]. remember (length n - 1) as L eqn:EL. destruct Hp as [s|s t' e w u He Hp|s t' a c w u He Hc Hp].
      + congruence.
      + rewrite H2 in He. destruct He.
      + subst u. apply reads_char_inv in Hr as [X1 X2]. apply H4 in He. injection He as -> ->. exists c, w. repeat split; auto.
    - intros (c & w' & -> & Hc & Hr & [Hp Hrd]). split; [eapply p_sym; eauto|now constructor].
  Qed.
  (** A chain of states. *)
  Inductive chain : nat -> list range -> nat -> Prop :=
  | ch_nil : forall s, chain s [] s
  | ch_cons : forall s t r rs e, run_next syms s = Some (t, r, []) -> chain t rs e -> chain s (r :: rs) e.
  Lemma chain_snoc s rs e t r : chain s rs e -> run_next syms e = Some (t, r, []) -> chain s (rs ++ [r]) t.
  Proof. induction 1 as [s|s t' r' rs e H1 H2 IH]; intros H; cbn; econstructor; eauto. constructor. Qed.
  Lemma run_next_lt s t r ts : s < length n -> run_next syms s = Some (t, r, ts) -> t < length n.
  Proof using Hok Hlen Hgr Htab. intros Hs H. destruct (run_next_spec s t r ts Hs H) as (_ & _ & _ & H3 & _). eapply wf_trans; eauto. apply Hok. Qed.
  Lemma run_walk_spec start fuel : forall s rs int rs' tags' int' e, s < length n -> chain start rs s ->
    run_walk fuel syms start s rs [] int = Ok (rs', tags', int', e) -> chain start rs' e /\ tags' = [] /\ e < length n.
  Proof using Hok Hlen Hgr Htab.
    induction fuel as [|f IH]; intros s rs int rs' tags' int' e Hs Hch H; cbn [run_walk] in H; [discriminate|].
    destruct (run_next syms s) as [[[t r] ts]|] eqn:E.
    - destruct (t =? start); [injection H as <- <- <- <-; auto|]. destruct (run_next_spec s t r ts Hs E) as (-> & _). cbn [map app] in H.
      apply (IH t (rs ++ [r]) (int ++ [t]) rs' tags' int' e); auto; [eapply run_next_lt; eauto|]. eapply chain_snoc; eauto.
    - injection H as <- <- <- <-. auto.
  Qed.
  Definition run_good (s : nat) (i : inclusion) : Prop :=
    match i with RStart r => s < length n -> chain s (run_symbols r) (run_end r) /\ run_tags r = [] /\ run_symbols r <> [] /\ run_end r < length n | _ => True end.
  Lemma compute_runs_spec runs : compute_runs syms = Ok runs -> forall s, run_good s (nth s runs RNone).
  Proof using Hok Hlen Hgr Htab.
    unfold compute_runs. set (F := fun out start => _). intros H.
    assert (G : forall l out, (forall s, run_good s (nth s out RNone)) -> forall runs, foldM F l out = Ok runs -> forall s, run_good s (nth s runs RNone)).
    { assert (U : forall i x out, run_good i x -> (forall s, run_good s (nth s out RNone)) -> forall s, run_good s (nth s (upd i x out) RNone)).
      { intros i x out Hx Ho s. rewrite nth_upd. destruct ((s =? i) && (i <? length out)) eqn:E; [|auto]. apply andb_true_iff in E as [E _]. apply Nat.eqb_eq in E. now subst. }
      induction l as [|st l IH]; intros out Ho runs' Hr; cbn [foldM] in Hr; [injection Hr as <-; assumption|].
      destruct (F out st) as [out'| | |] eqn:E; try discriminate. cbn [bind] in Hr. revert Hr. apply IH. clear IH runs'.
      unfold F in E. destruct (run_start syms st); [|injection E as <-; assumption].
      destruct (run_walk _ _ _ _ _ _ _) as [[[[rs tags] int] e]| | |] eqn:Ew; try discriminate. cbn [bind] in E.
      destruct (Nat.eqb_spec e st) as [|Hne]; [injection E as <-; assumption|]. injection E as <-.
      apply U; [exact I|]. assert (GI : forall int out, (forall s, run_good s (nth s out RNone)) -> forall s, run_good s (nth s (fold_left (fun out i => upd i RInternal out) int out) RNone)).
      { induction int0 as [|i int0 IH]; intros o Hoo; cbn [fold_left]; [assumption|]. apply IH. apply U; [exact I|assumption]. }
      apply GI. apply U; [|assumption]. intros Hst. apply run_walk_spec in Ew as (W1 & -> & W3); [|assumption|constructor]. cbn. repeat split; auto.
      intros ->. inversion W1; congruence. }
    apply (G _ _ ) with (2 := H). intros s. assert (E : nth s (repeat RNone (length syms)) RNone = RNone).
    { clear. revert s. induction (length syms) as [|k IH]; intros [|s]; cbn; auto. }
    rewrite E. exact I.
  Qed.
  Lemma chain_rest rs : forall s e j w text, s < length n -> chain s rs e -> j <= length T -> skipn j T = text ->
    match match_run rs text with
    | Some text' => skipn (j + length rs) T = text' /\ j + length rs <= length T /\
        exists cs, (rests j s w <-> exists w', w = map IC cs ++ w' /\ rests (j + length rs) e w') /\ length cs = length rs
    | None => ~ rests j s w
    end.
  Proof using Hok Hlen Hgr Htab.
    induction rs as [|r rs IH]; intros s e j w text Hs Hch Hj Hsk; cbn [match_run]; inversion Hch as [|? t ? ? ? H1 H2]; subst.
    - rewrite Nat.add_0_r. split; [reflexivity|]. split; [assumption|]. exists []. split; [|reflexivity]. cbn. split; [eauto|]. intros (w' & -> & H). exact H.
    - assert (Ht := run_next_lt _ _ _ _ Hs H1). destruct (skipn j T) as [|c text] eqn:Hsk.
      + intros Hw. apply (run_next_rest s t r []) in Hw as (c & w' & _ & Hc & _); [|assumption..]. apply skipn_nil_ge in Hsk; [|assumption].
        subst j. assert (X : nth_error T (length T) <> None) by congruence. apply nth_error_Some in X. lia.
      + destruct (skipn_nth _ _ _ _ Hsk) as [Hc Hsk']. assert (Hj' : S j <= length T) by (apply nth_error_Some; congruence).
        destruct (in_range c r) eqn:Er.
        * assert (IH' := fun w' => IH t e (S j) w' text Ht H2 Hj' Hsk'). destruct (match_run rs text) as [text'|].
          -- destruct (IH' (tl w)) as (A1 & A2 & cs & A3 & A4). rewrite Nat.add_succ_comm in *. cbn [length]. split; [assumption|]. split; [assumption|].
             exists (c :: cs). split; [|cbn; congruence]. rewrite (run_next_rest s t r [] j w Hs H1). cbn [map app]. split.
             ++ intros (c' & w' & -> & Hc' & _ & Hw'). assert (c' = c) by congruence. subst c'. cbn [tl] in A3. apply A3 in Hw' as (v & -> & Hv). eauto.
             ++ intros (w' & -> & Hw'). exists c, (map IC cs ++ w'). repeat split; auto; apply A3; cbn [tl]; eauto.
          -- intros Hw. apply (run_next_rest s t r [] j w Hs H1) in Hw as (c' & w' & -> & Hc' & _ & Hw'). exact (IH' w' Hw').
        * intros Hw. apply (run_next_rest s t r [] j w Hs H1) in Hw as (c' & w' & -> & Hc' & Hr' & Hw'). congruence.
  Qed.

  (** *** The nested-function form *)
  Variable runs : list inclusion.
  Hypothesis Hruns : compute_runs syms = Ok runs.
  Hypothesis Hcomp : fun_compiles n tab runs = true.
  Notation emitted := (fun_emitted (op_excluded n) runs).
  Lemma chain_entered s rs e : s < length n -> chain s rs e -> rs <> [] -> entered n e.
  Proof using Hok Hlen Hgr Htab.
    intros Hs H. revert Hs. induction H as [s|s t r rs e H1 H2 IH]; intros Hs Hne; [congruence|].
    assert (Ht := run_next_lt _ _ _ _ Hs H1). destruct rs as [|r' rs]; [|apply IH; [assumption|discriminate]].
    inversion H2; subst. right. destruct (run_next_spec s e r [] Hs H1) as (_ & _ & _ & H3 & _). eauto.
  Qed.
  Lemma compiles_at s : s < length n -> entered n s -> emitted s = true ->
    match nth s runs RNone with
    | RInternal => False
    | RStart r => emitted (run_end r) = true
    | _ => length (nth s (op_accs tab) []) <= 1 /\ forall r tu, In (r, tu) (nth s syms []) -> emitted (tu_state tu) = true
    end.
  Proof using Hok Hlen Hgr Htab Hcomp.
    intros Hs He Hem. unfold fun_compiles in Hcomp. apply andb_true_iff in Hcomp as [_ H]. rewrite forallb_forall in H.
    specialize (H s). rewrite in_seq in H. specialize (H ltac:(lia)). cbn beta in H. rewrite (op_excluded_spec n Hlen s He Hs) in H.
    unfold fun_emitted in Hem. apply andb_true_iff in Hem as [_ Hem].
    destruct (nth s runs RNone) as [r| | |]; [exact H|discriminate| |];
      (apply andb_true_iff in H as [H1 H2]; split; [now apply Nat.leb_le|]; intros r tu Hin; rewrite forallb_forall in H2; exact (H2 _ Hin)).
  Qed.
  Lemma fun_end_spec s b : s < length n -> length (nth s (op_accs tab) []) <= 1 -> (length T = 0 -> s = 0) ->
    fun_end_test s (length T =? 0) (nth s (op_accs tab) []) = is_some (fun_end_exec s (length T =? 0) (length T) b (nth s (op_accs tab) [])) /\
    match fun_end_exec s (length T =? 0) (length T) b (nth s (op_accs tab) []) with
    | Some b' => exists w, rests (length T) s w /\ b' = marks1 (length T) w b
    | None => forall w, ~ rests (length T) s w
    end.
  Proof using Hok Hlen Hgr Htab Hcomp.
    intros Hs Hl H0. assert (A := acc_rest s). assert (B := fun w => rest_acc s w Hs). destruct (nth s (op_accs tab) []) as [|tu [|]]; cbn in Hl; [| |lia].
    - split; [reflexivity|]. intros w Hw. destruct (B w Hw) as (tu & [] & _).
    - cbn [fun_end_test fun_end_exec existsb]. destruct (tu_start tu) eqn:Est; cbn [negb orb].
      + destruct (Nat.eqb_spec s 0) as [Es|Es].
        * destruct (Nat.eqb_spec (length T) 0) as [Et|Et]; (split; [reflexivity|]).
          -- destruct (A tu Hs (or_introl eq_refl)) as (u & Hu & Hb); [auto|]. eauto.
          -- intros w Hw. destruct (B w Hw) as (tu' & [<-|[]] & Hst). auto.
        * split; [reflexivity|]. intros w Hw. destruct (B w Hw) as (tu' & [<-|[]] & Hst). auto.
      + split; [reflexivity|]. destruct (A tu Hs (or_introl eq_refl)) as (u & Hu & Hb); [intros X; congruence|]. eauto.
  Qed.
  Lemma fun_exec_spec fuel : forall text j s b, s < length n -> entered n s -> emitted s = true -> j <= length T -> skipn j T = text -> (j = 0 -> s = 0) ->
    length text < fuel ->
    exists o, fun_exec fuel tab runs s (j =? 0) j b text = Ok o /\ fun_test fuel tab runs s (j =? 0) text = Ok (is_some o) /\
    match o with
    | Some b' => exists w, rests j s w /\ b' = marks1 j w b
    | None => forall w, ~ rests j s w
    end.
  Proof using Hok Hlen Hgr Htab Hcomp Hruns.
    induction fuel as [|f IH]; intros text j s b Hs He Hem Hj Hsk H0 Hf; [lia|]. cbn [fun_exec fun_test].
    assert (HC := compiles_at s Hs He Hem). assert (HR := compute_runs_spec runs Hruns s).
    assert (Gen : length (nth s (op_accs tab) []) <= 1 -> (forall r tu, In (r, tu) (nth s syms []) -> emitted (tu_state tu) = true) ->
      exists o, match text with
             | [] => Ok (fun_end_exec s (j =? 0) j b (nth s (op_accs tab) []))
             | c :: rest => match fun_arm tab s (j =? 0) c with
                            | Some tu => fun_exec f tab runs (tu_state tu) false (S j) (apply_tu j tu b) rest
                            | None => Ok None
                            end
             end = Ok o /\ match text with
             | [] => Ok (fun_end_test s (j =? 0) (nth s (op_accs tab) []))
             | c :: rest => match fun_arm tab s (j =? 0) c with
                            | Some tu => fun_test f tab runs (tu_state tu) false rest
                            | None => Ok false
                            end
             end = Ok (is_some o) /\
      match o with Some b' => exists w, rests j s w /\ b' = marks1 j w b | None => forall w, ~ rests j s w end).
    { clear HC HR. intros Hacc Hem'. destruct text as [|c text].
      - apply skipn_nil_ge in Hsk; [|assumption]. subst j. destruct (fun_end_spec s b Hs Hacc H0) as [E1 E2]. eexists. split; [reflexivity|].
        split; [now rewrite E1|exact E2].
      - destruct (skipn_nth _ _ _ _ Hsk) as [Hc Hsk']. assert (Hj' : j < length T) by (apply nth_error_Some; congruence).
        assert (HL : forall tu, fun_cond s (j =? 0) tu = true <-> tu_end tu = false /\ (tu_start tu = true -> j = 0)).
        { intros tu. unfold fun_cond. destruct (tu_end tu), (tu_start tu); cbn [orb andb].
          - split; [discriminate|intros [? _]; discriminate].
          - split; [discriminate|intros [? _]; discriminate].
          - destruct (Nat.eqb_spec s 0) as [Es|Es]; cbn [negb].
            + rewrite Nat.eqb_eq. tauto.
            + split; [discriminate|]. intros [_ X]. specialize (X eq_refl). auto.
          - split; [|reflexivity]. intros _. split; [reflexivity|discriminate]. }
        unfold fun_arm. destruct (find _ _) as [[r tu]|] eqn:Ef.
        + apply find_some in Ef as [Hin Hfd]. cbn [fst snd] in Hfd. apply andb_true_iff in Hfd as [F1 F2]. apply HL in F2 as [F2 F3].
          destruct (row_entered s r tu Hs Hin) as [E1 E2].
          destruct (IH text (S j) (tu_state tu) (apply_tu j tu b) E2 E1 (Hem' _ _ Hin) Hj' Hsk') as (o & X1 & X2 & X3); [discriminate|cbn in Hf; lia|].
          cbn [Nat.eqb] in X1, X2. exists o. split; [exact X1|]. split; [exact X2|]. destruct o as [b'|].
          * destruct X3 as (w & Hw & ->). destruct (row_rest s j r tu c w Hs Hin Hc F1 F2 F3 Hw) as (u & Hu & Hcu & Hb). exists (u ++ IC c :: w).
            split; [assumption|]. rewrite run_marks_app. unfold wwidth. rewrite Hcu. cbn [run_marks]. rewrite Hb. f_equal. cbn. lia.
          * intros w Hw. destruct (rest_row s j w Hs Hw Hj') as (u & r' & tu' & c' & w' & -> & Hin' & Hc' & Hr' & He' & Hst' & Hw').
            assert (c' = c) by congruence. subst c'. assert (X := t_unique _ _ Htab s _ _ c Hin Hin' F1 Hr'). injection X as <- <-. exact (X3 w' Hw').
        + exists None. split; [reflexivity|]. split; [reflexivity|].
          intros w Hw. destruct (rest_row s j w Hs Hw Hj') as (u & r' & tu' & c' & w' & -> & Hin' & Hc' & Hr' & He' & Hst' & Hw').
          assert (c' = c) by congruence. subst c'. apply (find_none _ _ Ef) in Hin'. cbn [fst snd] in Hin'. rewrite Hr' in Hin'. cbn [andb] in Hin'.
          rewrite (proj2 (HL tu')) in Hin' by auto. discriminate. }
    destruct (nth s runs RNone) as [r| | |].
    - clear Gen. destruct (HR Hs) as (R1 & R2 & R3 & R4). assert (HCR := fun w => chain_rest (run_symbols r) s (run_end r) j w text Hs R1 Hj Hsk).
      destruct (match_run (run_symbols r) text) as [text'|] eqn:Em.
      + rewrite R2. cbn [fold_left]. destruct (HCR []) as (C1 & C2 & _).
        assert (Hpos : 0 < length (run_symbols r)) by (destruct (run_symbols r); [congruence|cbn; lia]).
        destruct (IH text' (j + length (run_symbols r)) (run_end r) b R4) as (o & X1 & X2 & X3); auto.
        { exact (chain_entered s (run_symbols r) (run_end r) Hs R1 R3). }
        { lia. }
        { rewrite <- C1, skipn_length. rewrite <- Hsk, skipn_length in Hf. lia. }
        destruct (Nat.eqb_spec (j + length (run_symbols r)) 0) as [Ez|Ez]; [lia|].
        exists o. split; [exact X1|]. split; [exact X2|]. destruct o as [b'|].
        * destruct X3 as (w & Hw & ->). destruct (HCR []) as (_ & _ & cs0 & _ & Hcs0). clear cs0 Hcs0.
          assert (G : exists cs, rests j s (map IC cs ++ w) /\ length cs = length (run_symbols r)).
          { clear - Hw R1 Hok Hlen Htab Hgr Hs Hsk Em Hj. revert s j text Hs R1 Hsk Em Hj Hw. induction (run_symbols r) as [|r0 rs IH]; intros s j text Hs R1 Hsk Em Hj Hw; inversion R1 as [|? t ? ? ? H1 H2]; subst.
            - exists []. rewrite Nat.add_0_r in Hw. auto.
            - cbn [match_run] in Em. destruct (skipn j T) as [|c text0] eqn:Esk; [discriminate|]. destruct (in_range c r0) eqn:Er; [|discriminate].
              destruct (skipn_nth _ _ _ _ Esk) as [Hc Hsk']. assert (Ht := run_next_lt _ _ _ _ Hs H1).
              destruct (IH t (S j) text0 Ht H2 Hsk' Em) as (cs & G1 & G2).
              + apply nth_error_Some. congruence.
              + cbn [length] in Hw. now rewrite Nat.add_succ_comm.
              + exists (c :: cs). split; [|cbn; congruence]. apply (run_next_rest s t r0 [] j _ Hs H1). exists c, (map IC cs ++ w). auto. }
          destruct G as (cs & G1 & G2). exists (map IC cs ++ w). split; [assumption|]. rewrite run_marks_app, run_marks_chars. f_equal.
          unfold wwidth. rewrite chars_IC. clear - G2. rewrite <- G2. f_equal.
        * intros w Hw. destruct (HCR w) as (_ & _ & cs & C3 & C4). destruct (proj1 C3 Hw) as (w' & _ & Hw'). exact (X3 w' Hw').
      + exists None. split; [reflexivity|]. split; [reflexivity|]. exact HCR.
    - destruct HC.
    - apply Gen; apply HC.
    - apply Gen; apply HC.
  Qed.
End Run.

(** ** The engine *)
Theorem op_make_spec n : ok n -> 1 <= length n -> groups_ok n -> (forall s t r, In (t, r) (trans (get n s)) -> byte_ok r) ->
  forall en, op_make n = Ok (Some en) -> op_groups en = num_capture_groups n /\
  forall T, exists o, match op_k en with
                      | OpVm => Ok (vm_exec_loop (op_tab en) 0 0 (no_bounds (op_groups en)) T)
                      | OpFun runs => fun_exec (S (length T)) (op_tab en) runs 0 true 0 (no_bounds (op_groups en)) T
                      end = Ok o /\
    match op_k en with
    | OpVm => Ok (vm_test_loop (op_tab en) 0 0 T)
    | OpFun runs => fun_test (S (length T)) (op_tab en) runs 0 true T
    end = Ok (is_some o) /\
    match o with
    | Some b => exists W, lang byte_check n W /\ reads T 0 W (length T) /\ b = run_marks (fun _ => 1) 0 W (no_bounds (num_capture_groups n))
    | None => forall W, lang byte_check n W -> ~ reads T 0 W (length T)
    end.
Proof.
  intros Hok Hlen Hgr Hb en H. unfold op_make in H. destruct (guard _) as [u| | |] eqn:Eg; try discriminate. cbn [bind] in H.
  destruct (op_analyse_spec n (ok_wf _ Hok) Hb) as (o & Eo & Ho). rewrite Eo in H. cbn [bind] in H. destruct o as [tab|]; [|discriminate].
  destruct (topological_ordering n) as [to| | |] eqn:Et; try discriminate. cbn [bind] in H.
  assert (H00 : entered n 0) by now left.
  destruct to as [ord|].
  - destruct (compute_runs (op_syms tab)) as [runs| | |] eqn:Er; try discriminate. cbn [bind] in H.
    destruct (fun_compiles n tab runs) eqn:Ec; [|discriminate]. injection H as <-. cbn [op_groups op_k op_tab]. split; [reflexivity|]. intros T.
    assert (E0 : fun_emitted (op_excluded n) runs 0 = true) by (unfold fun_compiles in Ec; now apply andb_true_iff in Ec as [Ec _]).
    destruct (fun_exec_spec n Hok Hlen Hgr tab Ho T runs Er Ec (S (length T)) T 0 0 (no_bounds (num_capture_groups n))) as (o & X1 & X2 & X3); auto; [lia|].
    cbn [Nat.eqb] in X1, X2. exists o. split; [exact X1|]. split; [exact X2|]. destruct o as [b|].
    + destruct X3 as (w & [Hw1 Hw2] & ->). exists w. auto.
    + intros W H1 H2. exact (X3 W (conj H1 H2)).
  - destruct (vm_compiles n tab) eqn:Ec; [|discriminate]. injection H as <-. cbn [op_groups op_k op_tab]. split; [reflexivity|]. intros T.
    assert (X := vm_exec_spec n Hok Hlen Hgr tab Ho T T Ec 0 0 (no_bounds (num_capture_groups n)) ltac:(lia) H00 ltac:(lia) eq_refl).
    eexists. split; [reflexivity|]. rewrite (vm_test_exec tab T 0 0 (no_bounds (num_capture_groups n))).
    destruct (vm_exec_loop tab 0 0 (no_bounds (num_capture_groups n)) T) as [b|]; (split; [reflexivity|]).
    + destruct X as (w & [Hw1 Hw2] & ->). exists w. auto.
    + intros W H1 H2. exact (X W (conj H1 H2)).
Qed.
Lemma mapM_length {X Y} (f : X -> res Y) l : forall l', mapM f l = Ok l' -> length l' = length l.
Proof.
  induction l as [|x l IH]; intros l' H; cbn [mapM] in H; [injection H as <-; reflexivity|]. destruct (f x) as [y| | |]; try discriminate. cbn [bind] in H.
  destruct (mapM f l) as [ys| | |] eqn:E; try discriminate. cbn [bind] in H. injection H as <-. cbn. f_equal. now apply IH.
Qed.
Lemma op_analyse_length n tab : op_analyse n = Ok (Some tab) -> length (op_syms tab) = length n.
Proof.
  unfold op_analyse. destruct (mapM _ _) as [rs| | |] eqn:E; try discriminate. cbn [bind]. destruct (forallb _ _); [|discriminate]. intros H. injection H as <-. cbn [op_syms].
  rewrite map_length. apply mapM_length in E. now rewrite E, seq_length.
Qed.
Lemma compute_runs_length syms runs : compute_runs syms = Ok runs -> length runs = length syms.
Proof.
  unfold compute_runs. set (F := fun out start => _). intros H.
  assert (G : forall l out runs, foldM F l out = Ok runs -> length runs = length out).
  { induction l as [|st l IH]; intros out rs Hr; cbn [foldM] in Hr; [injection Hr as <-; reflexivity|]. destruct (F out st) as [out'| | |] eqn:E; try discriminate. cbn [bind] in Hr. rewrite (IH _ _ Hr). clear Hr IH.
    unfold F in E. destruct (run_start syms st); [|injection E as <-; reflexivity]. destruct (run_walk _ _ _ _ _ _ _) as [[[[x tags] int] e]| | |]; try discriminate. cbn [bind] in E.
    destruct (e =? st); injection E as <-; [reflexivity|]. rewrite upd_length.
    assert (K : forall int o, length (fold_left (fun out i => upd i RInternal out) int o) = length o) by (clear; induction int as [|i int IH]; intros o; cbn [fold_left]; [reflexivity|]; rewrite IH; apply upd_length).
    rewrite K. apply upd_length. }
  rewrite (G _ _ _ H). apply repeat_length.
Qed.
(** Runs never cross a capture boundary: the tags collected for them are none. *)
Theorem op_make_runs n : ok n -> 1 <= length n -> groups_ok n -> (forall s t r, In (t, r) (trans (get n s)) -> byte_ok r) ->
  forall en runs r, op_make n = Ok (Some en) -> op_k en = OpFun runs -> In (RStart r) runs -> run_tags r = [] /\ run_symbols r <> [] /\ run_end r < length n.
Proof.
  intros Hok Hlen Hgr Hb en runs r H Ek Hi. unfold op_make in H. destruct (guard _) as [u| | |] eqn:Eg; try discriminate. cbn [bind] in H.
  destruct (op_analyse_spec n (ok_wf _ Hok) Hb) as (o & Eo & Ho). rewrite Eo in H. cbn [bind] in H. destruct o as [tab|]; [|discriminate].
  destruct (topological_ordering n) as [to| | |] eqn:Et; try discriminate. cbn [bind] in H. destruct to as [ord|].
  - destruct (compute_runs (op_syms tab)) as [rs| | |] eqn:Er; try discriminate. cbn [bind] in H.
    destruct (fun_compiles n tab rs) eqn:Ec; [|discriminate]. injection H as <-. cbn [op_k] in Ek. injection Ek as ->.
    destruct (In_nth _ _ RNone Hi) as (s & Hs & E). assert (X := compute_runs_spec n Hok Hlen Hgr tab Ho runs Er s). rewrite E in X.
    destruct (Nat.lt_ge_cases s (length n)) as [Hl|Hl]; [destruct (X Hl) as (_ & X1 & X2 & X3); auto|].
    exfalso. assert (L : length runs = length (op_syms tab)) by (eapply compute_runs_length; eauto). assert (L' := op_analyse_length n tab Eo). lia.
  - destruct (vm_compiles n tab); [|discriminate]. injection H as <-. discriminate.
Qed.
