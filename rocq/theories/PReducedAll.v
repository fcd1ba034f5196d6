(** Which automata are optimised to the end. *)
From Verif Require Export SpecReduced PReduced PTrimU8 PTight.
From Verif Require Import PCaret PCount PUsed PU8.
From Coq Require Import ZifyBool ZifyNat.
Open Scope nat_scope.
Open Scope list_scope.
Set Default Proof Using "Type".

(** ** Automata without anchors *)
Definition free_mark (k : epsk) : Prop := k <> EStart /\ k <> EEnd.
Section Still.
  Context {A : Type}.
  Implicit Types n : nfa A.
  Definition still n : Prop := forall s t k, In (t, k) (eps (get n s)) -> free_mark k.
  Lemma still_succ n s (p : epsk -> bool) : still n -> (forall k, free_mark k -> p k = true) -> succ_eps n p s = succ_eps n any_eps s.
  Proof.
    intros Hs Hp. unfold succ_eps. specialize (Hs s). induction (eps (get n s)) as [|[t k] l IH]; cbn in *; [reflexivity|].
    rewrite Hp by (apply (Hs t); now left). cbn. f_equal. apply IH. intros t' k' H. apply (Hs t'). now right.
  Qed.
  Lemma same_states n m : length n = length m -> (forall s, get n s = get m s) -> n = m.
  Proof. intros HL HG. apply nth_ext with (d := empty_state) (d' := empty_state); [assumption|]. intros k _. apply HG. Qed.
  Lemma clean_start_still n : wf n -> 1 <= length n -> still n -> clean_start_anchors n = Ok n.
  Proof.
    intros Hw Hl Hs. unfold clean_start_anchors. destruct (reach_from_spec (succ_eps n any_eps) (length n) 0) as (r & -> & _); [lia|intros x y; now apply succ_eps_lt|].
    cbn [bind]. f_equal. apply same_states; [now rewrite map_length, enumerate_length|]. intros i.
    rewrite (get_enum_map n (fun i s => mkState (trans s) (filter (fun e => not_start (snd e) || nth i r false) (eps s)))) by reflexivity.
    specialize (Hs i). destruct (get n i) as [tr ep]. cbn in *. f_equal. apply filter_whole. intros [t k] H. cbn. destruct (Hs t k H) as [H1 _]. destruct k; try reflexivity. congruence.
  Qed.
  Lemma clean_end_still n : wf n -> 1 <= length n -> still n -> clean_end_anchors n = Ok n.
  Proof.
    intros Hw Hl Hs. unfold clean_end_anchors. destruct (reach_from_spec (pred_eps n any_eps) (length n) (length n - 1)) as (r & -> & _); [lia|intros x y; apply pred_eps_lt|].
    cbn [bind]. f_equal. apply same_states; [now rewrite map_length|]. intros i.
    rewrite (get_map n (fun s => mkState (trans s) (filter (fun e => not_end (snd e) || nth (fst e) r false) (eps s)))) by reflexivity.
    specialize (Hs i). destruct (get n i) as [tr ep]. cbn in *. f_equal. apply filter_whole. intros [t k] H. cbn. destruct (Hs t k H) as [_ H1]. destruct k; try reflexivity. congruence.
  Qed.
  Lemma zero_still n : wf n -> 1 <= length n -> still n -> trimmed n -> zero_symbols n = Ok n.
  Proof.
    intros Hw Hl Hs Ht. unfold zero_symbols, nodes_after_end, nodes_before_start.
    destruct (reach_from_spec (fun s => succ_eps n not_end s ++ succ_trans n s) (length n) 0) as (a & -> & Hal & Ha); [lia|intros x y; now apply succ_all_lt|].
    destruct (reach_from_spec (pred_all n not_start) (length n) (length n - 1)) as (b & -> & Hbl & Hb); [lia|intros x y; apply pred_all_lt|].
    cbn [bind]. f_equal. apply same_states; [now rewrite map_length, enumerate_length|]. intros i.
    rewrite (get_enum_map n (fun i s => if nth i (map negb a) false || nth i (map negb b) false then mkState [] (eps s) else s)) by (destruct (_ || _); reflexivity).
    destruct (Nat.lt_ge_cases i (length n)) as [Hi|Hi]; [|rewrite !nth_overflow by (rewrite map_length; lia); reflexivity].
    assert (HN : forall (r : list bool), i < length r -> nth i (map negb r) false = negb (nth i r false)).
    { intros r Hr. rewrite (nth_indep _ _ (negb false)) by now rewrite map_length. apply map_nth. }
    assert (HS : forall p, (forall k, free_mark k -> p k = true) -> forall x y, conn n x y -> star (fun s => succ_eps n p s ++ succ_trans n s) x y).
    { intros p Hp x y H. induction H as [x|x y z H1 H2 IH]; [constructor|]. econstructor; [|exact IH]. unfold edge in *. rewrite still_succ by assumption. exact H1. }
    destruct (Ht i Hi) as [T1 T2].
    assert (EA : nth i a false = true).
    { apply Ha. apply HS; [|exact T1]. intros k [_ H]. destruct k; try reflexivity. congruence. }
    assert (EB : nth i b false = true).
    { apply Hb. apply (star_rev (fun s => succ_eps n not_start s ++ succ_trans n s)); [intros; symmetry; apply pred_all_In|]. apply HS; [|exact T2]. intros k [H _]. destruct k; try reflexivity. congruence. }
    rewrite !HN by lia. rewrite EA, EB. reflexivity.
  Qed.

  Variable check : A -> N -> bool.
  Variable eqA : A -> A -> bool.
  Variable good : A -> Prop.
  Hypothesis eqA_sound : forall a b, good a -> good b -> eqA a b = true -> forall c, check a c = check b c.
  Hypothesis eqA_refl : forall a, eqA a a = true.
  Lemma finalize_reduced n n' : goods good n -> ok n -> 2 <= length n -> still n -> trimmed n -> finalize eqA n = Ok n' -> reduced n'.
  Proof using eqA_sound eqA_refl.
    intros Hg Hok Hl Hs Ht. unfold finalize. rewrite wfb_guard by (try apply Hok; lia). cbn [guard bind].
    rewrite zero_still by (auto; try apply Hok; lia). cbn [bind].
    destruct (optimize_spec check eqA good eqA_sound (S (nfa_size n)) n Hg Hok Hl) as (n2 & E2 & O2 & L2 & _); [lia|]. rewrite E2. cbn [bind].
    rewrite wfb_guard by (try apply O2; lia). cbn [guard bind].
    assert (T2 := optimize_trimmed check eqA good eqA_sound _ n n2 Hg Hok Hl Ht E2).
    rewrite remove_unreachable_trimmed by (auto; try apply O2; lia). intros E. injection E as <-. eapply optimize_reduced; eauto.
  Qed.
  Lemma filter_short {B} (f : B -> bool) l : length (filter f l) <= length l.
  Proof. induction l as [|x l IH]; cbn; [lia|]. destruct (f x); cbn; lia. Qed.
  Lemma finalize_distinct n n' : finalize eqA n = Ok n' -> 3 <= length n' -> forall i, NoDup (eps (get n' i)).
  Proof using eqA_refl.
    unfold finalize. intros H HL. destruct (guard (wfb n && _)); try discriminate H. cbn [bind] in H. destruct (zero_symbols n) as [n1| | |]; try discriminate H. cbn [bind] in H.
    destruct (optimize eqA (S (nfa_size n1)) n1) as [n2| | |] eqn:E2; try discriminate H. cbn [bind] in H.
    destruct (wfb n2 && (1 <=? length n2)) eqn:G; cbn [guard bind] in H; [|discriminate H]. apply andb_true_iff in G as [G1 G2]. apply wfb_iff in G1.
    assert (R := optimize_reduced eqA eqA_refl _ _ _ E2). assert (HL2 : length n' <= length n2).
    { unfold remove_unreachable in H. destruct (reachable_start n2) as [ra| | |] eqn:Ea; try discriminate H. cbn [bind] in H. destruct (reachable_end n2) as [rb| | |] eqn:Eb; try discriminate H. cbn [bind] in H. injection H as <-.
      unfold remove_dead_states. rewrite !map_length. etransitivity; [apply filter_short|]. rewrite combine_length, !map_length. lia. }
    eapply remove_unreachable_NoDup; [exact G1|lia|exact H|]. apply R. lia.
  Qed.
End Still.

(** ** Patterns without anchors *)
Lemma free_labels (P : atom -> Prop) :
  (forall p g, part_atoms P p -> free_part p = true -> tree_labels P free_mark (part_tree p g)) /\
  (forall e g, expr_atoms P e -> free_expr e = true -> tree_labels P free_mark (expr_tree e g)) /\
  (forall b g, branch_atoms P b -> forallb free_part b = true -> all_labels P free_mark (branch_trees b g)) /\
  (forall e g, ere_atoms P e -> anchor_free e = true -> all_labels P free_mark (ere_trees e g)).
Proof.
  apply syntax_ind; intros.
  - apply H; assumption.
  - rewrite part_tree_quant. apply quant_labels. apply H; assumption.
  - discriminate H0.
  - discriminate H0.
  - assumption.
  - rewrite expr_tree_sub. cbn [tree_labels]. split; [split; discriminate|]. split; [split; discriminate|]. apply H; assumption.
  - exact I.
  - rewrite branch_trees_cons. destruct H1 as [H1 H3]. cbn in H2. apply andb_true_iff in H2 as [H2 H4]. split; [now apply H|now apply H0].
  - exact I.
  - rewrite ere_trees_cons. destruct H1 as [H1 H3]. unfold anchor_free in *. cbn in H2. apply andb_true_iff in H2 as [H2 H4]. split; [now apply H|now apply H0].
Qed.
Lemma tree_free_labels P e : ere_atoms P e -> anchor_free e = true -> tree_labels P free_mark (tree_of e).
Proof. intros H1 H2. rewrite tree_of_eq. cbn [tree_labels]. split; [split; discriminate|]. split; [split; discriminate|]. now apply free_labels. Qed.
Lemma lively_steady P t : lively t -> tree_labels P free_mark t -> steady t.
Proof.
  induction t using tree_ind'; cbn [lively tree_labels steady]; auto.
  - intros [H1 H2] H3. split; [assumption|]. clear H1. induction H as [|x l Hx HF IH]; cbn in *; [auto|]. split; [apply Hx; tauto|apply IH; tauto].
  - intros H1 (_ & _ & H3). auto.
  - intros H1 H3. induction H as [|x l Hx HF IH]; cbn in *; [auto|]. split; [apply Hx; tauto|apply IH; tauto].
  - intros [_ H1] H3. auto.
  - intros [_ H1] H3. auto.
  - intros _ [H _]. congruence.
  - intros _ [_ H]. congruence.
Qed.
Lemma ranges_eqb_refl l : ranges_eqb l l = true.
Proof. now apply ranges_eqb_eq. Qed.
Lemma atom_eqb_refl a : atom_eqb a a = true.
Proof. apply ranges_eqb_refl. Qed.
Lemma range_eqb_refl r : range_eqb r r = true.
Proof. now apply range_eqb_eq. Qed.
Lemma any_trimmed : trimmed any_loop.
Proof. apply star_trimmed; [apply PThompson.symbol_ok|apply symbol_trimmed]. Qed.
Theorem char_reduced e n : ere_atoms atom_ok e -> anchor_free e = true -> possible e -> working_new (tree_of e) = Ok n -> reduced n.
Proof.
  intros He Hf Hp En. assert (Ht := tree_of_ok e). assert (Hlen := tree_of_length e). unfold working_new, working_new_loop_opt in En. assert (Hok := build_ok _ Ht).
  assert (HL := tree_free_labels atom_ok e He Hf). assert (HT := build_trimmed _ Ht (lively_steady _ _ (tree_lively e Hp) HL)).
  assert (MN : free_mark ENone) by (split; discriminate). assert (PA : atom_ok (NonmatchingList [])) by constructor.
  assert (GB := build_labels atom_ok free_mark _ MN HL). set (b := build (tree_of e)) in *.
  rewrite wfb_guard in En by (try apply Hok; lia). cbn [guard bind] in En. assert (SB : still b) by (apply lab_iff in GB as [_ GB]; exact GB).
  rewrite clean_start_still in En by (auto; try apply Hok; lia). cbn [bind] in En. rewrite clean_end_still in En by (auto; try apply Hok; lia). cbn [bind] in En.
  change (nfa_concat [nfa_concat [any_loop; b]; any_loop]) with (loop_back true (loop_front true b)) in En. destruct (loops_ok b Hok Hlen) as [O3 L3].
  assert (GA : Forall (lab atom_ok free_mark) any_loop) by (apply build_labels with (t := TStar (TSymbol (NonmatchingList [])) false); auto).
  assert (G1 : Forall (lab atom_ok free_mark) (loop_back true (loop_front true b))) by (apply lab_concat; auto; apply Forall_cons; [apply lab_concat; auto|auto]).
  apply lab_iff in G1 as [G1 G2]. eapply (finalize_reduced acheck atom_eqb atom_ok); [apply reading_acheck|apply atom_eqb_refl|exact G1|exact O3|exact L3|exact G2| |exact En].
  assert (TA := any_trimmed). assert (OA := any_loop_ok). assert (OF := loop_front_ok true b Hok). apply concat_trimmed; [repeat apply Forall_cons; auto|]. repeat apply Forall_cons; auto. apply concat_trimmed; repeat apply Forall_cons; auto.
Qed.
Theorem byte_reduced e n m : ere_atoms atom_ok e -> anchor_free e = true -> inhabited_atoms e -> working_new (tree_of e) = Ok n -> u8_new n = Ok m -> n <> [] -> reduced m.
Proof.
  intros He Hf Hi En Em Hn. destruct (working_chk acheck reading_acheck true true (tree_of e)) as (n' & En' & H).
  - eapply tree_labels_mono; [|apply tree_of_labels; exact He]. auto.
  - apply tree_of_ok.
  - apply tree_of_length.
  - unfold working_new in En. rewrite En in En'. injection En' as <-. destruct H as [[-> _]|(H1 & H2 & H3 & H4 & _ & H6)]; [congruence|].
    set (P := fun a => atom_ok a /\ exists c, acheck a c = true). assert (HL : Forall (lab P free_mark) n).
    { apply H6; [split; discriminate|split; [constructor|exists 97%N; reflexivity]|]. apply tree_free_labels; [|assumption].
      apply (proj2 (proj2 (proj2 (atoms_In P)))). intros a Ha. split; [now apply (proj2 (proj2 (proj2 (atoms_In atom_ok))) e)|].
      destruct (Hi a Ha) as (c & Hc & Hac). exists c. unfold acheck. apply andb_true_intro. split; [now apply atom_check_iff|exact Hc]. }
    apply lab_iff in HL as [HP HM]. assert (Hat : forall s t a, In (t, a) (trans (get n s)) -> atom_ok a) by (intros; now apply (HP s t)).
    assert (Hc : forall s t a, In (t, a) (trans (get n s)) -> exists c, acheck a c = true) by (intros; now apply (HP s t)).
    destruct (PU8.build_spec n H1 Hat) as (B & subs & E & HB). unfold u8_new, u8_new_loop_opt in Em. rewrite E in Em. cbn [bind] in Em.
    assert (LB := bu_len _ _ _ HB). eapply (finalize_reduced byte_check range_eqb (fun _ => True)); [|apply range_eqb_refl| | | | | |exact Em].
    + intros a b _ _ X. apply range_eqb_eq in X. now subst.
    + intros ? ? ? ?. exact I.
    + eapply built_ok; eauto.
    + lia.
    + intros s t k Hk. apply (bu_eps _ _ _ HB) in Hk as [Hk|(_ & _ & ->)]; [eapply HM; eauto|split; discriminate].
    + eapply bytes_trimmed; eauto.
Qed.
