(** Patterns with the same anchors on every way through: their automata only have words that some text passes. *)
From Verif Require Export PTight PRuns PPrioLock PAgree.
From Coq Require Import Permutation ZifyBool ZifyNat ZifyN.
Open Scope nat_scope.
Open Scope list_scope.
Set Default Proof Using "Type".

(** ** Accept transitions are found once each *)
Section Once.
  Variable n : nfa range.
  Hypothesis Hwf : wf n.
  Variable g : nat.
  Variable s0 : nat.
  Hypothesis Hs0 : s0 < length n.
  Definition inv2 (st : op_loop_state) : Prop := inv n g s0 st /\ let '(stack, _, _, accs) := st in NoDup (stack ++ accs).
  Lemma nodup_app_iff {A} (a b : list A) : NoDup (a ++ b) <-> NoDup a /\ NoDup b /\ forall x, In x a -> ~ In x b.
  Proof.
    induction a as [|x a IH]; cbn; [split; [intros H; repeat split; auto; constructor|tauto]|]. split.
    - intros H. inversion H as [|? ? Hx Hn]; subst. apply IH in Hn as (H1 & H2 & H3). rewrite in_app_iff in Hx. split; [constructor; auto|]. split; [assumption|]. intros y [<-|Hy]; auto.
    - intros (H1 & H2 & H3). inversion H1 as [|? ? Hx Hn]; subst. constructor; [rewrite in_app_iff; intros [X|X]; [auto|apply (H3 x); auto]|]. apply IH. split; [assumption|]. split; [assumption|]. intros y Hy; auto.
  Qed.
  Lemma inv2_step st st' : inv2 st -> op_step n st = inl st' -> op_mu n g st' < op_mu n g st /\ inv2 st'.
  Proof using Hwf Hs0.
    intros [HI HN] E. destruct (op_inv_step n Hwf g s0 Hs0 st st' HI E) as [Hm HI']. split; [assumption|]. split; [assumption|].
    destruct st as [[[stack reached] syms] accs]. destruct HI as (I1 & I2 & I3 & I4 & I5 & I6 & I7 & I8). unfold op_step in E.
    destruct stack as [|th stack]; [discriminate|].
    change (map (tu_step th) (eps (get n (tu_state th)))) with (tu_nexts n th) in E.
    destruct (op_push_fold (tu_nexts n th) stack reached I1) as (new & En & N1 & N2 & N3); [intros y Hy; apply I3; now right|].
    rewrite En in E. injection E as <-. cbn [app] in HN. inversion HN as [|? ? Hth HN']; subst. apply nodup_app_iff in HN' as (S1 & S2 & S3). rewrite in_app_iff in Hth.
    apply nodup_app_iff in N1 as (R1 & R2 & R3).
    assert (Ac : forall y, In y (if tu_state th + 1 =? length n then accs ++ [th] else accs) -> In y accs \/ y = th).
    { intros y. destruct (_ =? _); [|auto]. intros H. apply in_app_or in H as [H|[<-|[]]]; auto. }
    assert (Al : forall y, In y (if tu_state th + 1 =? length n then accs ++ [th] else accs) -> In y reached).
    { intros y Hy. apply Ac in Hy as [Hy| ->]; [now apply I8|apply I3; now left]. }
    apply nodup_app_iff. split; [|split].
    - apply nodup_app_iff. split; [now apply NoDup_rev|]. split; [assumption|]. intros y Hy Hy'. apply in_rev in Hy. apply (R3 y); [apply I3; now right|assumption].
    - destruct (_ =? _); [|assumption]. apply nodup_app_iff. split; [assumption|]. split; [repeat constructor; intros []|]. intros y Hy [<-|[]]. tauto.
    - intros y Hy Hy'. apply in_app_or in Hy as [Hy|Hy].
      + apply in_rev in Hy. apply (R3 y); [now apply Al|assumption].
      + apply Ac in Hy' as [Hy'| ->]; [exact (S3 y Hy Hy')|tauto].
  Qed.
  Lemma op_explore_once syms accs : op_explore n g s0 = Ok (syms, accs) -> NoDup accs.
  Proof using Hwf Hs0.
    unfold op_explore. rewrite tu_new_of.
    destruct (pow_iter_finish (op_step n) (op_mu n g) inv2 inv2_step (length n + 2 * g + 4) ([tu_of g s0 []], [tu_of g s0 []], [], [])) as (st & [syms' accs'] & [HI HN] & Hst & Epow).
    - split; [|repeat constructor; intros []]. cbn [inv]. split; [repeat constructor; intros []|]. split; [intros x [<-|[]]; exists s0, []; split; [constructor|reflexivity]|].
      split; [apply incl_refl|]. split; [now left|]. split; [apply le_n|]. split; [auto|]. split; intros x [].
    - cbn [op_mu length]. assert (H := all_tu_bound n g). assert (length (all_tu n g) <> 0); [|lia].
      intros E. apply length_zero_iff_nil in E. assert (In (tu_of g s0 []) (all_tu n g)) by (apply (reached_all n Hwf g s0 Hs0); exists s0, []; split; [constructor|reflexivity]).
      rewrite E in H0. destruct H0.
    - intros E. set (x := pow_iter _ _ _) in E. assert (Ex : x = Datatypes.inr (syms', accs')) by exact Epow. rewrite Ex in E. injection E as -> ->. clear Epow Ex x.
      destruct st as [[[stack reached] sy] ac]. unfold op_step in Hst. destruct stack as [|th stack]; [|destruct (fold_left op_push _ _); discriminate]. injection Hst as -> ->. exact HN.
  Qed.
End Once.
Lemma op_accs_once n tab : wf n -> op_analyse n = Ok (Some tab) -> forall s, NoDup (nth s (op_accs tab) []).
Proof.
  intros Hwf H. unfold op_analyse in H. apply bind_ok in H as (rs & Hrs & H). destruct (forallb _ _); [|discriminate]. injection H as <-. cbn [op_accs].
  assert (G : forall l rs, (forall s, In s l -> s < length n) -> mapM (op_explore n (num_capture_groups n)) l = Ok rs -> forall s, NoDup (nth s (map snd rs) [])).
  { clear rs Hrs. induction l as [|x l IH]; intros rs Hl E s; cbn [mapM] in E; [injection E as <-; destruct s; constructor|].
    apply bind_ok in E as ([a b] & E1 & E). apply bind_ok in E as (r & E2 & E). injection E as <-. destruct s as [|s]; cbn [map nth snd].
    - apply (op_explore_once n Hwf (num_capture_groups n) x (Hl x (or_introl eq_refl)) a b E1).
    - apply (IH r); [intros y Hy; apply Hl; now right|assumption]. }
  apply (G _ _) with (2 := Hrs). intros s Hs. apply in_seq in Hs. lia.
Qed.

(** ** What pruning leaves, for any reading of the atoms *)
Lemma ends_has w : has EEnd w = false -> ends w = 0.
Proof. intros H. rewrite ends_count in H. apply Nat.ltb_ge in H. lia. Qed.
Section Pruned.
  Variable chk : atom -> N -> bool.
  Hypothesis Hchk : atom_reading chk.
  Hypothesis Hsound : forall a b, atom_eqb a b = true -> forall c, chk a c = chk b c.
  Hypothesis Hread : forall a, exists c, chk a c = true.
  Lemma star_word_end (n : nfa atom) s t : star (fun s => succ_eps n not_end s ++ succ_trans n s) s t -> exists w, path chk n s w t /\ has EEnd w = false.
  Proof using Hread.
    clear Hchk Hsound.
    intros H. induction H as [x|x y z Hxy H IH].
    - exists []. split; [constructor|reflexivity].
    - destruct IH as (w & Hw & Hs). apply in_app_or in Hxy as [Hxy|Hxy].
      + apply succ_eps_In in Hxy as (e & He & Hn). exists (mark e ++ w). split; [eapply p_eps; eauto|]. rewrite has_app, Hs. destruct e; try reflexivity. discriminate.
      + apply succ_trans_In in Hxy as (a & Ha). destruct (Hread a) as (c & Hc). exists (IC c :: w). split; [eapply p_sym; eauto|exact Hs].
  Qed.
  Lemma zero_pruned_end (n n' : nfa atom) : wf n -> 1 <= length n -> zero_symbols n = Ok n' -> forall u c y, lang chk n' (u ++ IC c :: y) -> exists x, has EEnd x = false /\ lang chk n (x ++ IC c :: y).
  Proof using Hread.
    clear Hchk Hsound.
    intros Hw Hl. destruct (zero_spec chk n Hw Hl) as (n0 & E0 & T0 & _). intros E u c y Hy. rewrite E in E0. injection E0 as <-.
    unfold lang in Hy. destruct (path_split chk n' _ _ _ Hy u (IC c :: y) eq_refl) as (s & Hu & Hs).
    destruct (path_first chk n' _ _ _ Hs c y eq_refl) as (q & t & a & Hq & Ha & Hc & Hy').
    apply (thin_path chk n' n) in Hy'; [|assumption]. assert (Hql := trans_range _ _ _ Ha).
    revert E. unfold zero_symbols, nodes_after_end, nodes_before_start.
    destruct (reach_from_spec (fun s => succ_eps n not_end s ++ succ_trans n s) (length n) 0) as (ra & -> & Hal & HA).
    { lia. } { intros x z. now apply succ_all_lt. }
    destruct (reach_from_spec (pred_all n not_start) (length n) (length n - 1)) as (b & -> & Hbl & Hb).
    { lia. } { intros x z. apply pred_all_lt. }
    cbn [bind]. intros E. injection E as E.
    assert (HN : forall (r : list bool) i, i < length r -> nth i (map negb r) false = negb (nth i r false)).
    { intros r i Hi. rewrite (nth_indep _ _ (negb false)) by now rewrite map_length. apply map_nth. }
    assert (HG : forall i, get n' i =
      if nth i (map negb ra) false || nth i (map negb b) false then mkState [] (eps (get n i)) else get n i).
    { intros i. rewrite <- E.
      apply (get_enum_map n (fun i s => if nth i (map negb ra) false || nth i (map negb b) false then mkState [] (eps s) else s)).
      destruct (_ || _); reflexivity. }
    rewrite HG in Ha. destruct (nth q (map negb ra) false || nth q (map negb b) false) eqn:Eq; [destruct Ha|]. apply orb_false_iff in Eq as [Eq _].
    rewrite (proj1 T0) in Hql. rewrite HN in Eq by lia. apply negb_false_iff in Eq. apply HA in Eq.
    destruct (star_word_end n _ _ Eq) as (x & Hx & Hxs). exists x. split; [assumption|]. unfold lang. rewrite <- (proj1 T0). eapply path_app; [exact Hx|]. eapply p_sym; eauto.
  Qed.
  Lemma working_pruned_chk t n : tree_ok t -> 2 <= length (build t) -> working_new t = Ok n -> n <> [] ->
    forall u c y, lang chk n (u ++ IC c :: y) ->
      (exists x, has EStart x = false /\ padded true true (tlang chk t) (u ++ x)) /\ exists x, has EEnd x = false /\ padded true true (tlang chk t) (x ++ IC c :: y).
  Proof using Hchk Hsound Hread.
    intros Ht Hlen E Hne. unfold working_new, working_new_loop_opt in E. assert (Hok := build_ok t Ht). set (b := build t) in *.
    rewrite wfb_guard in E by (try apply Hok; lia). cbn [guard bind] in E.
    destruct (clean_start_spec chk b) as (b1 & E1 & T1 & _); [apply Hok|lia|]. rewrite E1 in E. cbn [bind] in E.
    assert (O1 : ok b1) by (eapply thin_ok; eauto).
    destruct (clean_end_spec chk b1) as (b2 & E2 & T2 & _); [apply O1|rewrite (proj1 T1); lia|]. rewrite E2 in E. cbn [bind] in E.
    assert (O2 : ok b2) by (eapply thin_ok; eauto). assert (T : thin b2 b) by (eapply thin_trans; eauto).
    change (nfa_concat [nfa_concat [any_loop; b2]; any_loop]) with (loop_back true (loop_front true b2)) in E.
    destruct (loops_ok b2 O2) as [O3 L3]; [rewrite (proj1 T); assumption|]. set (b3 := loop_back true (loop_front true b2)) in *.
    assert (HP : forall W, lang chk b3 W -> padded true true (tlang chk t) W).
    { intros W HW. apply (loops_lang chk Hchk) in HW; auto. revert HW. apply padded_ext. intros v Hv. apply build_lang; [assumption|]. eapply thin_lang; eauto. }
    unfold finalize in E. rewrite wfb_guard in E by (try apply O3; lia). cbn [guard bind] in E.
    destruct (zero_spec chk b3) as (n1 & Z1 & T3 & _); [apply O3|lia|]. assert (ZP := zero_pruned chk b3 n1 (ok_wf _ O3) ltac:(lia) (fun _ _ a _ => Hread a) Z1).
    assert (ZE := zero_pruned_end b3 n1 (ok_wf _ O3) ltac:(lia) Z1).
    rewrite Z1 in E. cbn [bind] in E. assert (O4 : ok n1) by (eapply thin_ok; eauto). assert (L4 : 2 <= length n1) by (rewrite (proj1 T3); lia).
    destruct (optimize_spec chk atom_eqb (fun _ => True) (fun a b _ _ => Hsound a b) (S (nfa_size n1)) n1 (fun _ _ _ _ => I) O4 L4) as (n2 & E3 & O5 & L5 & G2 & _ & _); [lia|].
    rewrite E3 in E. cbn [bind] in E. rewrite wfb_guard in E by (try apply O5; lia). cbn [guard bind] in E.
    destruct (remove_unreachable_spec n2) as (n3 & E4 & C1 & C2); [apply O5|lia|]. rewrite E4 in E. injection E as ->.
    intros u c y Hy. destruct (conn_dec n2) as [Hc|Hc]; [apply O5|lia| |now apply C1 in Hc].
    destruct (C2 Hc) as (_ & _ & _ & _ & _ & HL & _). apply HL, G2 in Hy. split.
    - destruct (ZP u c y Hy) as (x & Hx & Hxl). exists x. auto.
    - destruct (ZE u c y Hy) as (x & Hx & Hxl). exists x. auto.
  Qed.
  (** With the same number of anchors on every way through, no word has a character before [^] or after [$]. *)
  Lemma working_padded_chk t n : tree_ok t -> 2 <= length (build t) -> working_new t = Ok n -> n <> [] -> forall w, lang chk n w -> padded true true (tlang chk t) w.
  Proof using Hchk Hsound.
    clear Hread.
    intros Ht Hlen E Hne. unfold working_new, working_new_loop_opt in E. assert (Hok := build_ok t Ht). set (b := build t) in *.
    rewrite wfb_guard in E by (try apply Hok; lia). cbn [guard bind] in E.
    destruct (clean_start_spec chk b) as (b1 & E1 & T1 & _); [apply Hok|lia|]. rewrite E1 in E. cbn [bind] in E.
    assert (O1 : ok b1) by (eapply thin_ok; eauto).
    destruct (clean_end_spec chk b1) as (b2 & E2 & T2 & _); [apply O1|rewrite (proj1 T1); lia|]. rewrite E2 in E. cbn [bind] in E.
    assert (O2 : ok b2) by (eapply thin_ok; eauto). assert (T : thin b2 b) by (eapply thin_trans; eauto).
    change (nfa_concat [nfa_concat [any_loop; b2]; any_loop]) with (loop_back true (loop_front true b2)) in E.
    destruct (loops_ok b2 O2) as [O3 L3]; [rewrite (proj1 T); assumption|]. set (b3 := loop_back true (loop_front true b2)) in *.
    assert (HP : forall W, lang chk b3 W -> padded true true (tlang chk t) W).
    { intros W HW. apply (loops_lang chk Hchk) in HW; auto. revert HW. apply padded_ext. intros v Hv. apply build_lang; [assumption|]. eapply thin_lang; eauto. }
    unfold finalize in E. rewrite wfb_guard in E by (try apply O3; lia). cbn [guard bind] in E.
    destruct (zero_spec chk b3) as (n1 & Z1 & T3 & _); [apply O3|lia|].
    rewrite Z1 in E. cbn [bind] in E. assert (O4 : ok n1) by (eapply thin_ok; eauto). assert (L4 : 2 <= length n1) by (rewrite (proj1 T3); lia).
    destruct (optimize_spec chk atom_eqb (fun _ => True) (fun a b _ _ => Hsound a b) (S (nfa_size n1)) n1 (fun _ _ _ _ => I) O4 L4) as (n2 & E3 & O5 & L5 & G2 & _ & _); [lia|].
    rewrite E3 in E. cbn [bind] in E. rewrite wfb_guard in E by (try apply O5; lia). cbn [guard bind] in E.
    destruct (remove_unreachable_spec n2) as (n3 & E4 & C1 & C2); [apply O5|lia|]. rewrite E4 in E. injection E as ->.
    intros w Hy. destruct (conn_dec n2) as [Hc|Hc]; [apply O5|lia| |now apply C1 in Hc].
    destruct (C2 Hc) as (_ & _ & _ & _ & _ & HL & _). apply HL, G2 in Hy. apply HP. eapply thin_lang; eauto.
  Qed.
  Lemma no_char_before e k n : carets e = Some k -> working_new (tree_of e) = Ok n -> n <> [] -> forall w, lang chk n w -> forall u v, w = u ++ IM EStart :: v -> chars u = [].
  Proof using Hchk Hsound Hread.
    intros Ek En Hn w Hw u v E. destruct (chars u) as [|c0 l] eqn:Eu; [reflexivity|]. exfalso. destruct (chars_split u) as (u1 & c & u2 & ->); [congruence|].
    assert (Ew : w = u1 ++ IC c :: (u2 ++ IM EStart :: v)) by (rewrite E, <- app_assoc; reflexivity).
    assert (Hpad := working_padded_chk (tree_of e) n (tree_of_ok e) (tree_of_length e) En Hn w Hw). rewrite Ew in Hw.
    destruct (working_pruned_chk (tree_of e) n (tree_of_ok e) (tree_of_length e) En Hn u1 c _ Hw) as [(x & Hx & Hxp) _].
    apply (pad_carets chk e k _ Ek) in Hxp, Hpad. rewrite starts_app, (starts_has x Hx) in Hxp. rewrite Ew, starts_app in Hpad.
    change (IC c :: u2 ++ IM EStart :: v) with ([IC c] ++ u2 ++ [IM EStart] ++ v) in Hpad. rewrite !starts_app in Hpad. change (starts [IM EStart]) with 1 in Hpad. lia.
  Qed.
  Lemma no_char_after e k n : dollars e = Some k -> working_new (tree_of e) = Ok n -> n <> [] -> forall w, lang chk n w -> forall u v, w = u ++ IM EEnd :: v -> chars v = [].
  Proof using Hchk Hsound Hread.
    intros Ek En Hn w Hw u v E. destruct (chars v) as [|c0 l] eqn:Eu; [reflexivity|]. exfalso. destruct (chars_split v) as (v1 & c & v2 & ->); [congruence|].
    assert (Ew : w = (u ++ IM EEnd :: v1) ++ IC c :: v2) by (rewrite E, <- app_assoc; reflexivity).
    assert (Hpad := working_padded_chk (tree_of e) n (tree_of_ok e) (tree_of_length e) En Hn w Hw). rewrite Ew in Hw.
    destruct (working_pruned_chk (tree_of e) n (tree_of_ok e) (tree_of_length e) En Hn _ c v2 Hw) as [_ (x & Hx & Hxp)].
    apply (pad_dollars chk e k _ Ek) in Hxp, Hpad. rewrite ends_app, (ends_has x Hx) in Hxp. rewrite Ew in Hpad.
    change ((u ++ IM EEnd :: v1) ++ IC c :: v2) with ((u ++ [IM EEnd] ++ v1) ++ [IC c] ++ v2) in Hpad. change (IC c :: v2) with ([IC c] ++ v2) in Hxp. rewrite !ends_app in Hpad. rewrite ends_app in Hxp. change (ends [IM EEnd]) with 1 in Hpad. lia.
  Qed.
End Pruned.

(** ** ASCII automata *)
Definition low (a : atom) : bool := forallb (fun r => (snd r <? 128)%N) (to_ranges a).
Lemma combine_low ts : Forall (fun r : range => (snd r < 128)%N) ts -> forall cs ce, (ce < 128)%N -> Forall (fun r : range => (snd r < 128)%N) (combine_loop cs ce ts).
Proof.
  induction 1 as [|t ts Ht H IH]; intros cs ce Hce; cbn [combine_loop]; [constructor; [assumption|constructor]|].
  destruct (range_is_empty t); [now apply IH|]. destruct (_ || _); [apply IH; lia|]. constructor; [assumption|now apply IH].
Qed.
Lemma ascii_low a : ascii_atom a -> low a = true.
Proof.
  unfold low. destruct a as [c| |l|l]; cbn [ascii_atom]; try contradiction.
  - intros H. cbn. rewrite andb_true_r. now apply N.ltb_lt.
  - intros H. assert (F : Forall (fun r : range => (snd r < 128)%N) (flat_map term_ranges l)).
    { apply Forall_flat_map. eapply Forall_impl; [|exact H]. intros [c|x c|k] Hc; cbn; [constructor; [assumption|constructor]|constructor; [assumption|constructor]|].
      destruct k; cbn; repeat (constructor; [cbn; lia|]); constructor. }
    assert (G : Forall (fun r : range => (snd r < 128)%N) (to_ranges (MatchingList l))).
    { cbn [to_ranges]. unfold combine_ranges. assert (P := sort_perm fst (flat_map term_ranges l)). apply Permutation_sym in P || idtac.
      assert (F' : Forall (fun r : range => (snd r < 128)%N) (sort_by_key fst (flat_map term_ranges l))).
      { apply Forall_forall. intros r Hr. rewrite Forall_forall in F. apply F. eapply Permutation_in; [|exact Hr]. first [exact P|apply Permutation_sym; exact P]. }
      destruct (sort_by_key fst (flat_map term_ranges l)) as [|f ts]; [constructor|]. inversion F'; subst. now apply combine_low. }
    apply forallb_forall. intros r Hr. rewrite Forall_forall in G. apply N.ltb_lt. now apply G.
Qed.
Definition lowcheck (a : atom) (c : N) : bool := scalarb c && (negb (low a) || (c <? 128)%N).
Lemma lowcheck_eqb a b : atom_eqb a b = true -> forall c, lowcheck a c = lowcheck b c.
Proof. intros E c. unfold atom_eqb in E. apply ranges_eqb_eq in E. unfold lowcheck, low. now rewrite E. Qed.
Lemma reading_low : atom_reading lowcheck.
Proof.
  split; [|intros x y _ _; apply lowcheck_eqb]. intros c. unfold lowcheck. assert (E : low (NonmatchingList []) = false) by (vm_compute; reflexivity). rewrite E. cbn. apply andb_true_r.
Qed.
Lemma lowcheck_readable a : exists c, lowcheck a c = true.
Proof. exists 0%N. unfold lowcheck. cbn. apply orb_true_r. Qed.
Section Low.
  Lemma low_words :
    (forall p g w, part_atoms (fun a => low a = true) p -> tlang lowcheck (part_tree p g) w -> Forall (fun c => (c < 128)%N) (chars w)) /\
    (forall e g w, expr_atoms (fun a => low a = true) e -> tlang lowcheck (expr_tree e g) w -> Forall (fun c => (c < 128)%N) (chars w)) /\
    (forall b g w, branch_atoms (fun a => low a = true) b -> tlang lowcheck (TConcat (branch_trees b g)) w -> Forall (fun c => (c < 128)%N) (chars w)) /\
    (forall e g w, ere_atoms (fun a => low a = true) e -> tlang lowcheck (TUnion (ere_trees e g)) w -> Forall (fun c => (c < 128)%N) (chars w)).
  Proof.
    apply syntax_ind.
    - intros e IH g w H Hw. exact (IH g w H Hw).
    - intros e q IH g w H Hw. rewrite part_tree_quant in Hw. apply quant_lang in Hw as (n & _ & Hw).
      induction Hw as [|n u v Hu Hv IHv]; [constructor|]. rewrite chars_app. apply Forall_app. split; [exact (IH g u H Hu)|assumption].
    - intros g w _ Hw. cbv in Hw. subst w. constructor.
    - intros g w _ Hw. cbv in Hw. subst w. constructor.
    - intros a g w H (c & Hc & ->). cbn in H. unfold lowcheck in Hc. rewrite H in Hc. cbn [negb orb] in Hc. apply andb_true_iff in Hc as [_ Hc]. constructor; [now apply N.ltb_lt|constructor].
    - intros bs IH g w H Hw. rewrite expr_tree_sub in Hw. destruct Hw as (v & Hv & ->). cbn [chars]. rewrite chars_app. cbn [chars]. rewrite app_nil_r. exact (IH (S g) v H Hv).
    - intros g w _ Hw. inversion Hw; subst. constructor.
    - intros p b IHp IHb g w H Hw. rewrite branch_trees_cons in Hw. cbn in Hw. inversion Hw as [|L0 Ls u v Hu Hv]; subst. destruct H as [H1 H2]. rewrite chars_app. apply Forall_app. split; eauto.
    - intros g w _ Hw. inversion Hw.
    - intros b e IHb IHe g w H Hw. rewrite ere_trees_cons in Hw. cbn in Hw. destruct H as [H1 H2]. inversion Hw as [L0 Ls Hw'|L0 Ls Hw']; subst; eauto.
  Qed.
End Low.
Lemma count_mark (m : epsk) w : has m w = true -> exists u v, w = u ++ IM m :: v.
Proof. intros H. apply has_iff in H. now apply in_split in H. Qed.
Lemma nfa_ascii e n k l : carets e = Some k -> dollars e = Some l -> 0 < k -> 0 < l -> (forall a, In a (atoms e) -> ascii_atom a) ->
  working_new (tree_of e) = Ok n -> n <> [] -> trimmed n -> wf n -> nfa_is_ascii n = true.
Proof.
  intros Ek El Hk Hl Ha En Hn Htr Hwf. apply forallb_forall. intros st Hst. apply (In_nth _ _ empty_state) in Hst as (q & Hq & <-). change (nth q n empty_state) with (get n q).
  apply forallb_forall. intros [t a] Hta. cbn [snd]. change (low a = true). destruct (low a) eqn:Elow; [reflexivity|]. exfalso.
  assert (HR : forall s t a, In (t, a) (trans (get n s)) -> exists c, lowcheck a c = true) by (intros; apply lowcheck_readable).
  destruct (conn_path n lowcheck 0 q HR) as (u & Hu); [now apply Htr|]. assert (Ht : t < length n) by (eapply wf_trans; eauto).
  destruct (conn_path n lowcheck t (length n - 1) HR) as (y & Hy); [now apply Htr|].
  assert (Hw : lang lowcheck n (u ++ IC 200%N :: y)). { eapply path_app; [exact Hu|]. eapply p_sym; eauto. unfold lowcheck. rewrite Elow. reflexivity. }
  assert (Hpad := working_padded_chk lowcheck reading_low lowcheck_eqb (tree_of e) n (tree_of_ok e) (tree_of_length e) En Hn _ Hw).
  assert (B := no_char_before lowcheck reading_low lowcheck_eqb lowcheck_readable e k n Ek En Hn _ Hw).
  assert (A := no_char_after lowcheck reading_low lowcheck_eqb lowcheck_readable e l n El En Hn _ Hw).
  assert (Cs := pad_carets lowcheck e k _ Ek Hpad). assert (Cd := pad_dollars lowcheck e l _ El Hpad).
  destruct Hpad as (pre & v & post & E & _ & _ & _ & _ & Hv). rewrite E in A, B, Cs, Cd.
  rewrite !starts_app, !starts_chars in Cs. rewrite !ends_app, !ends_chars in Cd.
  assert (Hs : has EStart v = true) by (rewrite starts_count; apply Nat.ltb_lt; lia). assert (Hd : has EEnd v = true) by (rewrite ends_count; apply Nat.ltb_lt; lia).
  apply count_mark in Hs as (v1 & v2 & Es). apply count_mark in Hd as (v3 & v4 & Ed).
  assert (P1 : pre = []).
  { specialize (B (map IC pre ++ v1) (v2 ++ map IC post)). rewrite Es in B. rewrite <- !app_assoc in B. specialize (B eq_refl). rewrite chars_app, chars_IC in B. now apply app_eq_nil in B. }
  assert (P2 : post = []).
  { specialize (A (map IC pre ++ v3) (v4 ++ map IC post)). rewrite Ed in A. rewrite <- !app_assoc in A. specialize (A eq_refl). rewrite chars_app, chars_IC in A. now apply app_eq_nil in A. }
  subst pre post. cbn [map app] in E. rewrite app_nil_r in E. rewrite tree_of_eq in Hv. destruct Hv as (x & Hx & ->).
  assert (F := proj2 (proj2 (proj2 low_words)) e 1 x). specialize (F ltac:(apply (proj2 (proj2 (proj2 (atoms_In _)))); intros b Hb; apply ascii_low; auto) Hx).
  assert (X : chars (u ++ IC 200%N :: y) = chars x) by (rewrite E; cbn [chars]; rewrite chars_app; cbn; apply app_nil_r).
  rewrite chars_app in X. cbn [chars] in X. rewrite <- X in F. apply Forall_app in F as [_ F]. inversion F; subst. lia.
Qed.

(** ** Equal answers come from equal bounds *)
Lemma finish_one_inj T p q x : finish_one T p = Ok x -> finish_one T q = Ok x -> p = q.
Proof.
  destruct p as [[a|] [b|]], q as [[c|] [d|]]; cbn; try discriminate; repeat destruct (str_get_ok _ _ _); try discriminate; congruence.
Qed.
Lemma finish_inj T : forall b b' x, finish T b = Ok x -> finish T b' = Ok x -> b = b'.
Proof.
  unfold finish. induction b as [|p b IH]; intros [|q b'] x H H'; cbn [mapM] in *; auto.
  - apply bind_ok in H' as (y & _ & H'). apply bind_ok in H' as (z & _ & H'). congruence.
  - apply bind_ok in H as (y & _ & H). apply bind_ok in H as (z & _ & H). congruence.
  - apply bind_ok in H as (y & H1 & H). apply bind_ok in H as (z & H2 & H). apply bind_ok in H' as (y' & H1' & H'). apply bind_ok in H' as (z' & H2' & H'). injection H as <-. injection H' as -> ->.
    f_equal; [eapply finish_one_inj; eauto|eapply IH; eauto].
Qed.
Lemma last_mark_le width m : forall w i x, last_mark width m i w = Some x -> i <= x <= i + wwidth width w.
Proof.
  induction w as [|[c|e] w IH]; intros i x H; cbn [last_mark] in H; [discriminate| |].
  - apply IH in H. change (wwidth width (IC c :: w)) with (total_width width ([c] ++ chars w)). rewrite total_width_app. unfold wwidth in H. change (total_width width [c]) with (width c + 0). lia.
  - change (wwidth width (IM e :: w)) with (wwidth width w). destruct (last_mark width m i w) as [y|] eqn:E; [injection H as <-; now apply IH|]. destruct (epsk_eqb e m); [injection H as <-; lia|discriminate].
Qed.
Lemma last_mark_zero width m : forall w i, chars w = [] -> last_mark width m i w = if has m w then Some i else None.
Proof.
  intros w i Hc. destruct (has m w) eqn:E.
  - apply has_iff in E. destruct (last_mark width m i w) as [x|] eqn:El.
    + apply last_mark_le in El. unfold wwidth in El. rewrite Hc in El. cbn in El. f_equal. lia.
    + exfalso. revert El. clear Hc. revert i. induction w as [|[c|e] w IH]; intros i El; [destruct E| |]; cbn [last_mark] in El.
      * destruct E as [E|E]; [discriminate|]. now apply (IH E (i + width c)).
      * destruct (last_mark width m i w) as [y|] eqn:El2; [discriminate|]. destruct E as [E|E]; [|now apply (IH E i)]. injection E as ->.
        assert (X : epsk_eqb m m = true) by (now apply epsk_eqb_iff). rewrite X in El. discriminate.
  - apply last_mark_none. intros H. apply has_iff in H. congruence.
Qed.
(** Two ways to go on without reading that leave the same bounds, after a character, set the same captures. *)
Lemma caps_equal g U z1 z2 : (U = [] \/ exists U' c, U = U' ++ [IC c]) -> chars z1 = [] -> chars z2 = [] ->
  run_marks (fun _ => 1) 0 (U ++ z1) (no_bounds g) = run_marks (fun _ => 1) 0 (U ++ z2) (no_bounds g) -> caps_of g z1 = caps_of g z2.
Proof.
  intros HU H1 H2 E. unfold caps_of. apply map_ext_in. intros k Hk. apply in_seq in Hk. set (p := wwidth (fun _ => 1) U).
  assert (HUp : forall m x, last_mark (fun _ => 1) m 0 U = Some x -> x < p).
  { intros m x. subst p. destruct HU as [->|(U' & c & ->)]; [discriminate|]. rewrite last_mark_app. cbn [last_mark orelse]. intros H. apply last_mark_le in H. rewrite wwidth_one in H. rewrite wwidth_one, chars_app, app_length. cbn. lia. }
  assert (N : nth k (run_marks (fun _ => 1) 0 (U ++ z1) (no_bounds g)) (None, None) = nth k (run_marks (fun _ => 1) 0 (U ++ z2) (no_bounds g)) (None, None)) by (now rewrite E).
  assert (Hg : k < length (no_bounds g)) by (unfold no_bounds; rewrite repeat_length; lia).
  rewrite !nth_run_marks, nth_no_bounds in N by (assumption || lia). cbn [fst snd] in N. rewrite !last_mark_app in N. rewrite !(last_mark_zero _ _ z1), !(last_mark_zero _ _ z2) in N by assumption. fold p in N. cbn [Nat.add] in N.
  injection N as N1 N2. assert (S : forall m, orelse (orelse (if has m z1 then Some p else None) (last_mark (fun _ => 1) m 0 U)) None = orelse (orelse (if has m z2 then Some p else None) (last_mark (fun _ => 1) m 0 U)) None -> has m z1 = has m z2).
  { intros m. specialize (HUp m). destruct (has m z1), (has m z2), (last_mark (fun _ => 1) m 0 U) as [x|]; cbn [orelse]; intros Q; try reflexivity; try discriminate; injection Q as Q; specialize (HUp x eq_refl); lia. }
  f_equal; apply S; assumption.
Qed.

(** ** Words of the byte automaton *)
Lemma starts_enc w : starts (enc w) = starts w.
Proof.
  induction w as [|[c|e] w IH]; [reflexivity| |].
  - change (enc (IC c :: w)) with (map IC (encode c) ++ enc w). rewrite starts_app, starts_chars, IH. reflexivity.
  - change (enc (IM e :: w)) with ([IM e] ++ enc w). change (IM e :: w) with ([IM e] ++ w). now rewrite !starts_app, IH.
Qed.
Lemma ends_enc w : ends (enc w) = ends w.
Proof.
  induction w as [|[c|e] w IH]; [reflexivity| |].
  - change (enc (IC c :: w)) with (map IC (encode c) ++ enc w). rewrite ends_app, ends_chars, IH. reflexivity.
  - change (enc (IM e :: w)) with ([IM e] ++ enc w). change (IM e :: w) with ([IM e] ++ w). now rewrite !ends_app, IH.
Qed.
Lemma reads_longer T p i w j : reads T i w j -> has EEnd w = false -> reads (T ++ p) i w j.
Proof.
  induction 1 as [i Hi|i c w j Hc H IH|i e w j H1 H2 H IH]; intros Hn.
  - constructor. rewrite app_length. lia.
  - constructor; [rewrite nth_error_app1; [assumption|]; apply nth_error_Some; congruence|]. now apply IH.
  - change (IM e :: w) with ([IM e] ++ w) in Hn. rewrite has_app in Hn. apply orb_false_iff in Hn as [Hn1 Hn2]. constructor; [assumption| |now apply IH]. intros ->. discriminate.
Qed.
Section Even.
  Variables (s : list N) (e : ere).
  Hypothesis Hp : parse_str s = ROk e.
  Hypothesis Hs : Forall scalar s.
  Variable n : nfa atom.
  Variable m : nfa range.
  Hypothesis En : working_new (tree_of e) = Ok n.
  Hypothesis Hn : automaton_of e n.
  Hypothesis Em : u8_new n = Ok m.
  Hypothesis Hm : byte_automaton_of e m.
  Notation g := (num_capture_groups m).
  Lemma n_ne : n <> [].
  Proof using Hn. destruct Hn as (_ & Hl & _). intros E. rewrite E in Hl. cbn in Hl. clear - Hl. lia. Qed.
  Lemma m_ne : m <> [].
  Proof using Hm. destruct Hm as (_ & Hl & _). intros E. rewrite E in Hl. cbn in Hl. clear - Hl. lia. Qed.
  Lemma m_word W : lang byte_check m W -> exists w, W = enc w /\ lang anycheck n w /\ padded true true (tlang acheck (tree_of e)) w.
  Proof using Hp Hs En Hn Em Hm.
    intros HW. destruct (u8_words e n m (parsed_ok s e Hp Hs) En Hn Em m_ne W HW) as (w & -> & Hw). exists w. split; [reflexivity|]. split; [now apply path_any|].
    exact (working_padded e (parsed_ok s e Hp Hs) n En n_ne w Hw).
  Qed.
  Definition any_sound : forall a b, atom_eqb a b = true -> forall c, anycheck a c = anycheck b c := fun a b H c => eq_refl.
  Lemma m_before k W : carets e = Some k -> lang byte_check m W -> starts W = k /\ forall u v, W = u ++ IM EStart :: v -> chars u = [].
  Proof using Hp Hs En Hn Em Hm.
    intros Ek HW. destruct (m_word W HW) as (w & -> & Hw & Hpad). split; [rewrite starts_enc; exact (pad_carets acheck e k w Ek Hpad)|].
    intros u v E. apply enc_split_mark in E as (u0 & v0 & E & -> & ->). apply chars_enc_nil.
    exact (no_char_before anycheck reading_any any_sound anycheck_readable e k n Ek En n_ne w Hw u0 v0 E).
  Qed.
  Lemma m_after k W : dollars e = Some k -> lang byte_check m W -> ends W = k /\ forall u v, W = u ++ IM EEnd :: v -> chars v = [].
  Proof using Hp Hs En Hn Em Hm.
    intros Ek HW. destruct (m_word W HW) as (w & -> & Hw & Hpad). split; [rewrite ends_enc; exact (pad_dollars acheck e k w Ek Hpad)|].
    intros u v E. apply enc_split_mark in E as (u0 & v0 & E & -> & ->). apply chars_enc_nil.
    exact (no_char_after anycheck reading_any any_sound anycheck_readable e k n Ek En n_ne w Hw u0 v0 E).
  Qed.
  Lemma m_readable : forall s t r, In (t, r) (trans (get m s)) -> exists c, byte_check r c = true.
  Proof using Hm.
    destruct Hm as (_ & _ & _ & _ & _ & M6 & _). intros q t r H. exists (fst r). destruct (M6 q t r H). unfold byte_check, in_range. rewrite andb_true_iff, !N.leb_le. lia.
  Qed.
  Lemma entered_word q : q < length m -> entered m q -> exists U, path byte_check m 0 U q /\ (U = [] \/ exists U' c, U = U' ++ [IC c]).
  Proof using Hm.
    intros Hq [->|(p & a & Ha)]; [exists []; split; [constructor|now left]|]. assert (Hpl := trans_range _ _ _ Ha). destruct Hm as (_ & _ & M3 & _).
    destruct (conn_path m byte_check 0 p m_readable) as (U & HU); [now apply M3|]. destruct (m_readable _ _ _ Ha) as (c & Hc). exists (U ++ [IC c]). split; [|right; eauto].
    eapply path_app; [exact HU|]. eapply p_sym; eauto. constructor.
  Qed.
  Section Tab.
    Variable tab : op_tables.
    Hypothesis Htab : tables m tab.
    (** *** The state machine *)
    Lemma vm_ok k : carets e = Some k -> k = 0 \/ ~ occurs e [] -> vm_compiles m tab = true.
    Proof using Hp Hs En Hn Em Hm Htab.
      intros Ek Hno. unfold vm_compiles. apply forallb_forall. intros [ex accs] Hin. destruct ex; [reflexivity|]. cbn [orb]. assert (Hm' := Hm). destruct Hm' as (M1 & M2 & M3 & M4 & M5 & M6 & M7).
      apply (In_nth _ _ (true, [])) in Hin as (q & Hq & E). rewrite combine_length, (t_accs_len _ _ Htab) in Hq.
      assert (El : length (op_excluded m) = length m).
      { unfold op_excluded. rewrite fold_length; [now rewrite upd_length, repeat_length|]. intros l st. apply fold_length. intros l' t. apply upd_length. }
      rewrite combine_nth in E by (now rewrite El, (t_accs_len _ _ Htab)). injection E as E1 E2. assert (Hql : q < length m) by lia. apply op_excluded_entered in E1.
      apply forallb_forall. intros tu Htu. rewrite <- E2 in Htu. apply (t_accs _ _ Htab) in Htu as (z & Hz & ->); [|assumption]. cbn [tu_of tu_start]. destruct (has EStart z) eqn:Est; [|reflexivity]. exfalso.
      destruct (entered_word q Hql E1) as (U & HU & HUc). assert (HW : lang byte_check m (U ++ z)) by (eapply path_app; [exact HU|]; now apply zpath_path).
      assert (Hzc := zpath_chars _ _ _ _ Hz). destruct (m_before k _ Ek HW) as [Hst Hbe]. apply count_mark in Est as (z1 & z2 & Ez).
      assert (HU0 : U = []).
      { assert (X : chars (U ++ z1) = []) by (apply (Hbe (U ++ z1) z2); rewrite Ez, <- app_assoc; reflexivity). rewrite chars_app in X. apply app_eq_nil in X as [X _].
        destruct HUc as [|(U' & c & ->)]; [assumption|]. rewrite chars_app in X. apply app_eq_nil in X as [_ X]. discriminate. }
      subst U. cbn [app] in *. destruct Hno as [->|Hno].
      - rewrite Ez, starts_app in Hst. change (IM EStart :: z2) with ([IM EStart] ++ z2) in Hst. rewrite starts_app in Hst. change (starts [IM EStart]) with 1 in Hst. lia.
      - apply Hno. apply (byte_occurs e m [] Hm ltac:(constructor)). exists z. split; [assumption|]. change (utf8 []) with (@nil N). apply reads_whole. split; [assumption|]. split; intros u v Ev.
        + subst z. rewrite Ev in Hzc. rewrite chars_app in Hzc. now apply app_eq_nil in Hzc.
        + rewrite Ev, chars_app in Hzc. now apply app_eq_nil in Hzc as [_ Hzc].
    Qed.
    (** *** Nested functions *)
    Lemma accs_ok k l : carets e = Some k -> dollars e = Some l -> one_answer e -> op_analyse m = Ok (Some tab) -> forall q, q < length m -> entered m q -> length (nth q (op_accs tab) []) <= 1.
    Proof using Hp Hs En Hn Em Hm Htab.
      intros Ek El Hone Etab q Hq Hent. assert (Hm' := Hm). destruct Hm' as (M1 & M2 & M3 & M4 & M5 & M6 & M7). assert (Hnd := op_accs_once m tab (ok_wf _ M1) Etab q).
      assert (HA := fun tu => t_accs _ _ Htab q tu Hq). destruct (nth q (op_accs tab) []) as [|a [|b r]]; cbn [length]; [lia|lia|]. exfalso.
      destruct (proj1 (HA a) (or_introl eq_refl)) as (z1 & Z1 & Ea). destruct (proj1 (HA b) (or_intror (or_introl eq_refl))) as (z2 & Z2 & Eb).
      inversion Hnd as [|? ? Hni _]; subst. apply Hni. left. symmetry. clear Hni Hnd HA.
      destruct (entered_word q Hq Hent) as (U & HU & HUc).
      assert (W1 : lang byte_check m (U ++ z1)) by (eapply path_app; [exact HU|]; now apply zpath_path). assert (W2 : lang byte_check m (U ++ z2)) by (eapply path_app; [exact HU|]; now apply zpath_path).
      assert (C1 := zpath_chars _ _ _ _ Z1). assert (C2 := zpath_chars _ _ _ _ Z2).
      destruct (m_before k _ Ek W1) as [S1 B1], (m_before k _ Ek W2) as [S2 B2], (m_after l _ El W1) as [D1 A1], (m_after l _ El W2) as [D2 A2].
      assert (Hsame : chars (U ++ z1) = chars (U ++ z2)) by (rewrite !chars_app; congruence).
      assert (R1 : reads (chars (U ++ z1)) 0 (U ++ z1) (length (chars (U ++ z1)))) by (apply reads_whole; split; [reflexivity|split; assumption]).
      assert (R2 : reads (chars (U ++ z1)) 0 (U ++ z2) (length (chars (U ++ z1)))) by (rewrite Hsame; apply reads_whole; split; [reflexivity|split; assumption]).
      destruct (m_word _ W1) as (w1 & Ew1 & _ & P1). assert (HT : Forall scalar (chars w1)).
      { destruct P1 as (pre & v & post & -> & P1 & P2 & _ & _ & P3). rewrite !chars_app, !chars_IC. apply Forall_app. split; [assumption|]. apply Forall_app. split; [|assumption].
        eapply tlang_scalar; eauto. }
      assert (ET : chars (U ++ z1) = utf8 (chars w1)) by (rewrite Ew1; apply chars_enc). rewrite ET in R1, R2.
      destruct (proj1 (M4 (chars w1) (U ++ z1) HT) (conj W1 R1)) as (v1 & Acc1 & Ev1). destruct (proj1 (M4 (chars w1) (U ++ z2) HT) (conj W2 R2)) as (v2 & Acc2 & Ev2).
      destruct (accepted_matches _ e v1 Acc1) as (i & j & L & Hma & HL). destruct (accepted_matches _ e v2 Acc2) as (i' & j' & L' & Hma' & HL').
      assert (Eb : run_marks (fun _ => 1) 0 (U ++ z1) (no_bounds g) = run_marks (fun _ => 1) 0 (U ++ z2) (no_bounds g)).
      { rewrite Ev1, Ev2, !run_marks_enc. eapply finish_inj; [apply HL|]. rewrite HL'. f_equal. apply map_ext. intros x. symmetry. eapply Hone; eauto. }
      unfold tu_of. rewrite (caps_equal g U z1 z2 HUc C1 C2 Eb). rewrite !starts_app in S1, S2. rewrite !ends_app in D1, D2. f_equal.
      - rewrite !starts_count. f_equal. lia.
      - rewrite !ends_count. f_equal. lia.
    Qed.
  End Tab.
  (** *** An automaton with a way through that can be lengthened has a cycle *)
  Lemma path_rank rk q w t : (forall x y, x < length m -> arrow m x y -> rk x < rk y) -> path byte_check m q w t -> q < length m -> rk q + length (chars w) <= rk t.
  Proof using Hm.
    destruct Hm as (M1 & _). intros Hr H. induction H as [q|q t k w u Hk H IH|q t a c w u Ha Hc H IH]; intros Hq; cbn; [lia| |].
    - rewrite chars_app, chars_mark. cbn. assert (t < length m) by (eapply wf_eps; [apply M1|eassumption]). assert (rk q < rk t) by (apply Hr; [assumption|left; eauto]). specialize (IH ltac:(assumption)). lia.
    - assert (t < length m) by (eapply wf_trans; [apply M1|eassumption]). assert (rk q < rk t) by (apply Hr; [assumption|right; eauto]). specialize (IH ltac:(assumption)). lia.
  Qed.
  Lemma long_word T k : Forall scalar T -> occurs e T -> carets e = Some 0 \/ dollars e = Some 0 -> exists W, lang byte_check m W /\ k <= length (chars W).
  Proof using Hm.
    intros HT Ho Hz. apply (occurs_iff T HT) in Ho as (W & Hpad & Hr). set (p := repeat 97%N k). assert (Hps : Forall scalar p) by (apply Forall_forall; intros x Hx; apply repeat_spec in Hx; subst x; reflexivity).
    assert (G : exists T' W', Forall scalar T' /\ accepted T' e W' /\ k <= length T').
    { assert (Hpad' := Hpad). destruct Hpad' as (pre & v & post & E & P1 & P2 & _ & _ & P3). destruct Hz as [Hz|Hz].
      - exists (p ++ T), (map IC p ++ W). split; [apply Forall_app; auto|]. split; [|rewrite app_length; unfold p; rewrite repeat_length; lia]. split.
        + exists (p ++ pre), v, post. rewrite E, map_app, <- app_assoc. split; [reflexivity|]. split; [apply Forall_app; auto|]. split; [assumption|]. split; [discriminate|]. split; [discriminate|assumption].
        + apply reads_app. exists (length p). split.
          * apply (reads_IC (p ++ T) 0 p); [|rewrite app_length; lia]. cbn [skipn]. rewrite firstn_app, Nat.sub_diag, firstn_all. cbn. apply app_nil_r.
          * assert (Hs0 := pad_carets acheck e 0 W Hz Hpad). assert (X := reads_shift T 0 W (length T) Hr). cbn [skipn] in X. rewrite Nat.sub_0_r in X. rewrite app_length. apply X.
            intros Hi. apply has_iff in Hi. rewrite starts_count, Hs0 in Hi. discriminate.
      - exists (T ++ p), (W ++ map IC p). split; [apply Forall_app; auto|]. split; [|rewrite app_length; unfold p; rewrite repeat_length; lia]. split.
        + exists pre, v, (post ++ p). rewrite E, map_app, <- !app_assoc. split; [reflexivity|]. split; [assumption|]. split; [apply Forall_app; auto|]. split; [discriminate|]. split; [discriminate|assumption].
        + apply reads_app. exists (length T). split.
          * apply reads_longer; [assumption|]. assert (Hs0 := pad_dollars acheck e 0 W Hz Hpad). rewrite ends_count, Hs0. reflexivity.
          * rewrite app_length. apply reads_IC; [|rewrite app_length; lia]. rewrite skipn_app, skipn_all, Nat.sub_diag. cbn. apply firstn_all. }
    destruct G as (T' & W' & HT' & Ha & Hk). destruct Hm as (_ & _ & _ & M4 & _). destruct (proj2 (M4 T' (enc W') HT') (ex_intro _ W' (conj Ha eq_refl))) as [H1 _]. exists (enc W'). split; [assumption|].
    rewrite chars_enc. destruct Ha as [_ Ha]. apply reads_whole in Ha as [-> _]. eapply Nat.le_trans; [exact Hk|]. clear. unfold utf8. induction T' as [|c T IH]; cbn; [lia|]. rewrite app_length.
    destruct (encode c) eqn:Ec; [now apply encode_nonempty in Ec|]. cbn. lia.
  Qed.
  Lemma one_pass_ok T k : carets e = Some k -> Forall scalar T -> occurs e T -> k = 0 \/ (~ occurs e [] /\ (dollars e = Some 0 \/ exists l, dollars e = Some l /\ one_answer e)) ->
    exists o, op_make m = Ok o.
  Proof using Hp Hs En Hn Em Hm.
    intros Ek HT Ho Hc. assert (Hm' := Hm). destruct Hm' as (M1 & M2 & M3 & M4 & M5 & M6 & M7).
    unfold op_make. rewrite (proj2 (wfb_iff m) (ok_wf _ M1)), (wfb_tags_ok m M5). cbn [andb guard bind].
    destruct (op_analyse_spec m (ok_wf _ M1) M6) as (o & Eo & Htab). rewrite Eo. cbn [bind]. destruct o as [tab|]; [|eauto].
    destruct (topological_spec m) as (o & -> & Hto); [now apply closed_wf, ok_wf|lia|]. cbn [bind]. destruct o as [ord|].
    - destruct Hto as (P & Hord & Hfrom & _). destruct (ranked m ord P Hord) as [K1 K2].
      assert (NC : ~ (carets e = Some 0 \/ dollars e = Some 0)).
      { intros Hz. destruct (long_word T (length m) HT Ho Hz) as (W & HW & Hlen). assert (X := path_rank (fun x => idx x ord) 0 W _ K2 HW ltac:(lia)). specialize (K1 (length m - 1) ltac:(lia)). cbn in X. lia. }
      destruct Hc as [->|[_ [Hd|(l & El & Hone)]]]; [exfalso; tauto|exfalso; tauto|].
      destruct (fun_compiles_spec m M1 ltac:(lia) M5 tab Htab (fun x => idx x ord) K1 K2 Hfrom) as (runs & -> & Hf). cbn [bind].
      rewrite Hf; [eauto|]. intros q Hq Hent. eapply accs_ok; eauto.
    - rewrite (vm_ok tab Htab k Ek); [eauto|]. destruct Hc as [Hc|[Hc _]]; auto.
  Qed.
End Even.

(** ** The default macro compiles *)
Theorem anchors_compile s e T k : parse_str s = ROk e -> Forall scalar s -> carets e = Some k ->
  (forall a, In a (atoms e) -> named_well a) \/ (0 < k /\ (exists l, dollars e = Some l /\ 0 < l) /\ forall a, In a (atoms e) -> ascii_atom a) ->
  Forall scalar T -> occurs e T -> k = 0 \/ (~ occurs e [] /\ (dollars e = Some 0 \/ exists l, dollars e = Some l /\ one_answer e)) ->
  exists en, compile_regex s = Ok en.
Proof.
  intros Hp Hs Ek Hat HT Ho Hc. destruct (parsed_automata s e Hp Hs T HT Ho) as (n & m & En & Hn & Hg & Em & Hb).
  unfold compile_regex. rewrite (parsed_with_ere s e _ Hp). unfold pick_engine, pick_base_engine. rewrite En. cbn [bind]. rewrite Em. cbn [bind].
  destruct (one_pass_ok s e Hp Hs n m En Hn Em Hb T k Ek HT Ho Hc) as (o & ->). cbn [bind]. assert (Hb' := Hb). destruct Hb' as (M1 & M2 & M3 & M4 & M5 & M6 & M7).
  destruct o as [op|]; [now apply (fixed_ok e)|].
  destruct (tdfa_from_nfa_spec m (ok_wf _ M1) ltac:(lia) (default_bound (length m))) as (o & Eo & Hto). rewrite Eo. cbn [bind]. destruct o as [d|].
  - destruct (dfa_engine_late m _ d [] (ok_wf _ M1) ltac:(lia) Eo ltac:(constructor)) as [(x & Ex & _) _]. unfold make_dfa. rewrite Ex. cbn [bind]. now apply (fixed_ok e).
  - destruct (nfa_is_ascii n) eqn:Ea.
    + unfold make_flat_u8. destruct (flat_make_spec m (ok_wf _ M1) ltac:(lia) M5) as (tbl & -> & _). cbn [bind]. now apply (fixed_ok e).
    + destruct Hat as [Hat|(H0 & (l & El & H1) & Hat)].
      * unfold make_flat. destruct Hn as (N1 & N2 & _). destruct (flat_make_spec n (ok_wf _ N1) ltac:(lia) Hg) as (tbl & -> & _). cbn [bind].
        rewrite (working_compiles e n (parsed_ok s e Hp Hs) Hat En). cbn [bind]. now apply (fixed_ok e).
      * exfalso. assert (Hne : n <> []) by (intros ->; destruct Hn as (_ & Hl & _); cbn in Hl; lia). destruct Hn as (N1 & _ & N3 & _).
        rewrite (nfa_ascii e n k l Ek El H0 H1 Hat En Hne N3 (ok_wf _ N1)) in Ea. discriminate.
Qed.
