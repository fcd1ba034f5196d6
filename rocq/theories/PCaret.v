(** A [^] after the last character: words of the automata of patterns that meet [caret_ok]. *)
From Verif Require Export SpecCaret PDfaRun.
From Coq Require Import ZifyBool ZifyNat ZifyN.
Open Scope nat_scope.
Open Scope list_scope.
Set Default Proof Using "Type".

Definition starts (w : word) : nat := length (filter (fun i => match i with IM EStart => true | _ => false end) w).
Lemma starts_app u v : starts (u ++ v) = starts u + starts v.
Proof. unfold starts. now rewrite filter_app, app_length. Qed.
Lemma starts_chars l : starts (map IC l) = 0.
Proof. induction l; cbn; auto. Qed.
Lemma starts_has w : has EStart w = false -> starts w = 0.
Proof.
  induction w as [|[c|e] w IH]; [reflexivity|cbn; auto|]. intros H. change (IM e :: w) with ([IM e] ++ w) in *. rewrite has_app in H. apply orb_false_iff in H as [H1 H2].
  rewrite starts_app, IH by assumption. destruct e; try reflexivity. discriminate H1.
Qed.
Definition settled (w : word) : Prop := forall u v, w = u ++ IM EStart :: v -> chars v = [] -> chars u = [].

Lemma app_split_mid {A} (w1 w2 u v : list A) x : w1 ++ w2 = u ++ x :: v ->
  (exists l, w1 = u ++ x :: l /\ v = l ++ w2) \/ (exists l, u = w1 ++ l /\ w2 = l ++ x :: v).
Proof.
  revert u. induction w1 as [|y w1 IH]; intros u E; cbn in E.
  - right. exists u. auto.
  - destruct u as [|z u]; cbn in E.
    + injection E as -> <-. left. exists w1. auto.
    + injection E as -> E. apply IH in E as [(l & -> & ->)|(l & -> & ->)]; [left|right]; exists l; auto.
Qed.

Section Words.
  Variable chk : atom -> N -> bool.
  Lemma opt_eqb_iff a b : opt_eqb a b = true <-> a = b.
  Proof. destruct a as [x|], b as [y|]; cbn; rewrite ?Nat.eqb_eq; intuition congruence. Qed.
  Lemma common_cons x l k : common (x :: l) = Some k -> x = Some k /\ (l = [] \/ common l = Some k).
  Proof.
    cbn [common]. destruct (forallb (opt_eqb x) l) eqn:E; [|discriminate]. intros ->. split; [reflexivity|]. destruct l as [|y l]; [now left|right].
    rewrite forallb_forall in E. assert (Ey : Some k = y) by (apply opt_eqb_iff, E; now left). subst y. cbn [common].
    assert (F : forallb (opt_eqb (Some k)) l = true) by (apply forallb_forall; intros z Hz; apply E; now right). now rewrite F.
  Qed.
  Lemma carets_words :
    (forall p g k w, carets_part p = Some k -> tlang chk (part_tree p g) w -> starts w = k) /\
    (forall e g k w, carets_expr e = Some k -> tlang chk (expr_tree e g) w -> starts w = k) /\
    (forall b g k w, carets_branch b = Some k -> tlang chk (TConcat (branch_trees b g)) w -> starts w = k) /\
    (forall e g k w, carets e = Some k -> tlang chk (TUnion (ere_trees e g)) w -> starts w = k).
  Proof.
    apply syntax_ind.
    - intros e IH g k w Hk Hw. exact (IH g k w Hk Hw).
    - intros e q IH g k w Hk Hw. cbn [carets_part] in Hk. destruct (carets_expr e) as [[|j]|] eqn:E; try discriminate. injection Hk as <-.
      rewrite part_tree_quant in Hw. apply quant_lang in Hw as (n & _ & Hw).
      induction Hw as [|n u v Hu Hv IHv]; [reflexivity|]. rewrite starts_app, IHv. rewrite (IH g 0 u eq_refl Hu). reflexivity.
    - intros g k w Hk Hw. cbn in Hk. injection Hk as <-. cbv in Hw. subst w. reflexivity.
    - intros g k w Hk Hw. cbn in Hk. injection Hk as <-. cbv in Hw. subst w. reflexivity.
    - intros a g k w Hk Hw. cbn in Hk. injection Hk as <-. destruct Hw as (c & _ & ->). reflexivity.
    - intros bs IH g k w Hk Hw. rewrite expr_tree_sub in Hw. destruct Hw as (v & Hv & ->). change (IM (ESC g) :: v ++ [IM (EEC g)]) with ([IM (ESC g)] ++ v ++ [IM (EEC g)]).
      rewrite !starts_app. cbn [starts filter length]. rewrite (IH (S g) k v Hk Hv). unfold starts. cbn. lia.
    - intros g k w Hk Hw. inversion Hw; subst. cbn in Hk. injection Hk as <-. reflexivity.
    - intros p b IHp IHb g k w Hk Hw. rewrite branch_trees_cons in Hw. cbn in Hw. inversion Hw as [|L0 Ls u v Hu Hv]; subst.
      unfold carets_branch in Hk. cbn [map total fold_right] in Hk. destruct (carets_part p) as [x|] eqn:E1; [|discriminate].
      destruct (carets_branch b) as [y|] eqn:E2; unfold carets_branch, total in E2; rewrite E2 in Hk; [|discriminate]. injection Hk as <-.
      rewrite starts_app. rewrite (IHp g x u eq_refl Hu), (IHb (g + groups_part p) y v eq_refl Hv). reflexivity.
    - intros g k w Hk Hw. inversion Hw.
    - intros b e IHb IHe g k w Hk Hw. rewrite ere_trees_cons in Hw. cbn in Hw. unfold carets in Hk. cbn [map] in Hk. apply common_cons in Hk as [H1 H2]. inversion Hw as [L0 Ls Hw'|L0 Ls Hw']; subst.
      + exact (IHb g k w H1 Hw').
      + destruct H2 as [H2|H2]; [destruct e; [|discriminate]; inversion Hw'|]. exact (IHe _ k w H2 Hw').
  Qed.
  Lemma consumes_words :
    (forall p g w, consumes_part p = true -> tlang chk (part_tree p g) w -> chars w <> []) /\
    (forall e g w, consumes_expr e = true -> tlang chk (expr_tree e g) w -> chars w <> []) /\
    (forall b g w, existsb consumes_part b = true -> tlang chk (TConcat (branch_trees b g)) w -> chars w <> []) /\
    (forall e g w, forallb (existsb consumes_part) e = true -> tlang chk (TUnion (ere_trees e g)) w -> chars w <> []).
  Proof.
    apply syntax_ind.
    - intros e IH g w H Hw. exact (IH g w H Hw).
    - intros e q IH g w H Hw. cbn [consumes_part] in H. apply andb_true_iff in H as [Hq He].
      rewrite part_tree_quant in Hw. apply quant_lang in Hw as (n & Hn & Hw).
      assert (Hpos : 1 <= n). { destruct (q_type q) as [ | | |m|m [b|]]; cbn [at_least_once quant_allows] in *; try discriminate; lia. }
      destruct Hw as [|n u v Hu Hv]; [lia|]. rewrite chars_app. intros E. apply app_eq_nil in E as [E _]. exact (IH g u He Hu E).
    - discriminate.
    - discriminate.
    - intros a g w _ (c & _ & ->). discriminate.
    - intros bs IH g w H Hw. rewrite expr_tree_sub in Hw. destruct Hw as (v & Hv & ->). cbn [chars]. rewrite chars_app. cbn [chars]. rewrite app_nil_r. exact (IH (S g) v H Hv).
    - discriminate.
    - intros p b IHp IHb g w H Hw. rewrite branch_trees_cons in Hw. cbn in Hw. inversion Hw as [|L0 Ls u v Hu Hv]; subst. cbn [existsb] in H. rewrite chars_app. intros E. apply app_eq_nil in E as [E1 E2].
      apply orb_true_iff in H as [H|H]; [exact (IHp g u H Hu E1)|exact (IHb _ v H Hv E2)].
    - intros g w H Hw. inversion Hw.
    - intros b e IHb IHe g w H Hw. rewrite ere_trees_cons in Hw. cbn in Hw. cbn [forallb] in H. apply andb_true_iff in H as [H1 H2]. inversion Hw as [L0 Ls Hw'|L0 Ls Hw']; subst; eauto.
  Qed.
  (** After every [^] of the word comes a character, in the word or later. *)
  Definition led_word (ne : bool) (w : word) : Prop := forall u v, w = u ++ IM EStart :: v -> chars v = [] -> ne = true.
  Lemma led_app ne w1 w2 : led_word ((if chars w2 then false else true) || ne) w1 -> led_word ne w2 -> led_word ne (w1 ++ w2).
  Proof.
    intros H1 H2 u v E Ev. apply app_split_mid in E as [(l & E1 & E2)|(l & E1 & E2)].
    - subst v. rewrite chars_app in Ev. apply app_eq_nil in Ev as [Ev1 Ev2]. specialize (H1 u l E1 Ev1). rewrite Ev2 in H1. exact H1.
    - exact (H2 l v E2 Ev).
  Qed.
  Lemma led_expr_sub bs ne : led_expr (XSub bs) ne = forallb (fun b => led_branch b ne) bs.
  Proof.
    cbn [led_expr]. induction bs as [|b bs IH]; [reflexivity|]. cbn [forallb]. rewrite IH. f_equal. clear IH.
    induction b as [|p b IH]; [reflexivity|]. cbn [led_branch]. now rewrite IH.
  Qed.
  Lemma led_words :
    (forall p g ne w, led_part p ne = true -> tlang chk (part_tree p g) w -> led_word ne w) /\
    (forall e g ne w, led_expr e ne = true -> tlang chk (expr_tree e g) w -> led_word ne w) /\
    (forall b g ne w, led_branch b ne = true -> tlang chk (TConcat (branch_trees b g)) w -> led_word ne w) /\
    (forall e g ne w, forallb (fun b => led_branch b ne) e = true -> tlang chk (TUnion (ere_trees e g)) w -> led_word ne w).
  Proof.
    apply syntax_ind.
    - intros e IH g ne w H Hw. exact (IH g ne w H Hw).
    - intros e q IH g ne w H Hw. cbn [led_part] in H. rewrite part_tree_quant in Hw. apply quant_lang in Hw as (n & _ & Hw).
      induction Hw as [|n u v Hu Hv IHv]; [intros [|] ? E; discriminate|]. apply led_app; [|assumption].
      intros x y E Ey. rewrite (IH g ne u H Hu x y E Ey). apply orb_true_r.
    - intros g ne w H Hw. cbv in Hw. subst w. intros u v _ _. exact H.
    - intros g ne w H Hw. cbv in Hw. subst w. intros [|? [|]] v E; discriminate.
    - intros a g ne w _ (c & _ & ->). intros [|? [|]] v E; discriminate.
    - intros bs IH g ne w H Hw. rewrite expr_tree_sub in Hw. destruct Hw as (v & Hv & ->).
      assert (H' : forallb (fun b => led_branch b ne) bs = true) by (now rewrite <- led_expr_sub).
      change (IM (ESC g) :: v ++ [IM (EEC g)]) with ([IM (ESC g)] ++ v ++ [IM (EEC g)]).
      apply led_app; [intros [|? [|]] ? E; discriminate|]. apply led_app; [|intros [|? [|]] ? E; discriminate]. exact (IH (S g) ne v H' Hv).
    - intros g ne w _ Hw. inversion Hw; subst. intros [|] ? E; discriminate.
    - intros p b IHp IHb g ne w H Hw. rewrite branch_trees_cons in Hw. cbn in Hw. inversion Hw as [|L0 Ls u v Hu Hv]; subst. cbn [led_branch] in H. apply andb_true_iff in H as [H1 H2].
      apply led_app; [|exact (IHb _ ne v H2 Hv)]. intros x y E Ey. assert (G := IHp g _ u H1 Hu x y E Ey). apply orb_true_iff in G as [G|G]; [|now rewrite G, orb_true_r].
      destruct (chars v) as [|c l] eqn:Ec; [|reflexivity]. exfalso. exact (proj1 (proj2 (proj2 consumes_words)) b _ v G Hv Ec).
    - intros g ne w _ Hw. inversion Hw.
    - intros b e IHb IHe g ne w H Hw. rewrite ere_trees_cons in Hw. cbn in Hw. cbn [forallb] in H. apply andb_true_iff in H as [H1 H2]. inversion Hw as [L0 Ls Hw'|L0 Ls Hw']; subst; eauto.
  Qed.
  Lemma pad_led e w : led e = true -> padded true true (tlang chk (tree_of e)) w -> led_word false w.
  Proof.
    intros He (pre & v & post & -> & _ & _ & _ & _ & Hv). rewrite tree_of_eq in Hv. destruct Hv as (x & Hx & ->).
    assert (Hnc : forall l ne, led_word ne (map IC l)) by (intros l ne u y E; exfalso; assert (Hi : In (IM EStart) (map IC l)) by (rewrite E; apply in_or_app; right; now left); apply in_map_iff in Hi as (? & ? & _); discriminate).
    apply led_app; [apply Hnc|]. apply led_app; [|apply Hnc]. change (IM (ESC 0) :: x ++ [IM (EEC 0)]) with ([IM (ESC 0)] ++ x ++ [IM (EEC 0)]).
    apply led_app; [intros [|? [|]] ? E; discriminate|]. apply led_app; [|intros [|? [|]] ? E; discriminate].
    intros a b Ea Eb. exfalso. assert (G := proj2 (proj2 (proj2 led_words)) e 1 false x He Hx a b Ea Eb). discriminate.
  Qed.
  Lemma pad_carets e k w : carets e = Some k -> padded true true (tlang chk (tree_of e)) w -> starts w = k.
  Proof.
    intros He (pre & v & post & -> & _ & _ & _ & _ & Hv). rewrite tree_of_eq in Hv. destruct Hv as (x & Hx & ->).
    change (IM (ESC 0) :: x ++ [IM (EEC 0)]) with ([IM (ESC 0)] ++ x ++ [IM (EEC 0)]). rewrite !starts_app, !starts_chars.
    rewrite (proj2 (proj2 (proj2 carets_words)) e 1 k x He Hx). unfold starts. cbn. lia.
  Qed.
End Words.

(** ** What pruning leaves: a character is only read where a way to the end without [^] remains *)
Section Pruned.
  Context {A : Type}.
  Variable check : A -> N -> bool.
  Lemma path_first (n : nfa A) s w z : path check n s w z -> forall c y, w = IC c :: y ->
    exists q t a, path check n s [] q /\ In (t, a) (trans (get n q)) /\ check a c = true /\ path check n t y z.
  Proof.
    induction 1 as [s|s t e w u He Hp IH|s t a c w u He Hc Hp IH]; intros d y E; [discriminate| |].
    - destruct e; try discriminate. cbn [mark app] in E. destruct (IH d y E) as (q & t' & a & H1 & H2). exists q, t', a. split; [|exact H2].
      apply (p_eps check n s t ENone [] q He H1).
    - injection E as -> ->. exists s, t, a. split; [constructor|auto].
  Qed.
  Lemma star_word (n : nfa A) s t : (forall s t a, In (t, a) (trans (get n s)) -> exists c, check a c = true) ->
    star (fun s => succ_eps n not_start s ++ succ_trans n s) s t -> exists w, path check n s w t /\ has EStart w = false.
  Proof.
    intros HR H. induction H as [x|x y z Hxy H IH].
    - exists []. split; [constructor|reflexivity].
    - destruct IH as (w & Hw & Hs). apply in_app_or in Hxy as [Hxy|Hxy].
      + apply succ_eps_In in Hxy as (e & He & Hn). exists (mark e ++ w). split; [eapply p_eps; eauto|]. rewrite has_app, Hs. destruct e; try reflexivity. discriminate.
      + apply succ_trans_In in Hxy as (a & Ha). destruct (HR _ _ _ Ha) as (c & Hc). exists (IC c :: w). split; [eapply p_sym; eauto|exact Hs].
  Qed.
  Lemma zero_pruned (n n' : nfa A) : wf n -> 1 <= length n -> (forall s t a, In (t, a) (trans (get n s)) -> exists c, check a c = true) ->
    zero_symbols n = Ok n' -> forall u c y, lang check n' (u ++ IC c :: y) -> exists x, has EStart x = false /\ lang check n (u ++ x).
  Proof.
    intros Hw Hl HR. destruct (zero_spec check n Hw Hl) as (n0 & E0 & T0 & _). intros E u c y Hy. rewrite E in E0. injection E0 as <-.
    unfold lang in Hy. destruct (path_split check n' _ _ _ Hy u (IC c :: y) eq_refl) as (s & Hu & Hs).
    destruct (path_first n' _ _ _ Hs c y eq_refl) as (q & t & a & Hq & Ha & _). assert (Hq' : path check n' 0 u q) by (rewrite <- (app_nil_r u); eapply path_app; eauto).
    apply (thin_path check n' n) in Hq'; [|assumption]. assert (Hql := trans_range _ _ _ Ha).
    revert E. unfold zero_symbols, nodes_after_end, nodes_before_start.
    destruct (reach_from_spec (fun s => succ_eps n not_end s ++ succ_trans n s) (length n) 0) as (ra & -> & Hal & _).
    { lia. } { intros x z. now apply succ_all_lt. }
    destruct (reach_from_spec (pred_all n not_start) (length n) (length n - 1)) as (b & -> & Hbl & Hb).
    { lia. } { intros x z. apply pred_all_lt. }
    cbn [bind]. intros E. injection E as E.
    assert (HN : forall (r : list bool) i, i < length r -> nth i (map negb r) false = negb (nth i r false)).
    { intros r i Hi. rewrite (nth_indep _ _ (negb false)) by now rewrite map_length. apply map_nth. }
    assert (HG : forall i, get n' i =
      if nth i (map negb ra) false || nth i (map negb b) false then mkState [] (eps (get n i)) else get n i).
    { intros i. rewrite <- E.
      apply (get_enum_map n (fun i s => if nth i (map negb ra) false || nth i (map negb b) false then mkState [] (eps s) else s)).
      destruct (_ || _); reflexivity. }
    rewrite HG in Ha. destruct (nth q (map negb ra) false || nth q (map negb b) false) eqn:Eq; [destruct Ha|]. apply orb_false_iff in Eq as [_ Eq].
    rewrite (proj1 T0) in Hql. rewrite HN in Eq by lia. apply negb_false_iff in Eq. apply Hb in Eq.
    rewrite <- (star_rev (fun s => succ_eps n not_start s ++ succ_trans n s)) in Eq by (intros; symmetry; apply pred_all_In).
    destruct (star_word n _ _ HR Eq) as (x & Hx & Hxs). exists x. split; [assumption|]. eapply path_app; eauto.
  Qed.
End Pruned.

Lemma loops_ok b2 : ok b2 -> 2 <= length b2 -> ok (loop_back true (loop_front true b2)) /\ 2 <= length (loop_back true (loop_front true b2)).
Proof.
  intros O2 L2. assert (HF := loop_front_ok true b2 O2). split; [now apply loop_back_ok|].
  assert (E1 : 2 <= length (loop_front true b2)).
  { unfold loop_front. rewrite nfa_concat_length; [lia|]. repeat (apply Forall_cons || apply Forall_nil); [apply any_loop_ok|apply O2]. }
  unfold loop_back. rewrite nfa_concat_length; [lia|]. repeat (apply Forall_cons || apply Forall_nil); [apply HF|apply any_loop_ok].
Qed.
(** The words of the automaton of a tree, with atoms read as any character. *)
Lemma working_pruned t n : tree_ok t -> 2 <= length (build t) -> working_new t = Ok n -> n <> [] ->
  forall u c y, lang anycheck n (u ++ IC c :: y) -> exists x, has EStart x = false /\ padded true true (tlang anycheck t) (u ++ x).
Proof.
  intros Ht Hlen E Hne. unfold working_new, working_new_loop_opt in E. assert (Hok := build_ok t Ht). set (b := build t) in *.
  rewrite wfb_guard in E by (try apply Hok; lia). cbn [guard bind] in E.
  destruct (clean_start_spec anycheck b) as (b1 & E1 & T1 & _); [apply Hok|lia|]. rewrite E1 in E. cbn [bind] in E.
  assert (O1 : ok b1) by (eapply thin_ok; eauto).
  destruct (clean_end_spec anycheck b1) as (b2 & E2 & T2 & _); [apply O1|rewrite (proj1 T1); lia|]. rewrite E2 in E. cbn [bind] in E.
  assert (O2 : ok b2) by (eapply thin_ok; eauto). assert (T : thin b2 b) by (eapply thin_trans; eauto).
  change (nfa_concat [nfa_concat [any_loop; b2]; any_loop]) with (loop_back true (loop_front true b2)) in E.
  destruct (loops_ok b2 O2) as [O3 L3]; [rewrite (proj1 T); assumption|]. set (b3 := loop_back true (loop_front true b2)) in *.
  assert (HP : forall W, lang anycheck b3 W -> padded true true (tlang anycheck t) W).
  { intros W HW. apply (loops_lang anycheck reading_any) in HW; auto. revert HW. apply padded_ext. intros v Hv. apply build_lang; [assumption|]. eapply thin_lang; eauto. }
  unfold finalize in E. rewrite wfb_guard in E by (try apply O3; lia). cbn [guard bind] in E.
  destruct (zero_spec anycheck b3) as (n1 & Z1 & T3 & _); [apply O3|lia|]. assert (ZP := zero_pruned anycheck b3 n1 (ok_wf _ O3) ltac:(lia) (fun _ _ a _ => anycheck_readable a) Z1).
  rewrite Z1 in E. cbn [bind] in E. assert (O4 : ok n1) by (eapply thin_ok; eauto). assert (L4 : 2 <= length n1) by (rewrite (proj1 T3); lia).
  destruct (optimize_spec anycheck atom_eqb (fun _ => True) (fun _ _ _ _ _ _ => eq_refl) (S (nfa_size n1)) n1 (fun _ _ _ _ => I) O4 L4) as (n2 & E3 & O5 & L5 & G2 & _ & _); [lia|].
  rewrite E3 in E. cbn [bind] in E. rewrite wfb_guard in E by (try apply O5; lia). cbn [guard bind] in E.
  destruct (remove_unreachable_spec n2) as (n3 & E4 & C1 & C2); [apply O5|lia|]. rewrite E4 in E. injection E as ->.
  intros u c y Hy. destruct (conn_dec n2) as [Hc|Hc]; [apply O5|lia| |now apply C1 in Hc].
  destruct (C2 Hc) as (_ & _ & _ & _ & _ & HL & _). apply HL, G2 in Hy. destruct (ZP u c y Hy) as (x & Hx & Hxl). exists x. auto.
Qed.

(** ** No [^] after the last character *)
Lemma chars_split w : chars w <> [] -> exists u c v, w = u ++ IC c :: v.
Proof.
  induction w as [|[c|e] w IH]; intros H; [destruct H; reflexivity|exists [], c, w; reflexivity|]. destruct (IH H) as (u & c & v & ->). exists (IM e :: u), c, v. reflexivity.
Qed.
Lemma path_any n s w t : path acheck n s w t -> path anycheck n s w t.
Proof.
  induction 1 as [s|s t e w u He Hp IH|s t a c w u He Hc Hp IH]; [constructor|eapply p_eps; eauto|]. eapply p_sym; eauto. apply andb_true_iff in Hc. unfold anycheck. tauto.
Qed.
Lemma working_settled e n : ere_atoms atom_ok e -> caret_ok e = true -> working_new (tree_of e) = Ok n -> n <> [] ->
  forall w, lang acheck n w -> settled w.
Proof.
  intros He Hc En Hn w Hw u v E Ev. assert (Hpad := working_padded e He n En Hn w Hw). unfold caret_ok in Hc. destruct (carets e) as [k|] eqn:Ek.
  - destruct (chars u) as [|c0 l] eqn:Eu; [reflexivity|]. exfalso. destruct (chars_split u) as (u1 & c & u2 & ->); [congruence|].
    assert (Ew : w = u1 ++ IC c :: (u2 ++ IM EStart :: v)) by (rewrite E, <- app_assoc; reflexivity).
    assert (Ha : lang anycheck n (u1 ++ IC c :: (u2 ++ IM EStart :: v))) by (rewrite <- Ew; now apply path_any).
    destruct (working_pruned (tree_of e) n (tree_of_ok e) (tree_of_length e) En Hn u1 c _ Ha) as (x & Hx & Hxp).
    apply (pad_carets anycheck e k _ Ek) in Hxp. apply (pad_carets acheck e k _ Ek) in Hpad. rewrite starts_app, (starts_has x Hx) in Hxp. rewrite Ew, starts_app in Hpad.
    change (IC c :: u2 ++ IM EStart :: v) with ([IC c] ++ u2 ++ [IM EStart] ++ v) in Hpad. rewrite !starts_app in Hpad. unfold starts at 4 in Hpad. cbn in Hpad. lia.
  - assert (G := pad_led acheck e w Hc Hpad u v E Ev). discriminate.
Qed.
Lemma settled_enc w : settled w -> settled (enc w).
Proof.
  intros H u v E Ev. apply enc_split_mark in E as (u0 & v0 & -> & -> & ->). apply chars_enc_nil. apply (H u0 v0 eq_refl). now apply chars_enc_nil.
Qed.
Lemma u8_words e n m : ere_atoms atom_ok e -> working_new (tree_of e) = Ok n -> automaton_of e n -> u8_new n = Ok m -> m <> [] ->
  forall W, lang byte_check m W -> exists w, W = enc w /\ lang acheck n w.
Proof.
  intros He En (H1 & H2 & H3 & H4 & H5) Em Hm. destruct (u8_new_refined n H1) as (m' & B & Em' & Hr & HB & _).
  { apply lab_iff in H5 as [H5 _]. exact H5. }
  rewrite Em in Em'. injection Em' as <-. destruct Hr as [[E _]|(_ & _ & _ & M4 & _)]; [congruence|]. intros W HW. apply M4, HB in HW as (w & Hw & ->). eauto.
Qed.

(** ** From late readings to readings *)
Lemma late_reads T j W : late T j W -> settled W -> reads T 0 W j.
Proof.
  intros (u & z & -> & Hz & Hu & Hend) Hs. apply reads_app. exists j. split; [assumption|]. assert (Hj := reads_le _ _ _ _ Hu).
  apply zero_reads; [assumption|lia|]. split; [|assumption]. intros Hst. apply has_iff in Hst. apply in_split in Hst as (z1 & z2 & ->).
  assert (E : chars (u ++ z1) = []) by (apply (Hs (u ++ z1) z2); [now rewrite <- app_assoc|]; rewrite chars_app in Hz; apply app_eq_nil in Hz as [_ Hz]; exact Hz).
  rewrite chars_app in E. apply app_eq_nil in E as [E _]. apply reads_chars in Hu as [Hu _]. rewrite E in Hu. exact Hu.
Qed.
Lemma reads_late T W : reads T 0 W (length T) -> late T (length T) W.
Proof. intros H. exists W, []. rewrite app_nil_r. split; [reflexivity|]. split; [reflexivity|]. split; [assumption|reflexivity]. Qed.
Lemma utf8_prefix A : forall T R, utf8 T = utf8 A ++ R -> exists B, T = A ++ B /\ R = utf8 B.
Proof.
  induction A as [|a A IH]; intros T R E; [exists T; auto|]. destruct T as [|t T].
  - cbn in E. destruct (encode a) eqn:X; [now apply encode_nonempty in X|discriminate].
  - cbn in E. rewrite <- app_assoc in E. apply encode_app_inj in E as [-> E]. destruct (IH T R E) as (B & -> & ->). exists B. auto.
Qed.
Lemma prefix_occurs e T w j : Forall scalar T -> padded true true (tlang acheck (tree_of e)) w -> reads (utf8 T) 0 (enc w) j -> occurs e T.
Proof.
  intros HT Hp Hr. assert (Hj := reads_le _ _ _ _ Hr). destruct (reads_chars _ _ _ _ Hr) as [H1 H2]. rewrite chars_enc in *. cbn [Nat.add] in H1. rewrite Nat.sub_0_r in H2. cbn [skipn] in H2.
  destruct (utf8_prefix (chars w) T (skipn j (utf8 T))) as (B & EB & ES); [rewrite H2; symmetry; apply firstn_skipn|].
  assert (Hsc : Forall scalar B) by (rewrite EB in HT; now apply Forall_app in HT).
  apply (occurs_iff T HT). exists (w ++ map IC B). split.
  - destruct Hp as (pre & v & post & -> & P1 & P2 & P3 & P4 & P5). exists pre, v, (post ++ B). rewrite map_app, <- !app_assoc. split; [reflexivity|]. split; [assumption|]. split; [apply Forall_app; auto|]. split; [discriminate|]. split; [discriminate|]. assumption.
  - apply reads_enc. rewrite enc_app. apply reads_app. exists j. split; [assumption|].
    assert (EE : enc (map IC B) = map IC (utf8 B)) by (clear; induction B as [|b B IH]; [reflexivity|]; cbn; rewrite map_app; f_equal; exact IH). rewrite EE, <- ES.
    assert (L : length (utf8 T) = j + length (skipn j (utf8 T))) by (rewrite skipn_length; lia). rewrite L at 1. apply reads_IC; [apply firstn_all|rewrite skipn_length; lia].
Qed.

(** ** The DFA engine *)
Definition all_settled (m : nfa range) : Prop := forall W, lang byte_check m W -> settled W.
Lemma utf8_bytes T : Forall scalar T -> Forall (fun b => (b <= 255)%N) (utf8 T).
Proof.
  intros H. unfold utf8. apply Forall_flat_map. eapply Forall_impl; [|exact H]. intros c Hc.
  assert (Hc' : (c < 0x110000)%N) by (unfold scalar, scalarb, char_max in Hc; lia).
  unfold encode. assert (M : forall x, (x mod 64 < 64)%N) by (intros; apply N.mod_lt; lia). assert (M1 := M c). assert (M2 := M (c / 64)%N). assert (M3 := M (c / 4096)%N).
  destruct (N.ltb_spec c 0x80); [repeat constructor; lia|]. destruct (N.ltb_spec c 0x800); [assert ((c / 64 < 32)%N) by (apply N.div_lt_upper_bound; lia); repeat constructor; lia|].
  destruct (N.ltb_spec c 0x10000); [assert ((c / 4096 < 16)%N) by (apply N.div_lt_upper_bound; lia); repeat constructor; lia|].
  assert ((c / 262144 < 8)%N) by (apply N.div_lt_upper_bound; lia). repeat constructor; lia.
Qed.
Lemma dfa_right e m max d : byte_automaton_of e m -> all_settled m -> tdfa_from_nfa m max = Ok (Some d) -> engine_right e (EDfa d).
Proof.
  intros Hm Hst Hd T HT. assert (Hm' := Hm). destruct Hm' as (M1 & M2 & M3 & M4 & M5 & M6 & M7).
  destruct (dfa_engine_late m max d (utf8 T) (ok_wf _ M1) ltac:(lia) Hd (utf8_bytes T HT)) as [(x & Ex & Hx) He]. cbn [engine_test engine_exec engine_groups]. unfold dfa_test, dfa_exec. rewrite Ex. cbn [bind]. split.
  - unfold test_right. rewrite Hx. split.
    + intros (j & W & HW & Hl). apply late_reads in Hl; [|now apply Hst]. destruct (M7 W HW) as (w & -> & Hw). eapply prefix_occurs; eauto.
    + intros Ho. apply (byte_occurs e m T Hm HT) in Ho as (W & HW & Hr). exists (length (utf8 T)), W. split; [assumption|]. now apply reads_late.
  - apply (byte_found e m T (tdfa_groups d) _ Hm HT). destruct (tdfa_run_exec d (utf8 T)) as [b|]; cbn [found].
    + destruct He as (W & HW & Hl & ->). exists W. split; [assumption|]. split; [|reflexivity]. apply late_reads; [assumption|now apply Hst].
    + intros W HW Hr. apply (He W HW). now apply reads_late.
Qed.
(** Whatever the pattern, the DFA never misses a match. *)
Lemma dfa_complete e m max d T : byte_automaton_of e m -> tdfa_from_nfa m max = Ok (Some d) -> Forall scalar T -> occurs e T ->
  engine_test (EDfa d) T = Ok true /\ exists b, tdfa_run_exec d (utf8 T) = Some b.
Proof.
  intros Hm Hd HT Ho. assert (Hm' := Hm). destruct Hm' as (M1 & M2 & _).
  destruct (dfa_engine_late m max d (utf8 T) (ok_wf _ M1) ltac:(lia) Hd (utf8_bytes T HT)) as [(x & Ex & Hx) He]. cbn [engine_test]. unfold dfa_test. rewrite Ex. cbn [bind].
  apply (byte_occurs e m T Hm HT) in Ho as (W & HW & Hr). apply reads_late in Hr. split.
  - f_equal. apply Hx. eauto.
  - destruct (tdfa_run_exec d (utf8 T)) as [b|]; [eauto|]. now apply He in Hr.
Qed.
Lemma parsed_settled s e n m : parse_str s = ROk e -> Forall scalar s -> caret_ok e = true -> working_new (tree_of e) = Ok n -> u8_new n = Ok m -> m <> [] -> all_settled m.
Proof.
  intros Hp Hs Hc En Em Hm. assert (Hn : n <> []) by (intros ->; rewrite u8_nil in Em; discriminate). assert (He := parsed_ok s e Hp Hs).
  intros W HW. destruct (parsed_working_ne s e Hp Hs n En Hn) as [Ha _]. destruct (u8_words e n m He En Ha Em Hm W HW) as (w & -> & Hw). apply settled_enc. eapply working_settled; eauto.
Qed.
