(** A byte automaton is left over only if the pattern can match: pruning is complete. *)
From Verif Require Export PCompile PCaret PAll.
From Coq Require Import ZifyBool ZifyNat.
Open Scope nat_scope.
Open Scope list_scope.
Set Default Proof Using "Type".

(** A word that passes [$] can be ended there; one that passes [^] and then reads nothing can begin there. *)
Definition closes (L : word -> Prop) : Prop := forall u v, L (u ++ IM EEnd :: v) -> exists v', chars v' = [] /\ L (u ++ IM EEnd :: v').
Definition opens (L : word -> Prop) : Prop := forall u v, L (u ++ IM EStart :: v) -> chars v = [] -> exists u', chars u' = [] /\ L (u' ++ IM EStart :: v).

Section Clean.
  Context {A : Type}.
  Variable check : A -> N -> bool.
  Implicit Types n : nfa A.

  Lemma star_zero n s t : star (succ_eps n any_eps) s t -> exists w, chars w = [] /\ path check n s w t.
  Proof.
    intros H. induction H as [x|x y z Hxy H IH]; [exists []; split; [reflexivity|constructor]|].
    destruct IH as (w & Hc & Hw). apply succ_eps_In in Hxy as (e & He & _). exists (mark e ++ w).
    split; [now rewrite chars_app, chars_mark|eapply p_eps; eauto].
  Qed.
  (** The edge that leaves a mark. *)
  Lemma path_mark n s w z : path check n s w z -> forall e v, w = IM e :: v ->
    exists q t, path check n s [] q /\ In (t, e) (eps (get n q)) /\ path check n t v z.
  Proof.
    induction 1 as [s|s t e w u He Hp IH|s t a c w u He Hc Hp IH]; intros d v E; [discriminate| |discriminate].
    destruct e; cbn [mark app] in E; try (injection E as <- <-; exists s, t; split; [constructor|auto]).
    destruct (IH d v E) as (q & t' & H1 & H2). exists q, t'. split; [|exact H2]. apply (p_eps check n s t ENone [] q He H1).
  Qed.
  Lemma lang_mark n u e v : lang check n (u ++ IM e :: v) ->
    exists q t, path check n 0 u q /\ In (t, e) (eps (get n q)) /\ path check n t v (length n - 1).
  Proof.
    intros H. destruct (path_split check n _ _ _ H u (IM e :: v) eq_refl) as (s & Hu & Hs).
    destruct (path_mark n _ _ _ Hs e v eq_refl) as (q & t & Hq & He & Hv). exists q, t. split; [|auto].
    rewrite <- (app_nil_r u). eapply path_app; eauto.
  Qed.

  Lemma start_edges n n' : wf n -> 1 <= length n -> clean_start_anchors n = Ok n' -> length n' = length n /\
    forall s t e, In (t, e) (eps (get n' s)) <-> In (t, e) (eps (get n s)) /\ (e = EStart -> star (succ_eps n any_eps) 0 s).
  Proof.
    intros Hw Hl. unfold clean_start_anchors.
    destruct (reach_from_spec (succ_eps n any_eps) (length n) 0) as (r & -> & Hrl & Hr).
    { lia. } { intros x y. now apply succ_eps_lt. }
    cbn [bind]. intros E. injection E as <-. split; [now rewrite map_length, enumerate_length|]. intros s t e.
    rewrite (get_enum_map n (fun i s => mkState (trans s) (filter (fun e => not_start (snd e) || nth i r false) (eps s)))) by reflexivity.
    cbn. rewrite filter_In. cbn. rewrite orb_true_iff, Hr. split; intros [H1 H2]; (split; [assumption|]).
    - intros ->. destruct H2 as [H2|H2]; [discriminate|assumption].
    - destruct e; auto.
  Qed.
  Lemma end_edges n n' : wf n -> 1 <= length n -> clean_end_anchors n = Ok n' -> length n' = length n /\
    forall s t e, In (t, e) (eps (get n' s)) <-> In (t, e) (eps (get n s)) /\ (e = EEnd -> star (succ_eps n any_eps) t (length n - 1)).
  Proof.
    intros Hw Hl. unfold clean_end_anchors.
    destruct (reach_from_spec (pred_eps n any_eps) (length n) (length n - 1)) as (r & -> & Hrl & Hr).
    { lia. } { intros x y. apply pred_eps_lt. }
    cbn [bind]. intros E. injection E as <-. split; [now rewrite map_length|]. intros s t e.
    rewrite (get_map n (fun s => mkState (trans s) (filter (fun e => not_end (snd e) || nth (fst e) r false) (eps s)))) by reflexivity.
    cbn. rewrite filter_In. cbn. rewrite orb_true_iff, Hr. rewrite (star_rev (succ_eps n any_eps) (pred_eps n any_eps)) by (intros; symmetry; apply pred_eps_In).
    split; intros [H1 H2]; (split; [assumption|]).
    - intros ->. destruct H2 as [H2|H2]; [discriminate|assumption].
    - destruct e; auto.
  Qed.
  (** Ways of zero width to the end survive the second cleaning, ways from the beginning the first. *)
  Lemma zero_to_end n n' : wf n -> 1 <= length n -> clean_end_anchors n = Ok n' ->
    forall s z, star (succ_eps n any_eps) s z -> z = length n - 1 -> star (succ_eps n' any_eps) s z.
  Proof.
    intros Hw Hl E. destruct (end_edges n n' Hw Hl E) as [_ HE]. intros s z H. induction H as [x|x y z Hxy H IH]; intros Hz; [constructor|].
    eapply Relation_Operators.rt1n_trans with (y := y); [|now apply IH]. apply succ_eps_In in Hxy as (e & He & _). apply succ_eps_In. exists e. split; [|reflexivity]. apply HE. split; [assumption|]. intros _. rewrite <- Hz. exact H.
  Qed.
  Lemma zero_from_start n n' : wf n -> 1 <= length n -> clean_start_anchors n = Ok n' ->
    forall s z, star (succ_eps n any_eps) s z -> star (succ_eps n any_eps) 0 s -> star (succ_eps n' any_eps) s z.
  Proof.
    intros Hw Hl E. destruct (start_edges n n' Hw Hl E) as [_ HE]. intros s z H. induction H as [x|x y z Hxy H IH]; intros Hs; [constructor|].
    econstructor; [|apply IH; eapply star_snoc; eauto]. apply succ_eps_In in Hxy as (e & He & _). apply succ_eps_In. exists e. split; [|reflexivity]. apply HE. auto.
  Qed.
  Lemma clean_closes n n1 n2 : wf n -> wf n1 -> 1 <= length n -> clean_start_anchors n = Ok n1 -> clean_end_anchors n1 = Ok n2 ->
    closes (lang check n2) /\ opens (lang check n2).
  Proof.
    intros Hw Hw1 Hl E1 E2. destruct (start_edges n n1 Hw Hl E1) as [L1 H1]. assert (Hl1 : 1 <= length n1) by lia.
    destruct (end_edges n1 n2 Hw1 Hl1 E2) as [L2 H2]. assert (Z1 := zero_from_start n n1 Hw Hl E1). assert (Z2 := zero_to_end n1 n2 Hw1 Hl1 E2). split.
    - intros u v H. apply lang_mark in H as (q & t & Hu & He & _). assert (He' := proj1 (H2 _ _ _) He). destruct He' as [_ Hz].
      specialize (Hz eq_refl). apply Z2 in Hz; [|reflexivity]. apply star_zero in Hz as (w & Hc & Hp). exists w. split; [assumption|].
      unfold lang. rewrite L2. eapply path_app; [exact Hu|]. change (IM EEnd :: w) with (mark EEnd ++ w). eapply p_eps; eauto.
    - intros u v H Hv. apply lang_mark in H as (q & t & Hu & He & Hp). assert (He' := proj1 (proj1 (H2 _ _ _) He)). destruct (proj1 (H1 _ _ _) He') as [_ Hz].
      specialize (Hz eq_refl). apply (fun H => Z1 0 q H ltac:(constructor)) in Hz.
      assert (Ht : star (succ_eps n1 any_eps) q (length n1 - 1)).
      { econstructor; [apply succ_eps_In; exists EStart; split; [exact He'|reflexivity]|].
        apply (path_eps_star check n2) in Hp; [|assumption]. rewrite L2 in Hp. clear - Hp H2. induction Hp as [x|x y z Hxy H IH]; [constructor|].
        econstructor; [|exact (IH H2)]. apply succ_eps_In in Hxy as (e & He & Hx). apply succ_eps_In. exists e. split; [|assumption]. now apply H2. }
      assert (Hq : star (succ_eps n2 any_eps) 0 q).
      { clear - Hz Ht H2. remember (length n1 - 1) as f eqn:Ef. clear Ef. induction Hz as [x|x y z Hxy H IH]; [constructor|]. eapply Relation_Operators.rt1n_trans with (y := y); [|now apply IH].
        apply succ_eps_In in Hxy as (e & He & Hx). apply succ_eps_In. exists e. split; [|assumption]. apply H2. split; [assumption|]. intros _. eapply star_app; eauto. }
      apply star_zero in Hq as (w & Hc & Hw'). exists w. split; [assumption|]. eapply path_app; [exact Hw'|]. change (IM EStart :: v) with (mark EStart ++ v). eapply p_eps; eauto.
  Qed.
End Clean.

(** ** Languages *)
Lemma split_IC pre : forall v u e y, map IC pre ++ v = u ++ IM e :: y -> exists u', u = map IC pre ++ u' /\ v = u' ++ IM e :: y.
Proof.
  induction pre as [|c pre IH]; intros v u e y E; cbn in E; [exists u; auto|]. destruct u as [|i u]; [discriminate|]. cbn in E. injection E as <- E.
  destruct (IH _ _ _ _ E) as (u' & -> & ->). exists u'. auto.
Qed.
Lemma split_post post : forall v u e y, v ++ map IC post = u ++ IM e :: y -> exists y', y = y' ++ map IC post /\ v = u ++ IM e :: y'.
Proof.
  intros v; induction v as [|i v IH]; intros u e y E; cbn in E.
  - exfalso. assert (In (IM e) (map IC post)) by (rewrite E; apply in_or_app; right; now left). apply in_map_iff in H as (c & H & _). discriminate.
  - destruct u as [|j u]; cbn in E; injection E as <- E; [exists v; subst; auto|]. destruct (IH _ _ _ E) as (y' & -> & ->). exists y'. auto.
Qed.
Lemma closes_ext (L L' : word -> Prop) : (forall w, L w <-> L' w) -> closes L -> closes L'.
Proof. intros E H u v Hv. apply E, H in Hv as (v' & Hc & Hv'). exists v'. split; [assumption|now apply E]. Qed.
Lemma opens_ext (L L' : word -> Prop) : (forall w, L w <-> L' w) -> opens L -> opens L'.
Proof. intros E H u v Hv Hc. apply E in Hv. destruct (H u v Hv Hc) as (v' & Hc' & Hv'). exists v'. split; [assumption|now apply E]. Qed.
Lemma padded_closes L : closes L -> closes (padded true true L).
Proof.
  intros H u v (pre & x & post & E & Hp & Hq & _ & _ & Hx). symmetry in E. apply split_IC in E as (u' & -> & E). apply split_post in E as (y & -> & ->).
  apply H in Hx as (v' & Hc & Hv). exists v'. split; [assumption|]. exists pre, (u' ++ IM EEnd :: v'), []. split; [cbn; now rewrite app_nil_r, <- app_assoc|].
  repeat split; auto; try discriminate.
Qed.
Lemma padded_opens_mark L : opens L -> opens (padded true true L).
Proof.
  intros H u v (pre & x & post & E & Hp & Hq & _ & _ & Hx) Hc. symmetry in E. apply split_IC in E as (u' & -> & E). apply split_post in E as (y & -> & ->).
  rewrite chars_app, chars_IC in Hc. apply app_eq_nil in Hc as [Hc ->]. destruct (H _ _ Hx Hc) as (u0 & Hu & Hv). exists u0. split; [assumption|].
  exists [], (u0 ++ IM EStart :: y), []. cbn. rewrite !app_nil_r. repeat split; auto; try discriminate; constructor.
Qed.
Lemma enc_closes (L : word -> Prop) : closes L -> closes (fun W => exists w, L w /\ W = enc w).
Proof.
  intros H u v (w & Hw & E). symmetry in E. apply enc_split_mark in E as (u0 & v0 & -> & -> & ->). apply H in Hw as (v' & Hc & Hv).
  exists (enc v'). split; [now apply chars_enc_nil|]. exists (u0 ++ IM EEnd :: v'). split; [assumption|]. now rewrite enc_app.
Qed.
Lemma enc_opens (L : word -> Prop) : opens L -> opens (fun W => exists w, L w /\ W = enc w).
Proof.
  intros H u v (w & Hw & E) Hc. symmetry in E. apply enc_split_mark in E as (u0 & v0 & -> & -> & ->). apply (proj1 (chars_enc_nil v0)) in Hc. destruct (H _ _ Hw Hc) as (u' & Hu & Hv).
  exists (enc u'). split; [now apply chars_enc_nil|]. exists (u' ++ IM EStart :: v0). split; [assumption|]. now rewrite enc_app.
Qed.

(** A word without characters is valid, and so is one with [^] before all characters and [$] after. *)
Lemma marks_valid w : chars w = [] -> valid w.
Proof. intros H. split; intros u v ->; rewrite chars_app in H; apply app_eq_nil in H as [H1 H2]; assumption. Qed.
Lemma no_mark m w : m <> ENone -> has m w = false -> ~ In (IM m) w.
Proof.
  intros Hm H Hi. assert (has m w = true); [|congruence]. unfold has. apply existsb_exists. exists (IM m). split; [assumption|]. destruct m; cbn; try reflexivity; try congruence; apply Nat.eqb_refl.
Qed.
Lemma app_mark_cases (u v x y : word) e : u ++ v = x ++ IM e :: y -> (exists u', u = x ++ IM e :: u' /\ y = u' ++ v) \/ (exists v', x = u ++ v' /\ v = v' ++ IM e :: y).
Proof.
  revert x; induction u as [|i u IH]; intros x E; cbn in E; [right; exists x; auto|]. destruct x as [|j x]; cbn in E; injection E as <- E.
  - left. exists u. auto.
  - destruct (IH _ E) as [(u' & -> & ->)|(v' & -> & ->)]; [left; exists u'; auto|right; exists v'; auto].
Qed.
Lemma first_mark e w : In (IM e) w -> exists u v, w = u ++ IM e :: v /\ ~ In (IM e) u.
Proof.
  assert (D : forall a b : item, {a = b} + {a <> b}) by (repeat decide equality). intros H.
  induction w as [|i w IH]; [destruct H|]. destruct (D i (IM e)) as [->|Hi]; [exists [], w; auto|]. destruct H as [H|H]; [congruence|].
  destruct (IH H) as (u & v & -> & Hu). exists (i :: u), v. split; [reflexivity|]. intros [Hx|Hx]; [congruence|auto].
Qed.
Lemma mark_dec e (w : word) : In (IM e) w \/ ~ In (IM e) w.
Proof. assert (D : forall a b : item, {a = b} + {a <> b}) by (repeat decide equality). destruct (in_dec D (IM e) w); auto. Qed.

Lemma alive_word (L : word -> Prop) u x : closes L -> opens L -> chars u = [] -> ~ In (IM EStart) x -> L (u ++ x) -> exists w, valid w /\ L w.
Proof.
  intros HC HO Hu Hx Hl. destruct (mark_dec EEnd u) as [Hd|Hd].
  - (* [$] before the first character *)
    apply first_mark in Hd as (a & b & -> & _). rewrite <- app_assoc in Hl. cbn in Hl. apply HC in Hl as (v' & Hv & Hl).
    exists (a ++ IM EEnd :: v'). split; [|assumption]. apply marks_valid. rewrite chars_app in Hu |- *. apply app_eq_nil in Hu as [-> _]. exact Hv.
  - assert (G : forall y z, L (u ++ y ++ z) -> ~ In (IM EStart) y -> ~ In (IM EEnd) y -> ~ In (IM EStart) z -> chars z = [] -> exists w, valid w /\ L w).
    { intros y z Hl' Hs He Hz Hcz. exists (u ++ y ++ z). split; [|assumption]. split; intros p q E.
      - apply app_mark_cases in E as [(u' & -> & _)|(v' & -> & E)]; [rewrite chars_app in Hu; now apply app_eq_nil in Hu|].
        exfalso. assert (Hi : In (IM EStart) (y ++ z)) by (rewrite E; apply in_or_app; right; now left). apply in_app_or in Hi as [Hi|Hi]; auto.
      - apply app_mark_cases in E as [(u' & -> & _)|(v' & -> & E)]; [destruct Hd; apply in_or_app; right; now left|].
        apply app_mark_cases in E as [(u' & -> & _)|(v2 & -> & ->)]; [destruct He; apply in_or_app; right; now left|].
        rewrite chars_app in Hcz. now apply app_eq_nil in Hcz. }
    destruct (mark_dec EEnd x) as [Hz|Hz].
    + apply first_mark in Hz as (y & z & -> & Hy). rewrite app_assoc in Hl. apply HC in Hl as (z' & Hc & Hl).
      destruct (mark_dec EStart z') as [Hs|Hs].
      * apply in_split in Hs as (p & q & ->). rewrite chars_app in Hc. apply app_eq_nil in Hc as [_ Hq]. cbn in Hq.
        change (IM EEnd :: p ++ IM EStart :: q) with ((IM EEnd :: p) ++ IM EStart :: q) in Hl. rewrite app_assoc in Hl. destruct (HO _ _ Hl Hq) as (u' & Hu' & Hl').
        exists (u' ++ IM EStart :: q). split; [|exact Hl']. apply marks_valid. rewrite chars_app, Hu'. exact Hq.
      * apply (G y (IM EEnd :: z')); [rewrite <- app_assoc in Hl; exact Hl| |assumption| |exact Hc].
        -- intros Hi. apply Hx. apply in_or_app. now left.
        -- intros [Hi|Hi]; [discriminate|auto].
    + apply (G x []); [now rewrite app_nil_r|assumption|assumption|intros []|reflexivity].
Qed.

(** The first character of a word. *)
Lemma first_char w : chars w <> [] -> exists u c v, w = u ++ IC c :: v /\ chars u = [].
Proof.
  induction w as [|[c|e] w IH]; intros H; [destruct H; reflexivity|exists [], c, w; auto|]. destruct (IH H) as (u & c & v & -> & Hu). exists (IM e :: u), c, v. auto.
Qed.

(** ** Pruning keeps an automaton only if it has a valid word *)
Section Final.
  Context {A : Type}.
  Variable check : A -> N -> bool.
  Variable eqA : A -> A -> bool.
  Variable good : A -> Prop.
  Hypothesis eqA_sound : forall a b, good a -> good b -> eqA a b = true -> forall c, check a c = check b c.
  Lemma finalize_alive (L : word -> Prop) (n n' : nfa A) : goods good n -> ok n -> 2 <= length n ->
    (forall s t a, In (t, a) (trans (get n s)) -> exists c, check a c = true) -> (forall w, lang check n w -> L w) -> closes L -> opens L ->
    finalize eqA n = Ok n' -> n' <> [] -> exists w, valid w /\ L w.
  Proof using eqA_sound.
    intros Hgd Hok Hl HR HL HC HO. unfold finalize. rewrite wfb_guard by (try apply Hok; lia). cbn [guard bind]. intros E Hne.
    destruct (zero_spec check n) as (n1 & Z1 & T1 & _); [apply Hok|lia|]. rewrite Z1 in E. cbn [bind] in E.
    assert (O1 : ok n1) by (eapply thin_ok; eauto). assert (L1 : 2 <= length n1) by (rewrite (proj1 T1); lia).
    destruct (optimize_spec check eqA good eqA_sound (S (nfa_size n1)) n1 (thin_syms _ _ _ T1 Hgd) O1 L1) as (n2 & E2 & O2 & L2 & G2 & S2 & _); [lia|].
    rewrite E2 in E. cbn [bind] in E. rewrite wfb_guard in E by (try apply O2; lia). cbn [guard bind] in E.
    destruct (remove_unreachable_spec n2) as (n3 & E3 & C1 & C2); [apply O2|lia|]. rewrite E3 in E. injection E as ->.
    destruct (conn_dec n2) as [Hc|Hc]; [apply O2|lia| |now apply C1 in Hc].
    destruct (conn_path n2 check 0 (length n2 - 1)) as (w & Hw); [|assumption|].
    { apply (S2 (fun a => exists c, check a c = true)). eapply thin_syms; eauto. }
    apply G2 in Hw. destruct (list_eq_dec N.eq_dec (chars w) []) as [Ec|Ec].
    - exists w. split; [now apply marks_valid|]. apply HL. eapply thin_lang; eauto.
    - apply first_char in Ec as (u & c & v & -> & Hu). destruct (zero_pruned check n n1 (ok_wf _ Hok) ltac:(lia) HR Z1 u c v Hw) as (x & Hx & Hxl).
      apply (alive_word L u x); auto. apply no_mark; [discriminate|assumption].
  Qed.
End Final.

(** ** The automata of a pattern *)
(** The words between the cleaning of anchors and the pruning. *)
Definition open_words (e : ere) (w : word) : Prop :=
  exists n1 n2, clean_start_anchors (build (tree_of e)) = Ok n1 /\ clean_end_anchors n1 = Ok n2 /\ padded true true (lang acheck n2) w.
Lemma open_words_spec e n : ere_atoms atom_ok e -> working_new (tree_of e) = Ok n -> n <> [] ->
  closes (open_words e) /\ opens (open_words e) /\ (forall w, lang acheck n w -> open_words e w) /\
  (forall w, open_words e w -> padded true true (tlang acheck (tree_of e)) w) /\
  ((forall a, In a (atoms e) -> exists c, acheck a c = true) -> exists w, valid w /\ open_words e w).
Proof.
  intros He En Hn. assert (Ht := tree_of_ok e). assert (Hlen := tree_of_length e). unfold working_new, working_new_loop_opt in En. assert (Hok := build_ok _ Ht). set (b := build (tree_of e)) in *.
  rewrite wfb_guard in En by (try apply Hok; lia). cbn [guard bind] in En.
  destruct (clean_start_spec acheck b) as (b1 & E1 & T1 & _); [apply Hok|lia|]. rewrite E1 in En. cbn [bind] in En.
  assert (O1 : ok b1) by (eapply thin_ok; eauto).
  destruct (clean_end_spec acheck b1) as (b2 & E2 & T2 & _); [apply O1|rewrite (proj1 T1); lia|]. rewrite E2 in En. cbn [bind] in En.
  assert (O2 : ok b2) by (eapply thin_ok; eauto). assert (T : thin b2 b) by (eapply thin_trans; eauto).
  change (nfa_concat [nfa_concat [any_loop; b2]; any_loop]) with (loop_back true (loop_front true b2)) in En.
  destruct (loops_ok b2 O2) as [O3 L3]; [rewrite (proj1 T); assumption|].
  assert (HW : forall w, padded true true (lang acheck b2) w <-> open_words e w).
  { intros w. split; [intros H; exists b1, b2; auto|]. intros (x1 & x2 & X1 & X2 & H). fold b in X1. rewrite E1 in X1. injection X1 as <-. rewrite E2 in X2. injection X2 as <-. exact H. }
  destruct (clean_closes acheck b b1 b2 (ok_wf _ Hok) (ok_wf _ O1) ltac:(lia) E1 E2) as [HC HO].
  assert (HG : goods atom_ok (loop_back true (loop_front true b2))).
  { assert (Hl : tree_labels atom_ok (fun _ => True) (tree_of e)) by (eapply tree_labels_mono; [|apply tree_of_labels; exact He]; auto).
    apply (build_labels atom_ok (fun _ => True) _ I) in Hl. fold b in Hl.
    assert (G0 : Forall (lab atom_ok (fun _ => True)) b2) by (apply lab_iff in Hl as [Y1 Y2]; apply lab_iff; split; [eapply thin_syms; eauto|eapply thin_marks; eauto]).
    assert (GA : Forall (lab atom_ok (fun _ => True)) any_loop) by (apply build_labels with (t := TStar (TSymbol (NonmatchingList [])) false); auto; constructor).
    assert (G1 : Forall (lab atom_ok (fun _ => True)) (loop_back true (loop_front true b2))) by (apply lab_concat; auto; apply Forall_cons; [apply lab_concat; auto|auto]).
    apply lab_iff in G1 as [G1 _]. exact G1. }
  assert (HL : forall w, lang acheck (loop_back true (loop_front true b2)) w <-> open_words e w) by (intros w; rewrite <- HW; now apply (loops_lang acheck reading_acheck)).
  assert (CC : closes (open_words e)) by (eapply closes_ext; [exact HW|now apply padded_closes]).
  assert (OO : opens (open_words e)) by (eapply opens_ext; [exact HW|now apply padded_opens_mark]).
  split; [assumption|]. split; [assumption|]. split; [|split].
  - intros w Hw. apply HL. destruct (finalize_spec acheck atom_eqb atom_ok) with (n := loop_back true (loop_front true b2)) as (n' & En' & Hr); auto.
    + apply reading_acheck.
    + rewrite En in En'. injection En' as <-. destruct Hr as [[-> _]|(_ & _ & _ & Hr & _)]; [congruence|auto].
  - intros w Hw. apply HW in Hw. revert Hw. apply padded_ext. intros v Hv. apply build_lang; [assumption|]. eapply thin_lang; eauto.
  - intros HR. apply (finalize_alive acheck atom_eqb atom_ok (proj2 reading_acheck) (open_words e) (loop_back true (loop_front true b2)) n); auto; [|intros w; apply HL].
    assert (Hl : tree_labels (fun a => exists c, acheck a c = true) (fun _ => True) (tree_of e)) by (eapply tree_labels_mono; [|apply tree_of_labels; apply (proj2 (proj2 (proj2 (atoms_In _)))); exact HR]; auto).
    apply (build_labels (fun a => exists c, acheck a c = true) (fun _ => True) _ I) in Hl. fold b in Hl.
    assert (G0 : Forall (lab (fun a => exists c, acheck a c = true) (fun _ => True)) b2) by (apply lab_iff in Hl as [Y1 Y2]; apply lab_iff; split; [eapply thin_syms; eauto|eapply thin_marks; eauto]).
    assert (GA : Forall (lab (fun a => exists c, acheck a c = true) (fun _ => True)) any_loop).
    { apply build_labels with (t := TStar (TSymbol (NonmatchingList [])) false); auto. exists 97%N. reflexivity. }
    assert (G1 : Forall (lab (fun a => exists c, acheck a c = true) (fun _ => True)) (loop_back true (loop_front true b2))) by (apply lab_concat; auto; apply Forall_cons; [apply lab_concat; auto|auto]).
    apply lab_iff in G1 as [G1 _]. exact G1.
Qed.
Lemma padded_accepted e w : padded true true (tlang acheck (tree_of e)) w -> valid w -> exists T, Forall scalar T /\ occurs e T.
Proof.
  intros Hp Hv. assert (HT : Forall scalar (chars w)).
  { clear Hv. destruct Hp as (pre & v & post & -> & Hp & Hq & _ & _ & Hx). rewrite !chars_app, !chars_IC. apply Forall_app. split; [assumption|]. apply Forall_app. split; [|assumption].
    apply build_lang in Hx; [|apply tree_of_ok]. revert Hx. unfold lang. generalize 0 (length (build (tree_of e)) - 1). intros s t Hx.
    induction Hx as [s|s t x w u He Hp' IH|s t a c w u He Hc Hp' IH]; [constructor|now rewrite chars_app, chars_mark|]. constructor; [|assumption]. apply andb_true_iff in Hc. apply Hc. }
  exists (chars w). split; [assumption|]. apply (occurs_iff _ HT). exists w. split; [assumption|]. apply reads_whole. auto.
Qed.
Theorem byte_alive e n m : ere_atoms atom_ok e -> working_new (tree_of e) = Ok n -> u8_new n = Ok m -> m <> [] -> exists T, Forall scalar T /\ occurs e T.
Proof.
  intros He En Em Hm. assert (Hn : n <> []) by (intros ->; discriminate).
  destruct (open_words_spec e n He En Hn) as (HC & HO & H1 & H2 & _).
  destruct (working_new_spec e He) as (n' & En' & Hs). rewrite En in En'. injection En' as <-. destruct Hs as [[-> _]|(Hok & Hl & _ & _ & Hlab)]; [congruence|].
  apply lab_iff in Hlab as [Hlab _]. destruct (build_spec n Hok Hlab) as (B & subs & E & HB).
  unfold u8_new, u8_new_loop_opt in Em. rewrite E in Em. cbn [bind] in Em.
  destruct (finalize_alive byte_check range_eqb (fun _ => True) (fun a b _ _ H c => f_equal (fun r => byte_check r c) (proj1 (range_eqb_eq a b) H)) (fun W => exists w, open_words e w /\ W = enc w) B m) as (W & HW & w & Hw & ->); auto.
  - intros ? ? ? ?. exact I.
  - eapply built_ok; eauto.
  - assert (LB := bu_len _ _ _ HB). lia.
  - intros s t r H. destruct (built_labels _ Hok Hlab _ _ HB _ _ _ H) as [X Y]. exists (fst r). apply in_range_iff. split; [apply N.le_refl|exact X].
  - intros W HW. apply (built_lang _ Hok Hlab _ _ HB) in HW as (w & Hw & ->). eauto.
  - now apply enc_closes.
  - now apply enc_opens.
  - apply (proj1 (valid_enc w)) in HW. apply (padded_accepted e w); auto.
Qed.
Theorem char_alive e n : ere_atoms atom_ok e -> working_new (tree_of e) = Ok n -> n <> [] ->
  (forall a, In a (atoms e) -> exists c, scalar c /\ atom_check a c = true) -> exists T, Forall scalar T /\ occurs e T.
Proof.
  intros He En Hn Ha. destruct (open_words_spec e n He En Hn) as (_ & _ & _ & H2 & H3). destruct H3 as (w & Hv & Hw).
  { intros a Hi. destruct (Ha a Hi) as (c & Hc & Hk). exists c. unfold acheck. now rewrite Hk. }
  apply (padded_accepted e w); auto.
Qed.
