(** The lockstep engines return the preferred match. *)
From Verif Require Export PPrioFlat PPrioByte PAll.
From Verif Require Export PPrio.
From Coq Require Import ZifyBool ZifyNat ZifyN.
Open Scope nat_scope.
Open Scope list_scope.
Set Default Proof Using "Type".

(** ** The number of [$] in a word *)
Definition ends (w : word) : nat := length (filter (fun i => match i with IM EEnd => true | _ => false end) w).
Lemma ends_app u v : ends (u ++ v) = ends u + ends v.
Proof. unfold ends. now rewrite filter_app, app_length. Qed.
Lemma ends_chars l : ends (map IC l) = 0.
Proof. induction l; [reflexivity|assumption]. Qed.
Lemma starts_count w : has EStart w = (0 <? starts w).
Proof. induction w as [|[c|[ | | |k|k]] w IH]; try exact IH; reflexivity. Qed.
Lemma ends_count w : has EEnd w = (0 <? ends w).
Proof. induction w as [|[c|[ | | |k|k]] w IH]; try exact IH; reflexivity. Qed.
Lemma has_enc m w : has m (enc w) = has m w.
Proof.
  apply eq_true_iff_eq. rewrite !has_iff. split; intros H.
  - apply in_split in H as (u & v & E). apply enc_split_mark in E as (u0 & v0 & -> & _). apply in_or_app. right. now left.
  - apply in_split in H as (u & v & ->). rewrite enc_app. apply in_or_app. right. change (IM m :: v) with ([IM m] ++ v). rewrite enc_app. apply in_or_app. left. now left.
Qed.
Section Words.
  Variable chk : atom -> N -> bool.
  Lemma dollars_words :
    (forall p g k w, dollars_part p = Some k -> tlang chk (part_tree p g) w -> ends w = k) /\
    (forall e g k w, dollars_expr e = Some k -> tlang chk (expr_tree e g) w -> ends w = k) /\
    (forall b g k w, dollars_branch b = Some k -> tlang chk (TConcat (branch_trees b g)) w -> ends w = k) /\
    (forall e g k w, dollars e = Some k -> tlang chk (TUnion (ere_trees e g)) w -> ends w = k).
  Proof.
    apply syntax_ind.
    - intros e IH g k w Hk Hw. exact (IH g k w Hk Hw).
    - intros e q IH g k w Hk Hw. cbn [dollars_part] in Hk. destruct (dollars_expr e) as [[|j]|] eqn:E; try discriminate. injection Hk as <-.
      rewrite part_tree_quant in Hw. apply quant_lang in Hw as (n & _ & Hw).
      induction Hw as [|n u v Hu Hv IHv]; [reflexivity|]. rewrite ends_app, IHv. rewrite (IH g 0 u eq_refl Hu). reflexivity.
    - intros g k w Hk Hw. cbn in Hk. injection Hk as <-. cbv in Hw. subst w. reflexivity.
    - intros g k w Hk Hw. cbn in Hk. injection Hk as <-. cbv in Hw. subst w. reflexivity.
    - intros a g k w Hk Hw. cbn in Hk. injection Hk as <-. destruct Hw as (c & _ & ->). reflexivity.
    - intros bs IH g k w Hk Hw. rewrite expr_tree_sub in Hw. destruct Hw as (v & Hv & ->). change (IM (ESC g) :: v ++ [IM (EEC g)]) with ([IM (ESC g)] ++ v ++ [IM (EEC g)]).
      rewrite !ends_app. cbn [ends filter length]. rewrite (IH (S g) k v Hk Hv). unfold ends. cbn. lia.
    - intros g k w Hk Hw. inversion Hw; subst. cbn in Hk. injection Hk as <-. reflexivity.
    - intros p b IHp IHb g k w Hk Hw. rewrite branch_trees_cons in Hw. cbn in Hw. inversion Hw as [|L0 Ls u v Hu Hv]; subst.
      unfold dollars_branch in Hk. cbn [map total fold_right] in Hk. destruct (dollars_part p) as [x|] eqn:E1; [|discriminate].
      destruct (dollars_branch b) as [y|] eqn:E2; unfold dollars_branch, total in E2; rewrite E2 in Hk; [|discriminate]. injection Hk as <-.
      rewrite ends_app. rewrite (IHp g x u eq_refl Hu), (IHb (g + groups_part p) y v eq_refl Hv). reflexivity.
    - intros g k w Hk Hw. inversion Hw.
    - intros b e IHb IHe g k w Hk Hw. rewrite ere_trees_cons in Hw. cbn in Hw. unfold dollars in Hk. cbn [map] in Hk. apply common_cons in Hk as [H1 H2]. inversion Hw as [L0 Ls Hw'|L0 Ls Hw']; subst.
      + exact (IHb g k w H1 Hw').
      + destruct H2 as [H2|H2]; [destruct e; [|discriminate]; inversion Hw'|]. exact (IHe _ k w H2 Hw').
  Qed.
  Lemma pad_dollars e k w : dollars e = Some k -> padded true true (tlang chk (tree_of e)) w -> ends w = k.
  Proof.
    intros He (pre & v & post & -> & _ & _ & _ & _ & Hv). rewrite tree_of_eq in Hv. destruct Hv as (x & Hx & ->).
    change (IM (ESC 0) :: x ++ [IM (EEC 0)]) with ([IM (ESC 0)] ++ x ++ [IM (EEC 0)]). rewrite !ends_app, !ends_chars.
    rewrite (proj2 (proj2 (proj2 dollars_words)) e 1 k x He Hx). unfold ends. cbn. lia.
  Qed.
End Words.
(** The same anchors on every way through. *)
Definition anchors_even (e : ere) : bool := match carets e, dollars e with Some _, Some _ => true | _, _ => false end.
Lemma anchors_words e : anchors_even e = true -> exists HS HE, forall w, padded true true (tlang acheck (tree_of e)) w -> has EStart w = HS /\ has EEnd w = HE.
Proof.
  unfold anchors_even. destruct (carets e) as [k|] eqn:Ek; [|discriminate]. destruct (dollars e) as [l|] eqn:El; [|discriminate]. intros _.
  exists (0 <? k), (0 <? l). intros w Hw. rewrite starts_count, ends_count, (pad_carets acheck e k w Ek Hw), (pad_dollars acheck e l w El Hw). auto.
Qed.

(** ** Only the characters of the text matter *)
Lemma ev_check {A} (c1 c2 : A -> N -> bool) T (n : nfa A) K : (forall s t a c, In (t, a) (trans (get n s)) -> In c T -> c1 a c = c2 a c) ->
  forall l j r, ev c1 T n K l j r -> (forall t a, In (ASym t a) l -> exists s, In (t, a) (trans (get n s))) -> ev c2 T n K l j r.
Proof.
  intros Hc.
  assert (HA : forall s t a, In (ASym t a) (alts n s) -> exists s, In (t, a) (trans (get n s))).
  { intros s t a H. unfold alts in H. rewrite !in_app_iff in H. destruct H as [H|H].
    - destruct (s =? length n - 1); [destruct H as [H|[]]; discriminate|destruct H].
    - unfold edges in H. apply in_app_or in H as [H|H]; apply in_map_iff in H as ([t' a'] & E & H); [|discriminate]. injection E as <- <-. eauto. }
  assert (HC : forall s t a j, In (t, a) (trans (get n s)) -> canb c1 T j a = canb c2 T j a).
  { intros s t a j H. unfold canb. destruct (nth_error T j) as [c|] eqn:E; [|reflexivity]. rewrite (Hc s t a c H); [reflexivity|]. eapply nth_error_In; eauto. }
  assert (G : (forall x j r, ev1 c1 T n K x j r -> (forall t a, x = ASym t a -> exists s, In (t, a) (trans (get n s))) -> ev1 c2 T n K x j r) /\
    (forall l j r, ev c1 T n K l j r -> (forall t a, In (ASym t a) l -> exists s, In (t, a) (trans (get n s))) -> ev c2 T n K l j r)).
  { apply ev_ind2.
    - intros; now constructor.
    - intros t a j H Hx. destruct (Hx t a eq_refl) as (s & Hs). constructor. now rewrite <- (HC s t a j Hs).
    - intros t a j c r H _ IH Hx. destruct (Hx t a eq_refl) as (s & Hs). constructor; [now rewrite <- (HC s t a j Hs)|]. apply IH. apply HA.
    - intros; now constructor.
    - intros t e j r H _ IH _. constructor; [assumption|]. apply IH. apply HA.
    - intros; constructor.
    - intros x l j r r' _ IH1 _ IH2 Hx. constructor; [apply IH1; intros t a ->; apply Hx; now left|apply IH2; intros t a Ht; apply Hx; now right]. }
  exact (proj2 G).
Qed.
Lemma alts_syms {A} (n : nfa A) s t a : In (ASym t a) (alts n s) -> exists s, In (t, a) (trans (get n s)).
Proof.
  intros H. unfold alts in H. rewrite !in_app_iff in H. destruct H as [H|H].
  - destruct (s =? length n - 1); [destruct H as [H|[]]; discriminate|destruct H].
  - unfold edges in H. apply in_app_or in H as [H|H]; apply in_map_iff in H as ([t' a'] & E & H); [|discriminate]. injection E as <- <-. eauto.
Qed.

(** ** The answer that belongs to the preferred match *)
Definition answer (T : list N) (g : nat) (m : option (nat * nat * log)) : option (list (option span)) :=
  match m with Some (_, _, L) => Some (map (capture T L) (seq 0 g)) | None => None end.
Section Best.
  Variable s : list N.
  Variable e : ere.
  Hypothesis Hp : parse_str s = ROk e.
  Hypothesis Hs : Forall scalar s.
  Hypothesis Hloops : loops_read e = true.
  Variable T : list N.
  Hypothesis HT : Forall scalar T.
  Variable has : atom -> N -> bool.
  Hypothesis Hhas : forall a c, has a c = true <-> atom_has a c.
  Notation bw := (best T (tways acheck T (tree_of e))).
  Lemma best_finish g : run_finish T (option_map (fun W => run_marks len_utf8 0 W (no_bounds g)) bw) = Ok (answer T g (hd_error (all_matches has T e))).
  Proof using HT Hhas Hloops.
    assert (H := best_picks T HT has Hhas e). destruct (hd_error (all_matches has T e)) as [[[i j] L]|], bw as [W|]; cbn in H; try contradiction; [|reflexivity].
    destruct H as (u & -> & Hu & Hr & Hb). assert (Hle := reads_le _ _ _ _ Hr). assert (E : length (firstn i T) = i) by (rewrite firstn_length; lia).
    cbn [option_map run_finish]. rewrite (finish_marks T (firstn i T) u j (skipn j T) L g); [reflexivity| |now rewrite E|now rewrite E].
    apply reads_app. exists i. split.
    - rewrite <- E at 2. rewrite <- (Nat.add_0_l (length _)). apply reads_IC; [rewrite E; reflexivity|lia].
    - apply reads_app. exists j. split; [assumption|]. assert (E2 : length (skipn j T) = length T - j) by apply skipn_length.
      replace (length T) with (j + length (skipn j T)) by lia. apply reads_IC; [apply firstn_all|lia].
  Qed.
  Lemma char_best n : working_new (tree_of e) = Ok n -> n <> [] -> ev acheck T n (K0 T) (alts n 0) 0 bw.
  Proof using Hp Hs Hloops HT.
    intros En Hn. apply (working_best T HT); auto.
    - eapply tree_labels_mono; [|apply tree_of_labels; eapply parsed_ok; eauto]. auto.
    - apply tree_of_ok.
    - apply tree_of_length.
    - now apply loops_tree_of.
  Qed.
  Lemma byte_best n m : working_new (tree_of e) = Ok n -> u8_new n = Ok m -> m <> [] ->
    ev byte_check (utf8 T) m (K0 (utf8 T)) (alts m 0) 0 (option_map enc bw).
  Proof using Hp Hs Hloops HT.
    intros En Em Hm. assert (Hn : n <> []) by (intros ->; rewrite u8_nil in Em; discriminate).
    destruct (parsed_working_ne s e Hp Hs n En Hn) as [(H1 & H2 & _ & _ & H5) _]. apply lab_iff in H5 as [H5 _].
    eapply u8_best; eauto; [lia|]. now apply char_best.
  Qed.
  Hypothesis Heven : anchors_even e = true.
  Lemma flat_char_best n : working_new (tree_of e) = Ok n -> n <> [] ->
    flat_char_exec n T = Ok (answer T (num_capture_groups n) (hd_error (all_matches has T e))).
  Proof using Hp Hs Hloops HT Hhas Heven.
    intros En Hn. destruct (parsed_working_ne s e Hp Hs n En Hn) as [Ha Hg]. assert (Ha' := Ha). destruct Ha' as (H1 & H2 & H3 & H4 & H5).
    destruct (flat_make_spec n (ok_wf _ H1) ltac:(lia) Hg) as (tbl & Et & _). unfold flat_char_exec. rewrite Et. cbn [bind].
    destruct (flat_table_spec n (ok_wf _ H1) ltac:(lia)) as (tbl' & Et' & _). assert (tbl' = tbl) as ->.
    { unfold flat_make in Et. rewrite wfb_guard in Et by (try apply ok_wf; auto; lia). cbn [guard bind] in Et. rewrite Et' in Et. cbn [bind] in Et. destruct (forallb _ _); congruence. }
    destruct (anchors_words e Heven) as (HS & HE & HU).
    rewrite (flat_first atom_check len_utf8 len_utf8_pos T n (ok_wf _ H1) ltac:(lia) (proj1 (fin_last _ (ok_fin _ H1))) tbl Et' HS HE) with (r := bw).
    - apply best_finish.
    - intros W HW HR. apply HU. assert (X : accepted T e W) by (apply H4; [assumption|]; split; [now apply (lang_acheck T)|assumption]). apply X.
    - eapply (ev_check acheck atom_check); [|now apply char_best|apply alts_syms].
      intros s0 t a c _ Hc. unfold acheck. rewrite Forall_forall in HT. apply HT in Hc. unfold scalar in Hc. rewrite Hc. now rewrite ?andb_true_r.
  Qed.
  Lemma flat_u8_best n m : working_new (tree_of e) = Ok n -> u8_new n = Ok m -> m <> [] ->
    flat_u8_exec m T = Ok (answer T (num_capture_groups m) (hd_error (all_matches has T e))).
  Proof using Hp Hs Hloops HT Hhas Heven.
    intros En Em Hm. assert (Hb := parsed_u8_ne s e Hp Hs n m En Em Hm). assert (Hb' := Hb). destruct Hb' as (M1 & M2 & M3 & M4 & M5 & M6 & M7).
    destruct (flat_make_spec m (ok_wf _ M1) ltac:(lia) M5) as (tbl & Et & _). unfold flat_u8_exec. rewrite Et. cbn [bind].
    destruct (flat_table_spec m (ok_wf _ M1) ltac:(lia)) as (tbl' & Et' & _). assert (tbl' = tbl) as ->.
    { unfold flat_make in Et. rewrite wfb_guard in Et by (try apply ok_wf; auto; lia). cbn [guard bind] in Et. rewrite Et' in Et. cbn [bind] in Et. destruct (forallb _ _); congruence. }
    destruct (anchors_words e Heven) as (HS & HE & HU).
    rewrite (flat_first byte_check (fun _ => 1) (fun _ => le_n 1) (utf8 T) m (ok_wf _ M1) ltac:(lia) (proj1 (fin_last _ (ok_fin _ M1))) tbl Et' HS HE) with (r := option_map enc bw).
    - rewrite <- best_finish. f_equal. destruct bw as [W|]; [|reflexivity]. cbn [option_map]. now rewrite run_marks_enc.
    - intros W HW HR. destruct (proj1 (M4 T W HT) (conj HW HR)) as (w & Hw & ->). rewrite !has_enc. apply HU. apply Hw.
    - now apply (byte_best n).
  Qed.
End Best.
