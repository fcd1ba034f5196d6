(** What every engine guarantees, also where a DFA lets a [^] pass after the last character: the answer is then that of
    the pattern without its [^]. *)
From Verif Require Export PAll.
From Coq Require Import ZifyBool ZifyNat ZifyN.
Open Scope nat_scope.
Open Scope list_scope.
Set Default Proof Using "Type".

Definition not_caret (i : item) : bool := match i with IM EStart => false | _ => true end.
Definition erase (w : word) : word := filter not_caret w.
Lemma erase_app u v : erase (u ++ v) = erase u ++ erase v.
Proof. apply filter_app. Qed.
Lemma erase_chars l : erase (map IC l) = map IC l.
Proof. induction l as [|a l IH]; [reflexivity|]. cbn in *. now f_equal. Qed.
Lemma erase_enc w : erase (enc w) = enc (erase w).
Proof.
  induction w as [|[c|e] w IH]; [reflexivity| |].
  - change (IC c :: w) with ([IC c] ++ w). rewrite enc_app, !erase_app, enc_app, IH. f_equal. cbn. rewrite app_nil_r. now rewrite erase_chars.
  - change (IM e :: w) with ([IM e] ++ w). rewrite enc_app, !erase_app, enc_app, IH. f_equal. now destruct e.
Qed.
Lemma erase_In e w : e <> EStart -> In (IM e) w -> In (IM e) (erase w).
Proof. intros He H. apply filter_In. split; [assumption|]. destruct e; try reflexivity. congruence. Qed.
Lemma erase_marks width w : forall i b, run_marks width i (erase w) b = run_marks width i w b.
Proof. induction w as [|[c|e] w IH]; intros i b; [reflexivity|cbn; apply IH|]. destruct e; cbn; apply IH. Qed.
Lemma erase_reads T i w j : reads T i w j -> reads T i (erase w) j.
Proof. induction 1 as [i Hi|i c w j Hc H IH|i e w j H1 H2 H IH]; cbn; [now constructor|now constructor|]. destruct e; cbn; try (constructor; auto; fail). assumption. Qed.
Lemma erase_start w : has EStart (erase w) = false.
Proof. destruct (has EStart (erase w)) eqn:E; [|reflexivity]. apply has_iff in E. apply filter_In in E as [_ E]. discriminate. Qed.
Lemma erase_end w : has EEnd (erase w) = true -> has EEnd w = true.
Proof. intros H. apply has_iff in H. apply filter_In in H as [H _]. now apply has_iff. Qed.
Lemma chars_erase w : chars (erase w) = chars w.
Proof. induction w as [|[c|e] w IH]; [reflexivity|cbn [erase filter not_caret chars]; f_equal; exact IH|]. destruct e; exact IH. Qed.
Lemma erase_late T j W : late T j W -> reads T 0 (erase W) j.
Proof.
  intros (u & z & -> & Hz & Hu & Hend). rewrite erase_app. apply reads_app. exists j. split; [now apply erase_reads|]. assert (Hj := reads_le _ _ _ _ Hu).
  apply (proj2 (zero_reads T j (erase z) (eq_trans (chars_erase z) Hz) (proj2 Hj))). split; [now rewrite erase_start|]. intros H. apply Hend. now apply erase_end.
Qed.

(** Groups and words of the pattern without [^]. *)
Lemma uncaret_groups :
  (forall p, groups_part (uncaret_part p) = groups_part p) /\ (forall e, groups_expr (uncaret_expr e) = groups_expr e) /\
  (forall b, groups_branch (uncaret_branch b) = groups_branch b) /\ (forall e, groups (uncaret e) = groups e).
Proof.
  apply syntax_ind; try reflexivity.
  - intros e IH. exact IH.
  - intros e q IH. exact IH.
  - intros bs IH. cbn [uncaret_expr groups_expr]. f_equal. exact IH.
  - intros p b IHp IHb. unfold uncaret_branch. cbn [flat_map]. fold (uncaret_branch b). destruct (is_caret p) eqn:Ep.
    + destruct p; try discriminate. exact IHb.
    + cbn [app]. rewrite !groups_branch_cons. lia.
  - intros b e IHb IHe. unfold groups in *. cbn [uncaret map list_sum fold_right]. rewrite IHb. f_equal. exact IHe.
Qed.
Lemma uncaret_words chk :
  (forall p g w, is_caret p = false -> tlang chk (part_tree p g) w -> tlang chk (part_tree (uncaret_part p) g) (erase w)) /\
  (forall e g w, tlang chk (expr_tree e g) w -> tlang chk (expr_tree (uncaret_expr e) g) (erase w)) /\
  (forall b g w, tlang chk (TConcat (branch_trees b g)) w -> tlang chk (TConcat (branch_trees (uncaret_branch b) g)) (erase w)) /\
  (forall e g w, tlang chk (TUnion (ere_trees e g)) w -> tlang chk (TUnion (ere_trees (uncaret e) g)) (erase w)).
Proof.
  apply syntax_ind.
  - intros e IH g w _ Hw. exact (IH g w Hw).
  - intros e q IH g w _ Hw. cbn [uncaret_part]. rewrite part_tree_quant in *. apply quant_lang in Hw as (n & Hq & Hw). apply quant_lang. exists n. split; [assumption|].
    clear Hq. induction Hw as [|n u v Hu Hv IHv]; [constructor|]. rewrite erase_app. constructor; auto.
  - intros g w H. discriminate.
  - intros g w _ Hw. cbv in Hw. subst w. reflexivity.
  - intros a g w (c & Hc & ->). exists c. auto.
  - intros bs IH g w Hw. cbn [uncaret_expr]. fold (uncaret bs). rewrite expr_tree_sub in *. destruct Hw as (v & Hv & ->). exists (erase v). split; [now apply IH|].
    change (IM (ESC g) :: v ++ [IM (EEC g)]) with ([IM (ESC g)] ++ v ++ [IM (EEC g)]). now rewrite !erase_app.
  - intros g w Hw. inversion Hw; subst. constructor.
  - intros p b IHp IHb g w Hw. rewrite branch_trees_cons in Hw. cbn in Hw. inversion Hw as [|L0 Ls u v Hu Hv]; subst. rewrite erase_app.
    unfold uncaret_branch. cbn [flat_map]. fold (uncaret_branch b). destruct (is_caret p) eqn:Ep.
    + destruct p; try discriminate. cbv in Hu. subst u. cbn [erase filter not_caret app]. specialize (IHb (g + 0) v Hv). now rewrite Nat.add_0_r in IHb.
    + cbn [app]. rewrite branch_trees_cons. cbn. constructor; [now apply IHp|]. rewrite (proj1 uncaret_groups). exact (IHb _ v Hv).
  - intros g w Hw. inversion Hw.
  - intros b e IHb IHe g w Hw. cbn [uncaret map]. rewrite ere_trees_cons in *. cbn in *. inversion Hw as [L0 Ls Hw'|L0 Ls Hw']; subst; [left|right].
    + exact (IHb g w Hw').
    + rewrite (proj1 (proj2 (proj2 uncaret_groups))). exact (IHe _ w Hw').
Qed.
Lemma uncaret_padded chk e w : padded true true (tlang chk (tree_of e)) w -> padded true true (tlang chk (tree_of (uncaret e))) (erase w).
Proof.
  intros (pre & v & post & -> & H1 & H2 & H3 & H4 & Hv). exists pre, (erase v), post. rewrite !erase_app, !erase_chars. do 5 (split; [solve [auto]|]).
  rewrite tree_of_eq in *. destruct Hv as (x & Hx & ->). exists (erase x). split; [now apply uncaret_words|].
  change (IM (ESC 0) :: x ++ [IM (EEC 0)]) with ([IM (ESC 0)] ++ x ++ [IM (EEC 0)]). now rewrite !erase_app.
Qed.
(** A match of the pattern is one of the pattern without [^]. *)
Lemma uncaret_match T :
  (forall p g i j L, m_part T p g i j L -> if is_caret p then i = j /\ L = [] /\ i <= length T else m_part T (uncaret_part p) g i j L) /\
  (forall e n g i j L, m_iter T e n g i j L -> m_iter T (uncaret_expr e) n g i j L) /\
  (forall e g i j L, m_expr T e g i j L -> m_expr T (uncaret_expr e) g i j L) /\
  (forall e g i j L, m_alts T e g i j L -> m_alts T (uncaret e) g i j L) /\
  (forall b g i j L, m_branch T b g i j L -> m_branch T (uncaret_branch b) g i j L).
Proof.
  apply match_ind; intros; cbn [is_caret uncaret_part]; try (econstructor; eauto; fail).
  - split; [reflexivity|]. split; [reflexivity|lia].
  - apply ma_later. now rewrite (proj1 (proj2 (proj2 uncaret_groups))).
  - unfold uncaret_branch. cbn [flat_map]. fold (uncaret_branch b). destruct (is_caret p) eqn:Ep.
    + destruct H as (-> & -> & _). cbn [app]. destruct p; try discriminate. cbn [groups_part] in H0. now rewrite Nat.add_0_r in H0.
    + cbn [app]. econstructor; eauto. now rewrite (proj1 uncaret_groups).
Qed.
Lemma matches_uncaret T e i j L : matches T e i j L -> matches T (uncaret e) i j L.
Proof. intros (L' & H & ->). exists L'. split; [|reflexivity]. now apply uncaret_match. Qed.

(** ** Words read with [^] at other positions *)
Inductive areads (T : list N) (P : nat -> Prop) : nat -> word -> nat -> Prop :=
| ar_nil : forall i, i <= length T -> areads T P i [] i
| ar_char : forall i c w j, nth_error T i = Some c -> areads T P (S i) w j -> areads T P i (IC c :: w) j
| ar_mark : forall i e w j, (e = EStart -> P i) -> (e = EEnd -> i = length T) -> areads T P i w j -> areads T P i (IM e :: w) j.
Lemma areads_le T P i w j : areads T P i w j -> i <= j <= length T.
Proof. induction 1; lia. Qed.
Lemma areads_app T P u : forall i v j, areads T P i (u ++ v) j -> exists k, areads T P i u k /\ areads T P k v j.
Proof.
  induction u as [|x u IH]; intros i v j H; cbn in *.
  - exists i. split; [|assumption]. constructor. apply areads_le in H. lia.
  - inversion H; subst; (match goal with X : areads _ _ _ (u ++ v) _ |- _ => destruct (IH _ _ _ X) as (k & K1 & K2) end); exists k; (split; [constructor; assumption|assumption]).
Qed.
Lemma areads_marked T (P : nat -> Prop) : forall v i j, reads T i (erase v) j -> (forall a b, v = a ++ IM EStart :: b -> P (i + length (chars a))) -> areads T P i v j.
Proof.
  induction v as [|x v IH]; intros i j Hr Hp; cbn in Hr.
  - apply reads_nil_inv in Hr as [<- Hr]. now constructor.
  - assert (Hp' : forall a b, v = a ++ IM EStart :: b -> P (i + length (chars (x :: a)))) by (intros a b ->; apply (Hp (x :: a) b); reflexivity).
    destruct x as [c|m].
    + cbn [not_caret] in Hr. apply reads_char_inv in Hr as [Hn Hr]. constructor; [assumption|]. apply IH; [assumption|]. intros a b E. specialize (Hp' a b E). cbn in Hp'. now rewrite <- plus_n_Sm in Hp'.
    + assert (D : m = EStart \/ m <> EStart) by (destruct m; auto; right; discriminate). destruct D as [->|Hm].
      * cbn [not_caret] in Hr. constructor; [|discriminate|now apply IH]. intros _. specialize (Hp [] v eq_refl). cbn in Hp. now rewrite Nat.add_0_r in Hp.
      * assert (E : not_caret (IM m) = true) by (destruct m; try reflexivity; congruence). rewrite E in Hr. apply reads_mark_inv in Hr as (_ & H2 & Hr). constructor; [congruence|assumption|now apply IH].
Qed.
Lemma areading_spec T P :
  (forall p g w i j, tlang acheck (part_tree p g) w -> areads T P i w j -> exists L, a_part T P p g i j L /\ blog i w j L) /\
  (forall e g w i j, tlang acheck (expr_tree e g) w -> areads T P i w j -> exists L, a_expr T P e g i j L /\ blog i w j L) /\
  (forall b g w i j, tlang acheck (TConcat (branch_trees b g)) w -> areads T P i w j -> exists L, a_branch T P b g i j L /\ blog i w j L) /\
  (forall e g w i j, tlang acheck (TUnion (ere_trees e g)) w -> areads T P i w j -> exists L, a_alts T P e g i j L /\ blog i w j L).
Proof.
  apply syntax_ind.
  - intros e IH g w i j Hw Hr. destruct (IH g w i j Hw Hr) as (L & H1 & H2). exists L. split; [now constructor|assumption].
  - intros e q IH g w i j Hw Hr. rewrite part_tree_quant in Hw. apply quant_lang in Hw as (n & Hq & Hw).
    assert (G : exists L, a_iter T P e n g i j L /\ blog i w j L).
    { clear Hq. revert i Hr. induction Hw as [|n u v Hu Hv IHv]; intros i Hr.
      - inversion Hr; subst. exists []. split; constructor. assumption.
      - apply areads_app in Hr as (k & Hr1 & Hr2). destruct (IH _ _ _ _ Hu Hr1) as (L1 & H1 & H2).
        destruct (IHv _ Hr2) as (L2 & H3 & H4). exists (L1 ++ L2). split; econstructor; eauto. }
    destruct G as (L & H1 & H2). exists L. split; [econstructor; eauto|assumption].
  - intros g w i j Hw Hr. cbv in Hw. subst w. inversion Hr as [| |i' m w' j' H1 H2 H3]; subst. inversion H3; subst. exists []. split; constructor; auto.
  - intros g w i j Hw Hr. cbv in Hw. subst w. inversion Hr as [| |i' m w' j' H1 H2 H3]; subst. inversion H3; subst. rewrite H2 by reflexivity. exists []. split; constructor.
  - intros a g w i j (c & Hc & ->) Hr. inversion Hr as [|i' c' w' j' Hn H3|]; subst. inversion H3; subst. exists []. split; [|constructor]. econstructor; eauto.
    apply atom_check_iff. now apply andb_true_iff in Hc.
  - intros bs IH g w i j Hw Hr. rewrite expr_tree_sub in Hw. destruct Hw as (v & Hv & ->). inversion Hr as [| |i' m w' j' _ _ H3]; subst.
    apply areads_app in H3 as (k & H5 & H6). inversion H6 as [| |i' m w' j' _ _ H7]; subst. inversion H7; subst. destruct (IH _ _ _ _ Hv H5) as (L & H1 & H8).
    exists (L ++ [(g, (i, j))]). split; [now constructor|]. constructor; [assumption|]. eapply ere_fresh; eauto.
  - intros g w i j Hw Hr. inversion Hw; subst. inversion Hr; subst. exists []. split; constructor. assumption.
  - intros p b IHp IHb g w i j Hw Hr. rewrite branch_trees_cons in Hw. cbn in Hw. inversion Hw as [|L0 Ls u v Hu Hv]; subst. apply areads_app in Hr as (k & Hr1 & Hr2).
    destruct (IHp _ _ _ _ Hu Hr1) as (L1 & H2 & H3). destruct (IHb _ _ _ _ Hv Hr2) as (L2 & H5 & H6).
    exists (L1 ++ L2). split; econstructor; eauto.
  - intros g w i j Hw Hr. inversion Hw.
  - intros b e IHb IHe g w i j Hw Hr. rewrite ere_trees_cons in Hw. cbn in Hw. inversion Hw as [L0 Ls H0|L0 Ls H0]; subst.
    + destruct (IHb _ _ _ _ H0 Hr) as (L & H1 & H2). exists L. split; [now apply aa_here|assumption].
    + destruct (IHe _ _ _ _ H0 Hr) as (L & H1 & H2). exists L. split; [now apply aa_later|assumption].
Qed.
Lemma word_matches_at T P e i j w : tlang acheck (tree_of e) w -> areads T P i w j -> exists L, matches_at T P e i j L /\ blog i w j L.
Proof.
  rewrite tree_of_eq. intros (v & Hv & ->) Hr. inversion Hr as [| |i' m w' j' _ _ H3]; subst.
  apply areads_app in H3 as (k & H5 & H6). inversion H6 as [| |i' m w' j' _ _ H7]; subst. inversion H7; subst.
  destruct (proj2 (proj2 (proj2 (areading_spec T P))) _ _ _ _ _ Hv H5) as (L & H1 & H8).
  exists (L ++ [(0, (i, j))]). split; [exists L; auto|]. constructor; [assumption|]. eapply ere_fresh; eauto.
Qed.
Lemma match_at (T : list N) (P : nat -> Prop) : P 0 ->
  (forall p g i j L, m_part T p g i j L -> a_part T P p g i j L) /\
  (forall e n g i j L, m_iter T e n g i j L -> a_iter T P e n g i j L) /\
  (forall e g i j L, m_expr T e g i j L -> a_expr T P e g i j L) /\
  (forall e g i j L, m_alts T e g i j L -> a_alts T P e g i j L) /\
  (forall b g i j L, m_branch T b g i j L -> a_branch T P b g i j L).
Proof. intros H0. apply match_ind; intros; try (econstructor; eauto; fail). constructor; [assumption|lia]. Qed.
Lemma matches_late whole T e i j L : matches T e i j L -> late_match whole T e i j L.
Proof. intros (L' & H & ->). exists L'. split; [|reflexivity]. apply match_at; [now left|assumption]. Qed.
Lemma at_uncaret T P :
  (forall p g i j L, a_part T P p g i j L -> if is_caret p then i = j /\ L = [] /\ i <= length T else m_part T (uncaret_part p) g i j L) /\
  (forall e n g i j L, a_iter T P e n g i j L -> m_iter T (uncaret_expr e) n g i j L) /\
  (forall e g i j L, a_expr T P e g i j L -> m_expr T (uncaret_expr e) g i j L) /\
  (forall e g i j L, a_alts T P e g i j L -> m_alts T (uncaret e) g i j L) /\
  (forall b g i j L, a_branch T P b g i j L -> m_branch T (uncaret_branch b) g i j L).
Proof.
  apply at_ind; intros; cbn [is_caret uncaret_part]; try (econstructor; eauto; fail).
  - apply ma_later. now rewrite (proj1 (proj2 (proj2 uncaret_groups))).
  - unfold uncaret_branch. cbn [flat_map]. fold (uncaret_branch b). destruct (is_caret p) eqn:Ep.
    + destruct H as (-> & -> & _). cbn [app]. destruct p; try discriminate. cbn [groups_part] in H0. now rewrite Nat.add_0_r in H0.
    + cbn [app]. econstructor; eauto. now rewrite (proj1 uncaret_groups).
Qed.
Lemma late_uncaret whole T e i j L : late_match whole T e i j L -> matches T (uncaret e) i j L.
Proof. intros (L' & H & ->). exists L'. split; [|reflexivity]. now apply at_uncaret in H. Qed.
Lemma fresh_erase k v : fresh k v -> fresh k (erase v).
Proof. unfold fresh. intros [H1 H2]. split; intros H; apply filter_In in H as [H _]; auto. Qed.
Lemma blog_erase i v j L : blog i v j L -> blog i (erase v) j L.
Proof.
  induction 1; try constructor.
  - change (IM (ESC k) :: v ++ [IM (EEC k)]) with ([IM (ESC k)] ++ v ++ [IM (EEC k)]). rewrite !erase_app. cbn. constructor; [assumption|now apply fresh_erase].
  - rewrite erase_app. econstructor; eauto.
Qed.
Lemma late_split T j W a b : late T j W -> W = a ++ IM EStart :: b -> chars a = [] \/ chars b = [].
Proof.
  intros (u & z & E & Hz & Hu & _) Ew. rewrite E in Ew. apply app_eq_app in Ew as (l & [[E1 E2]|[E1 E2]]).
  - destruct l as [|x l]; cbn in E2.
    + right. rewrite <- E2 in Hz. exact Hz.
    + injection E2 as <- _. left. rewrite E1 in Hu. apply reads_app in Hu as (k & K1 & K2). apply reads_mark_inv in K2 as (K2 & _). specialize (K2 eq_refl). subst k.
      apply reads_chars in K1 as [K1 _]. destruct (chars a); [reflexivity|discriminate].
  - right. rewrite E2, chars_app in Hz. apply app_eq_nil in Hz as [_ Hz]. exact Hz.
Qed.

(** ** A late reading shows a late match *)
Lemma enc_IC B : enc (map IC B) = map IC (utf8 B).
Proof. induction B as [|b B IH]; [reflexivity|]. cbn. rewrite map_app. f_equal. exact IH. Qed.
Lemma late_shown whole e T w j : Forall scalar T -> padded true true (tlang acheck (tree_of e)) w -> late (utf8 T) j (enc w) -> (whole = true -> j = length (utf8 T)) ->
  exists i j' L, late_match whole T e i j' L /\
    (forall g, finish T (run_marks len_utf8 0 w (no_bounds g)) = Ok (map (capture T L) (seq 0 g))) /\
    (forall k, In (IM (ESC k)) w -> last_of k L <> None).
Proof.
  intros HT Hp Hl Hwh. assert (Hsp := fun a b E => late_split _ _ _ (enc a) (enc b) Hl E). apply erase_late in Hl. rewrite erase_enc in Hl.
  assert (Hj := reads_le _ _ _ _ Hl). destruct (reads_chars _ _ _ _ Hl) as [H1 H2]. rewrite chars_enc in *. cbn [Nat.add] in H1. rewrite Nat.sub_0_r in H2. cbn [skipn] in H2.
  destruct (utf8_prefix (chars (erase w)) T (skipn j (utf8 T))) as (B & EB & ES); [rewrite H2; symmetry; apply firstn_skipn|].
  assert (HB : whole = true -> B = []).
  { intros E. apply Hwh in E. rewrite E, skipn_all in ES. symmetry in ES. now apply utf8_nil in ES. }
  assert (Hr : reads T 0 (erase w ++ map IC B) (length T)).
  { apply reads_enc. rewrite enc_app. apply reads_app. exists j. split; [assumption|]. rewrite enc_IC, <- ES.
    assert (L : length (utf8 T) = j + length (skipn j (utf8 T))) by (rewrite skipn_length; lia). rewrite L at 1. apply reads_IC; [apply firstn_all|rewrite skipn_length; lia]. }
  destruct Hp as (pre & v & post & E & P1 & P2 & P3 & P4 & P5). rewrite E, !erase_app, !erase_chars, <- !app_assoc, <- map_app in Hr.
  assert (Hr0 := Hr). apply reads_app in Hr0 as (i & R1 & R2). apply reads_app in R2 as (j' & R2 & R3).
  apply reads_chars in R1 as [Ei _]. rewrite chars_IC in Ei. cbn in Ei. subst i.
  assert (Ej := proj1 (reads_chars _ _ _ _ R2)). rewrite chars_erase in Ej. assert (Ek := proj1 (reads_chars _ _ _ _ R3)). rewrite chars_IC, app_length in Ek.
  assert (Ha : areads T (fun k => k = 0 \/ k = j' /\ (whole = true -> j' = length T)) (length pre) v j').
  { apply areads_marked; [assumption|]. intros a b Ev. specialize (Hsp (map IC pre ++ a) (b ++ map IC post)).
    assert (X : chars (enc (map IC pre ++ a)) = [] \/ chars (enc (b ++ map IC post)) = []).
    { apply Hsp. rewrite E, Ev. rewrite <- !app_assoc. cbn [app]. rewrite !enc_app. cbn [enc flat_map enc_item app]. fold (enc (b ++ map IC post)). rewrite !enc_app, <- !app_assoc. reflexivity. }
    rewrite !chars_enc_nil, !chars_app, !chars_IC in X. destruct X as [X|X]; apply app_eq_nil in X as [X1 X2].
    - left. rewrite X1, X2. reflexivity.
    - right. rewrite Ev, chars_app, app_length in Ej. cbn [chars] in Ej. rewrite X1 in Ej. cbn [length] in Ej. split; [lia|]. intros W. rewrite (HB W), X2 in Ek. cbn in Ek. lia. }
  destruct (word_matches_at T _ _ _ _ _ P5 Ha) as (L & M1 & M2). exists (length pre), j', L. split; [exact M1|]. split.
  - intros g. rewrite <- (finish_marks T pre (erase v) j' (post ++ B) L g Hr R2 (blog_erase _ _ _ _ M2)). f_equal. rewrite <- erase_marks, E, !erase_app, !erase_chars. rewrite !run_marks_app, !run_marks_chars. reflexivity.
  - intros k Hk. rewrite E in Hk. apply (blog_mark _ v _ _ k M2).
    apply in_app_or in Hk as [Hk|Hk]; [apply in_map_iff in Hk as (c & X & _); discriminate|].
    apply in_app_or in Hk as [Hk|Hk]; [assumption|apply in_map_iff in Hk as (c & X & _); discriminate].
Qed.

(** ** What every engine guarantees *)
Section Sound.
  Variable e : ere.
  Variable n : nfa atom.
  Definition test_sound (m : nfa range) (en : engine) : Prop := forall T, Forall scalar T ->
    exists b, engine_test en T = Ok b /\ (occurs e T -> b = true) /\
      (b = true -> exists W j, lang byte_check m W /\ late (utf8 T) j W).
  Definition plain_dfa (en : engine) : bool := match en with EDfa _ => true | _ => false end.
  Definition engine_sound (en : engine) : Prop := forall T, Forall scalar T ->
    exists b o, engine_test en T = Ok b /\ engine_exec en T = Ok o /\
      (occurs e T -> b = true /\ o <> None) /\ (b = true -> exists i j L, late_match false T e i j L) /\
      forall cs, o = Some cs -> b = true /\ length cs = engine_groups en /\
        exists i j L, late_match (plain_dfa en) T e i j L /\ cs = map (capture T L) (seq 0 (length cs)) /\
                      forall k, (forall w, lang acheck n w -> In (IM (ESC k)) w) -> last_of k L <> None.
  Hypothesis Hn : automaton_of e n.
  Lemma mandatory_word T i j L k : Forall scalar T -> matches T e i j L -> (forall w, lang acheck n w -> In (IM (ESC k)) w) -> last_of k L <> None.
  Proof using Hn.
    intros HT Hm Hk. destruct (match_accepted T e HT i j L Hm) as (v & Ha & _ & Hb). destruct Hn as (N1 & N2 & _ & N4 & _). apply (N4 T _ HT) in Ha as [Ha _].
    apply Hk in Ha. apply in_app_or in Ha as [Ha|Ha]; [apply in_map_iff in Ha as (c & E & _); discriminate|].
    apply in_app_or in Ha as [Ha|Ha]; [|apply in_map_iff in Ha as (c & E & _); discriminate]. eapply blog_mark; eauto.
  Qed.
  Lemma right_sound en : engine_right e en -> engine_sound en.
  Proof using Hn.
    intros Hr T HT. destruct (right_test e en Hr T HT) as (b & Eb & Hb), (right_exec e en Hr T HT) as (o & Eo & Ho). exists b, o. do 2 (split; [assumption|]). split; [|split].
    - intros Hoc. split; [now apply Hb|]. destruct o; [discriminate|]. contradiction.
    - intros E. apply Hb in E as (i & j & L & Hm). exists i, j, L. now apply matches_late.
    - intros cs ->. destruct Ho as [(i & j & L & Hm & Hc) Hl]. split; [apply Hb; now exists i, j, L|]. split; [assumption|]. exists i, j, L. split; [now apply matches_late|]. split; [assumption|].
      intros k. eapply mandatory_word; eauto.
  Qed.
  Variable m : nfa range.
  Hypothesis Hm : byte_automaton_of e m.
  Hypothesis Hwords : forall W, lang byte_check m W -> exists w, W = enc w /\ lang acheck n w.
  Hypothesis Hpad : forall w, lang acheck n w -> padded true true (tlang acheck (tree_of e)) w.
  Lemma right_test_sound en : engine_right e en -> test_sound m en.
  Proof using Hm.
    intros Hr T HT. destruct (right_test e en Hr T HT) as (b & Eb & Hb). exists b. split; [assumption|]. split; [tauto|]. intros E. apply Hb, (byte_occurs e m T Hm HT) in E as (W & HW & Hre).
    exists W, (length (utf8 T)). split; [assumption|]. now apply reads_late.
  Qed.
  Lemma dfa_sound max d : tdfa_from_nfa m max = Ok (Some d) -> test_sound m (EDfa d) /\ engine_sound (EDfa d).
  Proof using Hn Hm Hwords Hpad.
    intros Hd. assert (Hm' := Hm). destruct Hm' as (M1 & M2 & _).
    assert (Sh : forall T j W, Forall scalar T -> lang byte_check m W -> late (utf8 T) j W -> exists w, W = enc w /\ lang acheck n w /\ padded true true (tlang acheck (tree_of e)) w /\ late (utf8 T) j (enc w)).
    { intros T j W HT HW Hl. destruct (Hwords W HW) as (w & -> & Hw). exists w. auto. }
    split.
    - intros T HT. destruct (dfa_engine_late m max d (utf8 T) (ok_wf _ M1) ltac:(lia) Hd (utf8_bytes T HT)) as [(x & Ex & Hx) _].
      exists (dfa_run_test x (utf8 T)). cbn [engine_test]. unfold dfa_test. rewrite Ex. cbn [bind]. split; [reflexivity|]. split.
      + intros Ho. destruct (dfa_complete e m max d T Hm Hd HT Ho) as [Hc _]. cbn [engine_test] in Hc. unfold dfa_test in Hc. rewrite Ex in Hc. cbn [bind] in Hc. congruence.
      + intros Hb. apply Hx in Hb as (j & W & HW & Hl). eauto.
    - intros T HT. destruct (dfa_engine_late m max d (utf8 T) (ok_wf _ M1) ltac:(lia) Hd (utf8_bytes T HT)) as [(x & Ex & Hx) He].
      cbn [engine_test engine_exec engine_groups]. unfold dfa_test, dfa_exec, run_finish. rewrite Ex. cbn [bind].
      assert (Hb : dfa_run_test x (utf8 T) = true -> exists i j L, late_match false T e i j L).
      { intros Hb. apply Hx in Hb as (j & W & HW & Hl). destruct (Sh T j W HT HW Hl) as (w & -> & Q1 & Q2 & Q3). destruct (late_shown false e T w j HT Q2 Q3 ltac:(discriminate)) as (i & j' & L & Q & _). now exists i, j', L. }
      assert (Hc := fun Ho => dfa_complete e m max d T Hm Hd HT Ho). cbn [engine_test] in Hc. unfold dfa_test in Hc. rewrite Ex in Hc. cbn [bind] in Hc.
      destruct (tdfa_run_exec d (utf8 T)) as [bs|].
      + destruct He as (W & HW & Hl & ->). destruct (Sh T _ W HT HW Hl) as (w & -> & Q1 & Q2 & Q3). destruct (late_shown true e T w _ HT Q2 Q3 (fun _ => eq_refl)) as (i & j' & L & Q & F & K).
        rewrite run_marks_enc, F. cbn [bind]. eexists. eexists. split; [reflexivity|]. split; [reflexivity|]. split; [|split; [assumption|]].
        * intros Ho. split; [|discriminate]. destruct (Hc Ho) as [E _]. congruence.
        * intros cs E. assert (X : map (capture T L) (seq 0 (tdfa_groups d)) = cs) by congruence. subst cs. split; [apply Hx; eauto|]. rewrite map_length, seq_length. split; [reflexivity|]. exists i, j', L. split; [assumption|]. split; [reflexivity|]. intros k Hk. apply K. auto.
      + eexists. eexists. split; [reflexivity|]. split; [reflexivity|]. split; [|split; [assumption|discriminate]].
        intros Ho. destruct (Hc Ho) as [_ (b & E)]. discriminate.
  Qed.
  Lemma fixed_sound b offs : fixed_offsets m = Ok (Some offs) -> test_sound m b -> engine_sound (EFixed b offs).
  Proof using Hm Hwords Hpad.
    intros Ef Hb T HT. assert (Hm' := Hm). destruct Hm' as (M1 & M2 & M3 & M4 & M5 & M6 & M7).
    destruct (fixed_offsets_spec m M6 (ok_wf _ M1) ltac:(lia) M5) as (o & Eo & Ho). rewrite Ef in Eo. injection Eo as <-.
    destruct (proj1 (Ho offs) eq_refl) as (_ & (W0 & HW0) & Hall).
    assert (Hlen : length offs = num_capture_groups m) by (rewrite <- (Hall W0 HW0), run_marks_length; apply repeat_length).
    destruct (Hb T HT) as (x & Ex & H1 & H2). cbn [engine_test engine_exec engine_groups]. rewrite Ex. cbn [bind].
    assert (Hoc : x = true -> exists i j L, late_match false T e i j L).
    { intros E. destruct (H2 E) as (W & j & Q1 & Q3). destruct (Hwords W Q1) as (w & -> & Q2). apply Hpad in Q2. destruct (late_shown false e T w j HT Q2 Q3 ltac:(discriminate)) as (i & j' & L & Q & _). now exists i, j', L. }
    destruct x.
    - destruct (H2 eq_refl) as (W & j & Q1 & Q3). destruct (Hwords W Q1) as (w & -> & Q0). assert (Q2 := Hpad w Q0). destruct (late_shown false e T w j HT Q2 Q3 ltac:(discriminate)) as (i & j' & L & Q & F & K).
      assert (X := Hall _ Q1). rewrite run_marks_enc in X. unfold fo_exec. rewrite (fo_finish T offs (map (capture T L) (seq 0 (length offs)))) by (rewrite <- X at 1; rewrite Hlen; apply F).
      eexists. eexists. split; [reflexivity|]. split; [reflexivity|]. split; [|split; [assumption|]].
      + intros _. split; [reflexivity|discriminate].
      + intros cs E. injection E as <-. split; [reflexivity|]. rewrite map_length, seq_length. split; [reflexivity|]. exists i, j', L. split; [assumption|]. split; [reflexivity|]. intros k Hk. apply K. auto.
    - eexists. eexists. split; [reflexivity|]. split; [reflexivity|]. split; [|split; [assumption|discriminate]]. intros Ho'. apply H1 in Ho'. discriminate.
  Qed.
End Sound.

(** ** All ways of compiling *)
Section Compiled.
  Variable s : list N.
  Variable e : ere.
  Hypothesis Hp : parse_str s = ROk e.
  Hypothesis Hs : Forall scalar s.
  Lemma base_sound b u n : working_new (tree_of e) = Ok n -> pick_base_engine e = Ok (b, u) -> n <> [] /\ byte_automaton_of e u /\
    (forall W, lang byte_check u W -> exists w, W = enc w /\ lang acheck n w) /\ test_sound e u b /\ engine_sound e n b.
  Proof using Hp Hs.
    intros En H. destruct (base_right s e b u Hp Hs H) as (H1 & _ & H3). unfold pick_base_engine in H. rewrite En in H. cbn [bind] in H.
    destruct (u8_new n) as [m| | |] eqn:Em; try discriminate. cbn [bind] in H.
    assert (Hn : n <> []) by (intros ->; rewrite u8_nil in Em; discriminate). destruct (parsed_working_ne s e Hp Hs n En Hn) as [Ha _].
    destruct (op_make m) as [[o|]| | |] eqn:Eo; try discriminate; cbn [bind] in H.
    { injection H as <- <-. assert (Hne : m <> []) by (intros ->; discriminate). do 2 (split; [assumption|]). split; [eapply u8_words; eauto; eapply parsed_ok; eauto|]. split; [now apply right_test_sound|now apply right_sound]. }
    assert (Hne : m <> []) by (intros ->; discriminate). assert (Hw := u8_words e n m (parsed_ok s e Hp Hs) En Ha Em Hne).
    destruct (tdfa_from_nfa m _) as [[d|]| | |] eqn:Ed; try discriminate; cbn [bind] in H.
    - unfold make_dfa in H. destruct (dfa_from_tagged d); try discriminate. cbn [bind] in H. injection H as <- <-. do 3 (split; [assumption|]).
      eapply dfa_sound; eauto. apply working_padded; [eapply parsed_ok; eauto|assumption..].
    - destruct (nfa_is_ascii n).
      + unfold make_flat_u8 in H. destruct (flat_make m); try discriminate. cbn [bind] in H. injection H as <- <-. do 3 (split; [assumption|]). split; [now apply right_test_sound|now apply right_sound].
      + unfold make_flat in H. destruct (flat_make n); try discriminate. cbn [bind] in H. destruct (nfa_compiles n); [|discriminate]. injection H as <- <-. do 3 (split; [assumption|]). split; [now apply right_test_sound|now apply right_sound].
  Qed.
  Lemma fixed_base_sound b u n offs : working_new (tree_of e) = Ok n -> pick_base_engine e = Ok (b, u) -> fixed_offsets u = Ok (Some offs) -> engine_sound e n (EFixed b offs).
  Proof using Hp Hs.
    intros En Eb Ef. destruct (base_sound b u n En Eb) as (Hn & Hu & Hw & Ht & _). eapply fixed_sound; eauto. apply working_padded; [eapply parsed_ok; eauto|assumption..].
  Qed.
End Compiled.
Lemma compiled_sound s en : compiled s en -> Forall scalar s ->
  exists e n, G_ere e s /\ working_new (tree_of e) = Ok n /\ automaton_of e n /\ engine_sound e n en.
Proof.
  intros H Hs.
  assert (P : exists e n, parse_str s = ROk e /\ working_new (tree_of e) = Ok n).
  { destruct H as [H|[H|[H|[H|[H|H]]]]]; apply with_ere_ok in H as (e & Hp & H); exists e; unfold pick_engine, pick_base_engine in H; destruct (working_new (tree_of e)) as [n| | |] eqn:En; try discriminate; exists n; auto. }
  destruct P as (e & n & Hp & En). exists e, n. split; [now apply parse_iff|]. split; [assumption|].
  assert (Q : n <> [] /\ engine_sound e n en).
  2:{ destruct Q as [Hn Q]. split; [|assumption]. eapply parsed_working_ne; eauto. }
  destruct H as [H|[H|[H|[H|[H|H]]]]]; apply with_ere_ok in H as (e' & Hp' & H); rewrite Hp in Hp'; injection Hp' as <-.
  - unfold pick_engine in H. destruct (pick_base_engine e) as [[b u]| | |] eqn:Eb; try discriminate. cbn [bind] in H. destruct (base_sound s e Hp Hs b u n En Eb) as (Hn & _ & _ & _ & Hb). split; [assumption|].
    destruct (fixed_offsets u) as [[offs|]| | |] eqn:Ef; try discriminate; cbn [bind] in H.
    + destruct (length offs =? num_capture_groups u) eqn:El; [|discriminate]. injection H as <-. eapply fixed_base_sound; eauto.
    + injection H as <-. assumption.
  - rewrite En in H. cbn [bind] in H. destruct (u8_new n) as [m| | |] eqn:Em; try discriminate. cbn [bind] in H. assert (Hn : n <> []) by (intros ->; rewrite u8_nil in Em; discriminate). split; [assumption|].
    destruct (tdfa_from_nfa m _) as [[d|]| | |] eqn:Ed; try discriminate; cbn [bind] in H. unfold make_dfa in H. destruct (dfa_from_tagged d); try discriminate. cbn [bind] in H. injection H as <-.
    assert (Hne : m <> []) by (intros ->; discriminate). destruct (parsed_working_ne s e Hp Hs n En Hn) as [Ha _].
    eapply dfa_sound with (m := m); eauto; [eapply parsed_u8_ne; eauto|eapply u8_words; eauto; eapply parsed_ok; eauto|apply working_padded; [eapply parsed_ok; eauto|assumption..]].
  - assert (Hr : compile_flat s = Ok en) by (unfold compile_flat, with_ere; rewrite Hp; assumption). rewrite En in H. cbn [bind] in H. unfold make_flat in H. destruct (flat_make n) as [tbl| | |] eqn:Et; try discriminate.
    assert (Hn := flat_make_ne _ _ Et). split; [assumption|]. apply right_sound; [eapply parsed_working_ne; eauto|]. destruct (compile_flat_right s en Hr Hs) as (e' & G' & R' & _). apply parse_iff in G'. rewrite Hp in G'. injection G' as <-. assumption.
  - assert (Hr : compile_flat_u8 s = Ok en) by (unfold compile_flat_u8, with_ere; rewrite Hp; assumption). rewrite En in H. cbn [bind] in H. destruct (u8_new n) as [m| | |] eqn:Em; try discriminate.
    assert (Hn : n <> []) by (intros ->; rewrite u8_nil in Em; discriminate). split; [assumption|]. apply right_sound; [eapply parsed_working_ne; eauto|]. destruct (compile_flat_u8_right s en Hr Hs) as (e' & G' & R' & _). apply parse_iff in G'. rewrite Hp in G'. injection G' as <-. assumption.
  - assert (Hr : compile_one_pass s = Ok en) by (unfold compile_one_pass, with_ere; rewrite Hp; assumption). rewrite En in H. cbn [bind] in H. destruct (u8_new n) as [m| | |] eqn:Em; try discriminate.
    assert (Hn : n <> []) by (intros ->; rewrite u8_nil in Em; discriminate). split; [assumption|]. apply right_sound; [eapply parsed_working_ne; eauto|]. destruct (compile_one_pass_right s en Hr Hs) as (e' & G' & R' & _). apply parse_iff in G'. rewrite Hp in G'. injection G' as <-. assumption.
  - destruct (pick_base_engine e) as [[b u]| | |] eqn:Eb; try discriminate. cbn [bind] in H. destruct (base_sound s e Hp Hs b u n En Eb) as (Hn & _). split; [assumption|].
    destruct (fixed_offsets u) as [[offs|]| | |] eqn:Ef; try discriminate; cbn [bind] in H. destruct (length offs =? num_capture_groups u) eqn:El; [|discriminate]. injection H as <-. eapply fixed_base_sound; eauto.
Qed.

(** ** Consequences *)
Lemma compiled_unique s en e : compiled s en -> Forall scalar s -> G_ere e s -> 1 <= engine_groups en /\
  (not_dfa en \/ caret_ok e = true -> engine_right e en) /\ exists n, working_new (tree_of e) = Ok n /\ automaton_of e n /\ engine_sound e n en.
Proof.
  intros H Hs Hg. apply parse_iff in Hg. destruct (compiled_right s en H Hs) as (e1 & G1 & H1 & R1). destruct (compiled_sound s en H Hs) as (e2 & n & G2 & En & Ha & R2).
  apply parse_iff in G1, G2. rewrite Hg in G1, G2. injection G1 as <-. injection G2 as <-. split; [assumption|]. split; [assumption|]. exists n. auto.
Qed.
Lemma bind_ok {A B} (r : res A) (k : A -> res B) v : (do x <- r; k x) = Ok v -> exists x, r = Ok x /\ k x = Ok v.
Proof. destruct r as [x| | |]; cbn; try discriminate. eauto. Qed.
Lemma not_occurs_flat s e T : G_ere e s -> Forall scalar s -> Forall scalar T -> (do en <- compile_flat s; engine_test en T) = Ok false -> ~ occurs e T.
Proof.
  intros Hg Hs HT H Ho. apply bind_ok in H as (en & Hc & H). destruct (compile_flat_right s en Hc Hs) as (e' & G' & R & _). apply parse_iff in Hg, G'. rewrite Hg in G'. injection G' as <-.
  destruct (right_test e en R T HT) as (b & Eb & Hb). rewrite H in Eb. injection Eb as <-. apply Hb in Ho. discriminate.
Qed.
Lemma capture_nth T L m k x : nth_error (map (capture T L) (seq 0 m)) k = Some x -> k < m /\ x = capture T L k.
Proof.
  intros H. assert (Hk : k < m).
  { assert (Hlt : k < length (map (capture T L) (seq 0 m))) by (apply nth_error_Some; congruence). now rewrite map_length, seq_length in Hlt. }
  split; [assumption|]. rewrite (map_nth_error (capture T L) k (seq 0 m) (d := k)) in H by (rewrite (nth_error_nth' _ 0) by (now rewrite seq_length); now rewrite seq_nth). congruence.
Qed.
Lemma nth_capture T L m k : k < m -> nth_error (map (capture T L) (seq 0 m)) k = Some (capture T L k).
Proof. intros H. apply (map_nth_error (capture T L) k (seq 0 m) (d := k)). rewrite (nth_error_nth' _ 0) by (now rewrite seq_length). now rewrite seq_nth. Qed.
Lemma byte_pos_mono T i j : i <= j -> byte_pos T i <= byte_pos T j.
Proof.
  intros H. unfold byte_pos. rewrite <- (firstn_skipn i (firstn j T)), firstn_firstn, Nat.min_l by assumption. rewrite map_app, list_sum_app. lia.
Qed.
Lemma sound_spans e n en T cs : engine_sound e n en -> Forall scalar T -> engine_exec en T = Ok (Some cs) ->
  length cs = engine_groups en /\ forall k a b, nth_error cs k = Some (Some (a, b)) -> a <= b /\ exists i j, i <= j <= length T /\ a = byte_pos T i /\ b = byte_pos T j.
Proof.
  intros Hs HT E. destruct (Hs T HT) as (b & o & _ & Eo & _ & _ & H). rewrite E in Eo. injection Eo as <-. destruct (H cs eq_refl) as (_ & Hl & i & j & L & Hm & Hc & _). split; [assumption|].
  intros k x y Hk. rewrite Hc in Hk. apply capture_nth in Hk as [_ Hk]. unfold capture in Hk. destruct (last_of k L) as [[p q]|] eqn:El; [|discriminate]. injection Hk as -> ->.
  assert (Hlog := match_log_ok T (uncaret e) HT i j L (late_uncaret _ _ _ _ _ _ Hm)). unfold log_ok in Hlog. rewrite Forall_forall in Hlog. apply last_of_In in El. specialize (Hlog _ El). cbn [fst snd] in Hlog.
  split; [apply byte_pos_mono; lia|]. exists p, q. auto.
Qed.
Lemma sound_groups e n en T cs : engine_sound e n en -> automaton_of e n -> 1 <= engine_groups en -> Forall scalar T -> engine_exec en T = Ok (Some cs) ->
  (exists sp, nth_error cs 0 = Some (Some sp)) /\ forall k, k < length cs -> capture_group_is_optional n k = Ok false -> exists sp, nth_error cs k = Some (Some sp).
Proof.
  intros Hs (N1 & N2 & _) Hg HT E. destruct (Hs T HT) as (b & o & _ & Eo & _ & _ & H). rewrite E in Eo. injection Eo as <-. destruct (H cs eq_refl) as (_ & Hl & i & j & L & Hm & Hc & Hk). split.
  - rewrite Hc, nth_capture by lia. unfold capture. rewrite (match_zero (uncaret e) T i j L (late_uncaret _ _ _ _ _ _ Hm)). eauto.
  - intros k Hlt Ho. specialize (Hk k (optional_spec acheck n (ok_wf _ N1) ltac:(lia) k Ho)).
    rewrite Hc, nth_capture by assumption. unfold capture. destruct (last_of k L) as [[x y]|]; [eauto|congruence].
Qed.
Lemma right_same e en1 en2 T : engine_right e en1 -> engine_right e en2 -> Forall scalar T -> engine_test en1 T = engine_test en2 T.
Proof.
  intros R1 R2 HT. destruct (right_test e en1 R1 T HT) as (b1 & -> & H1), (right_test e en2 R2 T HT) as (b2 & -> & H2). f_equal. destruct b1, b2; try reflexivity; [symmetry; apply H2, H1|apply H1, H2]; reflexivity.
Qed.
Lemma flat_not_dfa s en : compile_flat s = Ok en -> not_dfa en.
Proof.
  intros H. apply with_ere_ok in H as (e & _ & H). destruct (working_new (tree_of e)) as [n| | |]; try discriminate. cbn [bind] in H. unfold make_flat in H.
  destruct (flat_make n); try discriminate. cbn [bind] in H. destruct (nfa_compiles n); [|discriminate]. injection H as <-. exact I.
Qed.
Lemma mapM_In {A B} (f : A -> res B) l ys : mapM f l = Ok ys -> forall k x, nth_error l k = Some x -> exists y, nth_error ys k = Some y /\ f x = Ok y.
Proof.
  revert ys. induction l as [|a l IH]; intros ys H k x Hk; [destruct k; discriminate|]. cbn [mapM] in H. destruct (f a) as [z| | |] eqn:E; try discriminate. cbn [bind] in H.
  destruct (mapM f l) as [zs| | |] eqn:E'; try discriminate. cbn [bind] in H. injection H as <-. destruct k; cbn in *; [injection Hk as <-; eauto|eapply IH; eauto].
Qed.
Lemma mapM_length {A B} (f : A -> res B) l ys : mapM f l = Ok ys -> length ys = length l.
Proof.
  revert ys. induction l as [|a l IH]; intros ys H; cbn [mapM] in H; [now injection H as <-|]. destruct (f a) as [z| | |]; try discriminate. cbn [bind] in H.
  destruct (mapM f l) as [zs| | |]; try discriminate. cbn [bind] in H. injection H as <-. cbn. now rewrite (IH zs eq_refl).
Qed.
Lemma attr_total s en opts T : attr_compile s = Ok (en, opts) -> Forall scalar s -> Forall scalar T -> exists o, attr_exec en opts T = Ok o.
Proof.
  intros H Hs HT. unfold attr_compile, with_ere in H. destruct (parse_str s) as [e| |] eqn:Hp; try discriminate.
  destruct (working_new (tree_of e)) as [n| | |] eqn:En; try discriminate. cbn [bind] in H.
  destruct (mapM (capture_group_is_optional n) (seq 0 (num_capture_groups n))) as [os| | |] eqn:Eo; try discriminate. cbn [bind] in H.
  destruct (pick_engine e) as [en'| | |] eqn:Ep; try discriminate. cbn [bind] in H. destruct (Nat.eqb_spec (engine_groups en') (num_capture_groups n)) as [Hgr|]; [|discriminate]. injection H as -> ->.
  assert (Hc : compiled s en) by (left; unfold compile_regex, with_ere; now rewrite Hp). apply parse_iff in Hp. destruct (compiled_unique s en e Hc Hs Hp) as (H1 & _ & n' & En' & Ha & Hr). rewrite En in En'. injection En' as <-.
  unfold attr_exec. assert (Hr' := Hr). destruct (Hr' T HT) as (b & o & _ & Ex & _). rewrite Ex. cbn [bind]. destruct o as [cs|]; [|eauto].
  destruct (sound_groups e n en T cs Hr Ha H1 HT Ex) as [_ Hk]. destruct (sound_spans e n en T cs Hr HT Ex) as [Hl _].
  destruct (mapM_ok (fun p : nat * bool => attr_field cs (fst p) (snd p)) (enumerate opts)) as (ys & ->); [|cbn [bind]; eauto].
  intros [k opt] Hi. cbn [fst snd]. unfold attr_field. destruct (nth k cs None) as [sp|] eqn:Es; [eauto|]. destruct opt; [eauto|]. exfalso.
  apply In_enumerate in Hi. assert (Hlen : length opts = num_capture_groups n) by (apply mapM_length in Eo; now rewrite seq_length in Eo).
  assert (Hkl : k < length opts) by (apply nth_error_Some; congruence).
  destruct (mapM_In _ _ _ Eo k k) as (y & Ey & Hy); [rewrite (nth_error_nth' _ 0) by (rewrite seq_length; lia); rewrite seq_nth by lia; reflexivity|].
  rewrite Hi in Ey. injection Ey as <-. destruct (Hk k ltac:(lia) Hy) as (sp & Hsp). apply nth_error_nth with (d := None) in Hsp. congruence.
Qed.

(** ** Boundaries of characters *)
Lemma bytes_cons x l : list_sum (x :: l) = x + list_sum l.
Proof. reflexivity. Qed.
Lemma len_char c : scalar c -> len_utf8 c = char_bytes c /\ 1 <= char_bytes c.
Proof. intros H. unfold len_utf8, char_bytes. repeat match goal with |- context [if ?b then _ else _] => destruct b eqn:?E end; split; try lia. Qed.
Lemma boundary_iff T : Forall scalar T -> forall i, is_boundary T i = true <-> exists k, k <= List.length T /\ i = byte_pos T k.
Proof.
  induction 1 as [|c T Hc HT IH]; intros i.
  - destruct i; cbn; split; intros H; [exists 0; split; auto|reflexivity|discriminate|]. destruct H as (k & H & E). destruct k; [discriminate|lia].
  - destruct (len_char c Hc) as [E1 E2]. destruct i as [|i]; [split; intros _; [exists 0; split; [lia|reflexivity]|reflexivity]|]. cbn [is_boundary]. rewrite E1, andb_true_iff, IH. split.
    + intros (H & k & Hk & E). exists (S k). split; [cbn; lia|]. unfold byte_pos in *. cbn [firstn map]. rewrite bytes_cons. lia.
    + intros (k & Hk & E). destruct k as [|k]; [discriminate|]. unfold byte_pos in *. cbn [firstn map] in E. rewrite bytes_cons in E. split; [lia|]. exists k. cbn in Hk. split; lia.
Qed.
