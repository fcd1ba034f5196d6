(** The bounds on the length of a match are attained. *)
From Verif Require Export SpecLen PBytes POptional PCompile.
From Coq Require Import ZifyBool ZifyNat ZifyN.
Open Scope nat_scope.
Open Scope list_scope.
Set Default Proof Using "Type".

(** ** Atoms *)
Definition ends_ok (a : atom) : Prop :=
  (exists r l, to_ranges a = r :: l /\ acheck a (fst r) = true) /\ (exists r l, rev (to_ranges a) = r :: l /\ acheck a (snd r) = true).
Lemma ends_ok_intro a : atom_ok a -> atom_fwd a -> (exists c, scalar c /\ atom_has a c) -> ends_ok a.
Proof.
  intros Ha Hf (c & Hc & Hh). assert (Hr := proj2 (to_ranges_iff a c Ha Hc) Hh). destruct Hr as (r0 & Hr0 & _). destruct (to_ranges_canonical a Ha Hf) as [Hle _]. assert (Hok := to_ranges_ok a Ha). rewrite Forall_forall in Hle, Hok.
  assert (G : forall r, In r (to_ranges a) -> acheck a (fst r) = true /\ acheck a (snd r) = true).
  { intros r Hi. specialize (Hle r Hi). destruct (Hok r Hi) as [S1 S2]. unfold acheck.
    split; apply andb_true_intro; (split; [|assumption]); apply atom_check_iff; (apply to_ranges_iff; [assumption..|]); exists r; (split; [assumption|]); lia. }
  split.
  - destruct (to_ranges a) as [|r l] eqn:E; [destruct Hr0|]. exists r, l. split; [reflexivity|]. apply G. now left.
  - destruct (rev (to_ranges a)) as [|r l] eqn:E; [apply (f_equal (@rev _)) in E; rewrite rev_involutive in E; rewrite E in Hr0; destruct Hr0|].
    exists r, l. split; [reflexivity|]. apply G. apply in_rev. rewrite E. now left.
Qed.

Lemma atom_bytes a c : atom_ok a -> scalar c -> atom_has a c -> atom_min_bytes a <= char_bytes c <= atom_max_bytes a.
Proof.
  intros Ha Hc Hh. unfold atom_min_bytes, atom_max_bytes. change (char_bytes c) with (len_utf8 c). split.
  - destruct (to_ranges a) as [|r l] eqn:E; [lia|]. apply len_utf8_mono. eapply to_ranges_head; eauto.
  - destruct (rev (to_ranges a)) as [|r l] eqn:E.
    + apply (f_equal (@rev _)) in E. rewrite rev_involutive in E. apply (to_ranges_iff a c Ha Hc) in Hh as (r & Hr & _). rewrite E in Hr. destruct Hr.
    + apply (f_equal (@rev _)) in E. rewrite rev_involutive in E. cbn in E. apply len_utf8_mono. eapply to_ranges_last; eauto.
Qed.
Lemma atom_bytes_reached a : atom_ok a -> atom_fwd a -> (exists c, scalar c /\ atom_has a c) ->
  (exists c, scalar c /\ atom_has a c /\ char_bytes c = atom_min_bytes a) /\ (exists c, scalar c /\ atom_has a c /\ char_bytes c = atom_max_bytes a).
Proof.
  intros Ha Hf Hi. destruct (ends_ok_intro a Ha Hf Hi) as [(r & l & E & Hr) (r' & l' & E' & Hr')]. apply andb_true_iff in Hr as [H1 H2], Hr' as [H3 H4]. unfold atom_min_bytes, atom_max_bytes. rewrite E', E.
  split; [exists (fst r)|exists (snd r')]; (split; [assumption|split; [now apply atom_check_iff|reflexivity]]).
Qed.

(** ** Trees *)
Fixpoint lively (t : tree) : Prop :=
  match t with
  | TUnion l => l <> [] /\ fold_right (fun t Q => lively t /\ Q) True l
  | TConcat l => fold_right (fun t Q => lively t /\ Q) True l
  | TCapture t _ | TStar t _ => lively t
  | TRepeat t n | TUpTo t n _ => 1 <= n /\ lively t
  | TNever => False
  | _ => True
  end.
Lemma lively_In l t : fold_right (fun t Q => lively t /\ Q) True l -> In t l -> lively t.
Proof. induction l as [|x l IH]; cbn; [tauto|]. intros [H1 H2] [<-|H]; auto. Qed.
Lemma bytes_mark e w : bytes (IM e :: w) = bytes w.
Proof. reflexivity. Qed.
Lemma bytes_capture k v : bytes (IM (ESC k) :: v ++ [IM (EEC k)]) = bytes v.
Proof. rewrite bytes_mark, bytes_app. cbn. lia. Qed.
Lemma powL_same (L : word -> Prop) v n : L v -> exists w, powL L n w /\ bytes w = bytes v * n.
Proof.
  intros H. induction n as [|n (w & Hw & E)]; [exists []; split; [constructor|cbn; lia]|]. exists (v ++ w). split; [now constructor|]. rewrite bytes_app. lia.
Qed.
Lemma fold_max_in l : forall x n, fold_left opt_max l x = Some n -> In (Some n) (x :: l).
Proof.
  induction l as [|y l IH]; intros x n H; cbn in H; [now left|]. destruct (IH _ _ H) as [E|Hi]; [|right; now right].
  destruct x as [x|], y as [y|]; cbn in E; try discriminate. injection E as E. destruct (Nat.max_spec x y) as [[_ M]|[_ M]]; rewrite M in E; subst; [right; now left|now left].
Qed.
Lemma fold_min_in l : forall x, In (fold_left Nat.min l x) (x :: l).
Proof.
  induction l as [|y l IH]; intros x; cbn; [now left|]. destruct (IH (Nat.min x y)) as [E|Hi]; [|auto].
  destruct (Nat.min_spec x y) as [[_ M]|[_ M]]; rewrite M in E at 1; rewrite <- E; auto.
Qed.
Lemma max_none l : forall x, fold_left opt_max l x = None -> In None (x :: l).
Proof.
  induction l as [|y l IH]; intros x H; cbn in H; [now left|]. destruct (IH _ H) as [E|Hi]; [|right; now right]. destruct x as [x|], y as [y|]; cbn in E; try discriminate; cbn; auto.
Qed.
Lemma add_none l : forall x, fold_left opt_add l x = None -> In None (x :: l).
Proof.
  induction l as [|y l IH]; intros x H; cbn in H; [now left|]. destruct (IH _ H) as [E|Hi]; [|right; now right]. destruct x as [x|], y as [y|]; cbn in E; try discriminate; cbn; auto.
Qed.
Lemma tlang_union check l t w : In t l -> tlang check t w -> tlang check (TUnion l) w.
Proof. intros Ht Hw. cbn [tlang]. apply Exists_exists. exists (tlang check t). split; [now apply in_map|assumption]. Qed.
Lemma max_attained t : tree_labels ends_ok (fun _ => True) t -> lively t -> forall n, max_bytes t = Some n -> exists w, tlang acheck t w /\ bytes w = n.
Proof.
  induction t as [ |a|l IH|t k IH|l IH|t k IH|t k b IH|t b IH| | | ] using tree_ind'; intros HL HU n0 Hn; cbn [max_bytes] in Hn; cbn [tree_labels] in HL; cbn [lively] in HU.
  - injection Hn as <-. now exists [].
  - destruct HL as [_ (r & l & E & Hr)]. rewrite E in Hn. injection Hn as <-. exists [IC (snd r)]. split; [exists (snd r); auto|cbn; lia].
  - destruct HU as [Hl HU]. destruct l as [|x l]; [congruence|]. cbn [map] in Hn. apply fold_max_in in Hn. change (max_bytes x :: map max_bytes l) with (map max_bytes (x :: l)) in Hn.
    apply in_map_iff in Hn as (t & E & Ht). rewrite Forall_forall in IH. destruct (IH t Ht (labels_In _ _ _ _ HL Ht) (lively_In _ _ HU Ht) n0 E) as (w & Hw & Eb). exists w. split; [eapply tlang_union; eauto|assumption].
  - destruct (IH ltac:(tauto) HU n0 Hn) as (w & Hw & Eb). exists (IM (ESC k) :: w ++ [IM (EEC k)]). split; [cbn [tlang]; eauto|]. now rewrite bytes_capture.
  - apply fold_add_sum in Hn as (a & ns & E & Hn & ->). injection E as <-. cbn [Nat.add]. revert ns Hn. induction IH as [|t l Ht Hl IH]; intros ns Hn; cbn [map] in *.
    + destruct ns; [|discriminate]. exists []. split; [constructor|reflexivity].
    + destruct ns as [|m ns]; [discriminate|]. injection Hn as Em Hn. cbn in HL, HU. destruct (Ht (proj1 HL) (proj1 HU) m Em) as (u & Hu & Eu). destruct (IH (proj2 HL) (proj2 HU) ns Hn) as (v & Hv & Ev).
      exists (u ++ v). split; [cbn [tlang map]; constructor; assumption|]. rewrite bytes_app. change (list_sum (m :: ns)) with (m + list_sum ns). lia.
  - destruct (max_bytes t) as [m|]; [|discriminate]. injection Hn as <-. destruct (IH HL (proj2 HU) m eq_refl) as (v & Hv & <-). destruct (powL_same (tlang acheck t) v k Hv) as (w & Hw & E). exists w. split; [exact Hw|lia].
  - destruct (max_bytes t) as [m|]; [|discriminate]. injection Hn as <-. destruct (IH HL (proj2 HU) m eq_refl) as (v & Hv & <-). destruct (powL_same (tlang acheck t) v k Hv) as (w & Hw & E). exists w. split; [exists k; auto|lia].
  - discriminate.
  - injection Hn as <-. exists [IM EStart]. now split.
  - injection Hn as <-. exists [IM EEnd]. now split.
  - destruct HU.
Qed.
Lemma min_attained t : tree_labels ends_ok (fun _ => True) t -> lively t -> exists w, tlang acheck t w /\ bytes w = min_bytes t.
Proof.
  induction t as [ |a|l IH|t k IH|l IH|t k IH|t k b IH|t b IH| | | ] using tree_ind'; intros HL HU; cbn [min_bytes]; cbn [tree_labels] in HL; cbn [lively] in HU.
  - now exists [].
  - destruct HL as [(r & l & E & Hr) _]. rewrite E. exists [IC (fst r)]. split; [exists (fst r); auto|cbn; lia].
  - destruct HU as [Hl HU]. destruct l as [|x l]; [congruence|]. cbn [map]. assert (Hn := fold_min_in (map min_bytes l) (min_bytes x)). change (min_bytes x :: map min_bytes l) with (map min_bytes (x :: l)) in Hn.
    apply in_map_iff in Hn as (t & E & Ht). rewrite Forall_forall in IH. destruct (IH t Ht (labels_In _ _ _ _ HL Ht) (lively_In _ _ HU Ht)) as (w & Hw & Eb). exists w. split; [eapply tlang_union; eauto|congruence].
  - destruct (IH ltac:(tauto) HU) as (w & Hw & Eb). exists (IM (ESC k) :: w ++ [IM (EEC k)]). split; [cbn [tlang]; eauto|]. now rewrite bytes_capture.
  - rewrite fold_add_nat. cbn [Nat.add]. induction IH as [|t l Ht Hl IH]; cbn [map] in *.
    + exists []. split; [constructor|reflexivity].
    + cbn in HL, HU. destruct (Ht (proj1 HL) (proj1 HU)) as (u & Hu & Eu). destruct (IH (proj2 HL) (proj2 HU)) as (v & Hv & Ev).
      exists (u ++ v). split; [cbn [tlang map]; constructor; assumption|]. rewrite bytes_app. change (list_sum (min_bytes t :: map min_bytes l)) with (min_bytes t + list_sum (map min_bytes l)). lia.
  - destruct (IH HL (proj2 HU)) as (v & Hv & <-). destruct (powL_same (tlang acheck t) v k Hv) as (w & Hw & E). exists w. split; [exact Hw|lia].
  - destruct (IH HL (proj2 HU)) as (v & Hv & <-). destruct (powL_same (tlang acheck t) v k Hv) as (w & Hw & E). exists w. split; [exists k; auto|lia].
  - exists []. split; [exists 0; constructor|reflexivity].
  - exists [IM EStart]. now split.
  - exists [IM EEnd]. now split.
  - destruct HU.
Qed.
Fixpoint loops_run (t : tree) : Prop :=
  match t with
  | TUnion l | TConcat l => fold_right (fun t Q => loops_run t /\ Q) True l
  | TCapture t _ | TRepeat t _ | TUpTo t _ _ => loops_run t
  | TStar t _ => (exists w, tlang acheck t w /\ 1 <= bytes w) /\ loops_run t
  | _ => True
  end.
Lemma loops_run_In l t : fold_right (fun t Q => loops_run t /\ Q) True l -> In t l -> loops_run t.
Proof. induction l as [|x l IH]; cbn; [tauto|]. intros [H1 H2] [<-|H]; auto. Qed.
Lemma cat_one l : fold_right (fun t Q => tree_labels ends_ok (fun _ => True) t /\ Q) True l -> fold_right (fun t Q => lively t /\ Q) True l ->
  forall t w, In t l -> tlang acheck t w -> exists v, catL (map (tlang acheck) l) v /\ bytes w <= bytes v.
Proof.
  assert (A : forall l, fold_right (fun t Q => tree_labels ends_ok (fun _ => True) t /\ Q) True l -> fold_right (fun t Q => lively t /\ Q) True l -> exists v, catL (map (tlang acheck) l) v).
  { induction l0 as [|x l0 IH]; cbn; [exists []; constructor|]. intros [H1 H2] [H3 H4]. destruct (IH H2 H4) as (v & Hv). destruct (min_attained x H1 H3) as (u & Hu & _). exists (u ++ v). now constructor. }
  induction l as [|x l IH]; cbn; [tauto|]. intros [H1 H2] [H3 H4] t w [<-|Hi] Hw.
  - destruct (A l H2 H4) as (v & Hv). exists (w ++ v). split; [now constructor|]. rewrite bytes_app. lia.
  - destruct (IH H2 H4 t w Hi Hw) as (v & Hv & Hb). destruct (min_attained x H1 H3) as (u & Hu & _). exists (u ++ v). split; [now constructor|]. rewrite bytes_app. lia.
Qed.
Lemma unbounded t : tree_labels ends_ok (fun _ => True) t -> lively t -> loops_run t -> max_bytes t = None -> forall n, exists w, tlang acheck t w /\ n <= bytes w.
Proof.
  induction t as [ |a|l IH|t k IH|l IH|t k IH|t k b IH|t b IH| | | ] using tree_ind'; intros HL HU HR Hn n0; cbn [max_bytes] in Hn; cbn [tree_labels] in HL; cbn [lively] in HU; cbn [loops_run] in HR; try discriminate.
  - destruct HL as [_ (r & l & E & Hr)]. rewrite E in Hn. discriminate.
  - destruct HU as [Hl HU]. destruct l as [|x l]; [congruence|]. cbn [map] in Hn. apply max_none in Hn. change (max_bytes x :: map max_bytes l) with (map max_bytes (x :: l)) in Hn.
    apply in_map_iff in Hn as (t & E & Ht). rewrite Forall_forall in IH. destruct (IH t Ht (labels_In _ _ _ _ HL Ht) (lively_In _ _ HU Ht) (loops_run_In _ _ HR Ht) E n0) as (w & Hw & Eb). exists w. split; [eapply tlang_union; eauto|assumption].
  - destruct (IH ltac:(tauto) HU HR Hn n0) as (w & Hw & Eb). exists (IM (ESC k) :: w ++ [IM (EEC k)]). split; [cbn [tlang]; eauto|]. now rewrite bytes_capture.
  - apply add_none in Hn as [Hn|Hn]; [discriminate|]. apply in_map_iff in Hn as (t & E & Ht). rewrite Forall_forall in IH. destruct (IH t Ht (labels_In _ _ _ _ HL Ht) (lively_In _ _ HU Ht) (loops_run_In _ _ HR Ht) E n0) as (w & Hw & Eb).
    destruct (cat_one l HL HU t w Ht Hw) as (v & Hv & Hb). exists v. split; [exact Hv|lia].
  - destruct (max_bytes t) as [m|]; [discriminate|]. destruct (IH HL (proj2 HU) HR eq_refl n0) as (v & Hv & Hb). destruct (powL_same (tlang acheck t) v k Hv) as (w & Hw & E). exists w. split; [exact Hw|]. destruct HU. nia.
  - destruct (max_bytes t) as [m|]; [discriminate|]. destruct (IH HL (proj2 HU) HR eq_refl n0) as (v & Hv & Hb). destruct (powL_same (tlang acheck t) v k Hv) as (w & Hw & E). exists w. split; [exists k; auto|]. destruct HU. nia.
  - destruct HR as [(v & Hv & Hb) _]. destruct (powL_same (tlang acheck t) v n0 Hv) as (w & Hw & E). exists w. split; [exists n0; auto|]. nia.
Qed.

(** ** Patterns *)
Lemma lively_concat a b : lively a -> lively b -> lively (t_concat a b).
Proof. intros Ha Hb. destruct a; cbn in *; auto. induction l as [|x l IH]; cbn in *; tauto. Qed.
Lemma lively_repeat t n : lively t -> lively (t_repeat t n).
Proof. destruct n as [|n]; cbn; [auto|]. intros H. split; [lia|assumption]. Qed.
Lemma lively_upto t n b : lively t -> lively (t_upto t n b).
Proof. destruct n as [|n]; cbn; [auto|]. intros H. split; [lia|assumption]. Qed.
Lemma ere_trees_ne e g : e <> [] -> ere_trees e g <> [].
Proof. destruct e; [congruence|]. intros _. rewrite ere_trees_cons. discriminate. Qed.
Lemma possible_lively :
  (forall p g, possible_part p -> lively (part_tree p g)) /\ (forall e g, possible_expr e -> lively (expr_tree e g)) /\
  (forall b g, possible_branch b -> fold_right (fun t Q => lively t /\ Q) True (branch_trees b g)) /\
  (forall e g, fold_right (fun b P => possible_branch b /\ P) True e -> fold_right (fun t Q => lively t /\ Q) True (ere_trees e g)).
Proof.
  apply syntax_ind.
  - intros e IH g H. now apply IH.
  - intros e q IH g [(k & Hq) H]. rewrite part_tree_quant. apply IH with (g := g) in H. unfold quant_tree. destruct (q_type q) as [ | | |n|n [m|]]; cbn [quant_allows] in Hq.
    + exact H.
    + apply lively_concat; exact H.
    + now apply lively_upto.
    + now apply lively_repeat.
    + destruct (N.ltb_spec m n); [lia|]. destruct (N.eqb_spec m n); [now apply lively_repeat|]. apply lively_concat; [now apply lively_repeat|now apply lively_upto].
    + apply lively_concat; [now apply lively_repeat|exact H].
  - intros; exact I.
  - intros; exact I.
  - intros; exact I.
  - intros bs IH g [H1 H2]. rewrite expr_tree_sub. cbn [lively]. split; [now apply ere_trees_ne|now apply IH].
  - intros; exact I.
  - intros p b IHp IHb g [H1 H2]. rewrite branch_trees_cons. cbn. auto.
  - intros; exact I.
  - intros b e IHb IHe g [H1 H2]. rewrite ere_trees_cons. cbn. split; [apply IHb; exact H1|auto].
Qed.
Lemma tree_lively e : possible e -> lively (tree_of e).
Proof. intros [H1 H2]. rewrite tree_of_eq. cbn [lively]. split; [now apply ere_trees_ne|now apply possible_lively]. Qed.
Lemma quant_attained c q n v : quant_allows (q_type q) n -> tlang acheck c v -> exists w, tlang acheck (quant_tree c q) w /\ bytes w = bytes v * n.
Proof. intros Hq Hv. destruct (powL_same (tlang acheck c) v n Hv) as (w & Hw & E). exists w. split; [apply quant_lang; eauto|assumption]. Qed.

Definition can (t : tree) : Prop := exists w, tlang acheck t w /\ 1 <= bytes w.
Lemma labels_part p g : part_atoms ends_ok p -> tree_labels ends_ok (fun _ => True) (part_tree p g).
Proof. intros H. eapply tree_labels_mono; [|apply trees_labels; exact H]. auto. Qed.
Lemma labels_branch b g : branch_atoms ends_ok b -> all_labels ends_ok (fun _ => True) (branch_trees b g).
Proof. intros H. eapply all_labels_mono; [|apply trees_labels; exact H]. auto. Qed.
Lemma can_reads :
  (forall p g, part_atoms ends_ok p -> possible_part p -> readable_part p -> can (part_tree p g)) /\ (forall e g, expr_atoms ends_ok e -> possible_expr e -> readable_expr e -> can (expr_tree e g)) /\
  (forall b g, branch_atoms ends_ok b -> possible_branch b -> readable_branch b -> can (TConcat (branch_trees b g))) /\
  (forall e g, ere_atoms ends_ok e -> fold_right (fun b P => possible_branch b /\ P) True e -> readable e -> can (TUnion (ere_trees e g))).
Proof.
  apply syntax_ind.
  - intros e IH g. exact (IH g).
  - intros e q IH g HG [_ Hp] [(n & Hn & Hq) Hr]. rewrite part_tree_quant in *. destruct (IH g HG Hp Hr) as (v & Hv & Hb).
    destruct (quant_attained _ q n v Hq Hv) as (w & Hw & E). exists w. split; [assumption|nia].
  - intros g _ _ [].
  - intros g _ _ [].
  - intros a g H _ _. destruct H as [(r & l & E & Hr) _]. exists [IC (fst r)]. split; [exists (fst r); auto|]. cbn. unfold len_utf8. repeat match goal with |- context [(?a <? ?b)%N] => destruct (N.ltb_spec a b) end; lia.
  - intros bs IH g HG [_ Hp] Hr. rewrite expr_tree_sub in *. destruct (IH (S g) HG Hp Hr) as (v & Hv & Hb). exists (IM (ESC g) :: v ++ [IM (EEC g)]). split; [cbn [tlang]; eauto|]. now rewrite bytes_capture.
  - intros g _ _ [].
  - intros p b IHp IHb g [G1 G2] [H1 H2] Hr. rewrite branch_trees_cons in *. destruct Hr as [Hr|Hr].
    + destruct (IHp g G1 H1 Hr) as (v & Hv & Hb). destruct (cat_one (part_tree p g :: branch_trees b (g + groups_part p))) with (t := part_tree p g) (w := v) as (w & Hw & E); auto.
      * split; [now apply labels_part|now apply labels_branch].
      * split; [now apply possible_lively|now apply possible_lively].
      * now left.
      * exists w. split; [exact Hw|lia].
    + destruct (IHb (g + groups_part p) G2 H2 Hr) as (v & Hv & Hb). destruct (min_attained (part_tree p g) (labels_part _ _ G1)) as (u & Hu & _); [now apply possible_lively|].
      exists (u ++ v). split; [cbn [tlang map]; constructor; assumption|]. rewrite bytes_app. lia.
  - intros g _ _ [].
  - intros b e IHb IHe g [G1 G2] [H1 H2] Hr. rewrite ere_trees_cons in *. destruct Hr as [Hr|Hr].
    + destruct (IHb g G1 H1 Hr) as (v & Hv & Hb). exists v. split; [|assumption]. apply tlang_union with (t := TConcat (branch_trees b g)); [now left|assumption].
    + destruct (IHe (g + groups_branch b) G2 H2 Hr) as (v & Hv & Hb). exists v. split; [|assumption]. cbn [tlang map]. right. exact Hv.
Qed.
Lemma loops_run_concat a b : loops_run a -> loops_run b -> loops_run (t_concat a b).
Proof. intros Ha Hb. destruct a; cbn in *; auto. induction l as [|x l IH]; cbn in *; tauto. Qed.
Lemma loops_run_repeat t n : loops_run t -> loops_run (t_repeat t n).
Proof. destruct n as [|n]; cbn; auto. Qed.
Lemma loops_run_upto t n b : loops_run t -> loops_run (t_upto t n b).
Proof. destruct n as [|n]; cbn; auto. Qed.
Lemma running_loops :
  (forall p g, part_atoms ends_ok p -> possible_part p -> running_part p -> loops_run (part_tree p g)) /\ (forall e g, expr_atoms ends_ok e -> possible_expr e -> running_expr e -> loops_run (expr_tree e g)) /\
  (forall b g, branch_atoms ends_ok b -> possible_branch b -> running_branch b -> fold_right (fun t Q => loops_run t /\ Q) True (branch_trees b g)) /\
  (forall e g, ere_atoms ends_ok e -> fold_right (fun b P => possible_branch b /\ P) True e -> running e -> fold_right (fun t Q => loops_run t /\ Q) True (ere_trees e g)).
Proof.
  apply syntax_ind.
  - intros e IH g. exact (IH g).
  - intros e q IH g HG [_ Hp] [He Hr]. rewrite part_tree_quant. assert (H := IH g HG Hp Hr). assert (C := fun X => proj1 (proj2 can_reads) e g HG Hp (He X)). unfold quant_tree. destruct (q_type q) as [ | | |n|n [m|]]; cbn [endless] in C.
    + split; [apply C; reflexivity|exact H].
    + apply loops_run_concat; [exact H|split; [apply C; reflexivity|exact H]].
    + now apply loops_run_upto.
    + now apply loops_run_repeat.
    + destruct (N.ltb_spec m n); [exact I|]. destruct (N.eqb_spec m n); [now apply loops_run_repeat|]. apply loops_run_concat; [now apply loops_run_repeat|now apply loops_run_upto].
    + apply loops_run_concat; [now apply loops_run_repeat|split; [apply C; reflexivity|exact H]].
  - intros; exact I.
  - intros; exact I.
  - intros; exact I.
  - intros bs IH g HG [_ Hp] Hr. rewrite expr_tree_sub. cbn [loops_run]. now apply IH.
  - intros; exact I.
  - intros p b IHp IHb g [G1 G2] [H1 H2] [R1 R2]. rewrite branch_trees_cons. cbn. auto.
  - intros; exact I.
  - intros b e IHb IHe g [G1 G2] [H1 H2] [R1 R2]. rewrite ere_trees_cons. cbn. split; [apply IHb; assumption|auto].
Qed.
(** Every word of an anchor-free pattern is a text it matches from end to end. *)
Lemma tlang_scalar e w : tlang acheck (tree_of e) w -> Forall scalar (chars w).
Proof.
  intros Hx. apply build_lang in Hx; [|apply tree_of_ok]. revert Hx. unfold lang. generalize 0 (length (build (tree_of e)) - 1). intros s t Hx.
  induction Hx as [s|s t x w u He Hp' IH|s t a c w u He Hc Hp' IH]; [constructor|now rewrite chars_app, chars_mark|]. constructor; [|assumption]. apply andb_true_iff in Hc. apply Hc.
Qed.
Lemma word_text e w : anchor_free e = true -> tlang acheck (tree_of e) w ->
  exists T L, Forall scalar T /\ matches T e 0 (length T) L /\ byte_pos T (length T) = bytes w.
Proof.
  intros Hf Hw. assert (Hs := tlang_scalar e w Hw). assert (Hv : valid w).
  { apply (free_valid acheck e w Hf). exists [], w, []. cbn. rewrite app_nil_r. split; [reflexivity|]. split; [constructor|]. split; [constructor|]. auto. }
  assert (HR : reads (chars w) 0 w (length (chars w))) by (apply reads_whole; auto). destruct (word_matches (chars w) _ _ _ _ Hw HR) as (L & Hm & _).
  exists (chars w), L. split; [assumption|]. split; [assumption|]. apply (reads_pos (chars w)) in HR. exact (eq_sym HR).
Qed.
Section Pattern.
  Variable e : ere.
  Hypothesis He : ere_atoms atom_ok e.
  Hypothesis Hf : forward_atoms e.
  Hypothesis Hi : inhabited_atoms e.
  Hypothesis Ha : anchor_free e = true.
  Hypothesis Hp : possible e.
  Lemma pattern_ends : ere_atoms ends_ok e.
  Proof using He Hf Hi.
    apply (proj2 (proj2 (proj2 (atoms_In ends_ok)))). intros a Hin. apply ends_ok_intro; auto. now apply (proj2 (proj2 (proj2 (atoms_In atom_ok))) e).
  Qed.
  Lemma pattern_labels : tree_labels ends_ok (fun _ => True) (tree_of e).
  Proof using He Hf Hi. eapply tree_labels_mono; [|apply tree_of_labels; exact pattern_ends]. auto. Qed.
  Lemma max_text n : max_bytes (tree_of e) = Some n -> exists T L, Forall scalar T /\ matches T e 0 (length T) L /\ byte_pos T (length T) = n.
  Proof using All. intros Hn. destruct (max_attained _ pattern_labels (tree_lively e Hp) n Hn) as (w & Hw & <-). now apply word_text. Qed.
  Lemma min_text : exists T L, Forall scalar T /\ matches T e 0 (length T) L /\ byte_pos T (length T) = min_bytes (tree_of e).
  Proof using All. destruct (min_attained _ pattern_labels (tree_lively e Hp)) as (w & Hw & <-). now apply word_text. Qed.
  Lemma long_text : running e -> max_bytes (tree_of e) = None -> forall n, exists T L, Forall scalar T /\ matches T e 0 (length T) L /\ n <= byte_pos T (length T).
  Proof using All.
    intros Hr Hn n. destruct (unbounded _ pattern_labels (tree_lively e Hp)) with (n := n) as (w & Hw & Hb); auto.
    - rewrite tree_of_eq. cbn [loops_run]. apply running_loops; [exact pattern_ends|apply Hp|exact Hr].
    - destruct (word_text e w Ha Hw) as (T & L & H1 & H2 & H3). exists T, L. split; [assumption|]. split; [assumption|lia].
  Qed.
End Pattern.
