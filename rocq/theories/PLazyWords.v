(** The match of an accepted word starts once, where group 0 opens. *)
From Verif Require Import PCount.
From Verif Require Export PLazyFlat PPrioOne.
From Coq Require Import ZifyBool ZifyNat ZifyN.
Open Scope nat_scope.
Open Scope list_scope.
Set Default Proof Using "Type".

Lemma opens0_chars l : opens0 (map IC l) = 0.
Proof. induction l as [|c l IH]; [reflexivity|exact IH]. Qed.
Lemma opens0_enc w : opens0 (enc w) = opens0 w.
Proof.
  induction w as [|[c|e] w IH]; [reflexivity| |].
  - change (enc (IC c :: w)) with (map IC (encode c) ++ enc w). rewrite opens0_app, opens0_chars. exact IH.
  - change (enc (IM e :: w)) with (IM e :: enc w). destruct e as [| | |[|k]|k]; try exact IH. unfold opens0 in *. cbn. now rewrite IH.
Qed.
Lemma padded_opens chk e w : padded true true (tlang chk (tree_of e)) w -> opens0 w = 1.
Proof.
  intros (pre & v & post & -> & _ & _ & _ & _ & Hv). rewrite tree_of_eq in Hv. destruct Hv as (u & Hu & ->).
  rewrite !opens0_app, !opens0_chars. cbn [Nat.add]. change (opens0 (IM (ESC 0) :: u ++ [IM (EEC 0)])) with (S (opens0 (u ++ [IM (EEC 0)]))). rewrite opens0_app.
  assert (opens0 u = 0) as ->; [|reflexivity]. apply opens0_In. intros Hi.
  assert (HL := proj2 (proj2 (proj2 (trees_labels (fun _ => True)))) e 1 (proj2 (proj2 (proj2 all_atoms)) e)).
  apply (tlang_marks chk _ _ (TUnion _) u _ HL Hu) in Hi. cbn in Hi. lia.
Qed.
(** A weaker reading of the labels has more paths. *)
Lemma path_weaker {A} (c1 c2 : A -> N -> bool) (n : nfa A) s w t : (forall a c, c1 a c = true -> c2 a c = true) -> path c1 n s w t -> path c2 n s w t.
Proof. intros H. induction 1; [constructor|eapply p_eps; eauto|eapply p_sym; eauto]. Qed.
Lemma opens_most {A} (chk : A -> N -> bool) (n : nfa A) : (forall s t a, In (t, a) (trans (get n s)) -> exists c, chk a c = true) -> trimmed n ->
  (forall W, lang chk n W -> opens0 W = 1) -> forall u s, s < length n -> path chk n 0 u s -> opens0 u <= 1.
Proof.
  intros HL Ht H u s Hs Hu. destruct (conn_path n chk s (length n - 1) HL) as (v & Hv); [now apply Ht|].
  assert (X : lang chk n (u ++ v)) by (eapply path_app; eauto). apply H in X. rewrite opens0_app in X. lia.
Qed.
Lemma char_opens e n : ere_atoms atom_ok e -> working_new (tree_of e) = Ok n -> n <> [] ->
  (forall W, lang acheck n W -> opens0 W = 1) /\ (forall u s, s < length n -> path acheck n 0 u s -> opens0 u <= 1).
Proof.
  intros He En Hn. destruct (working_chk anycheck reading_any true true (tree_of e)) as (n' & En' & H).
  - eapply tree_labels_mono; [|apply tree_of_labels; exact He]. auto.
  - apply tree_of_ok.
  - apply tree_of_length.
  - unfold working_new in En. rewrite En in En'. injection En' as <-. destruct H as [[-> _]|(H1 & _ & H3 & H4 & _)]; [congruence|].
    assert (HW : forall W, lang anycheck n W -> opens0 W = 1) by (intros W HW; apply H4 in HW; eapply padded_opens; eauto).
    assert (HM := opens_most anycheck n ltac:(intros; apply anycheck_readable) H3 HW).
    assert (Hle : forall (a : atom) c, acheck a c = true -> anycheck a c = true) by (intros a c Hc; unfold acheck in Hc; apply andb_true_iff in Hc; unfold anycheck; tauto).
    split; [intros W X; apply HW|intros u s Hs X; apply (HM u s Hs)]; eapply path_weaker; eauto.
Qed.
Lemma byte_opens e m : byte_automaton_of e m ->
  (forall W, lang byte_check m W -> opens0 W = 1) /\ (forall u s, s < length m -> path byte_check m 0 u s -> opens0 u <= 1).
Proof.
  intros (M1 & M2 & M3 & M4 & M5 & M6 & M7).
  assert (HW : forall W, lang byte_check m W -> opens0 W = 1) by (intros W HW; apply M7 in HW as (w & -> & Hw); rewrite opens0_enc; eapply padded_opens; eauto).
  split; [exact HW|]. apply opens_most; auto. intros s t r Hr. destruct (M6 _ _ _ Hr) as [X Y]. exists (fst r). apply in_range_iff. split; [apply N.le_refl|exact X].
Qed.

(** Where a match starts, and what an engine reports. *)
Lemma match_key T e g i j L : Forall scalar T -> 1 <= g -> matches T e i j L -> exists w, accepted T e w /\ keyw len_utf8 g w = Some (byte_pos T i).
Proof.
  intros HT Hg Hm. destruct (match_accepted T e HT i j L Hm) as (v & H1 & H2 & H3). eexists. split; [exact H1|].
  destruct (blog_marks T _ _ _ _ H3 H2) as [_ HM]. destruct (HM 0) as [E1 _]. rewrite (match_zero e T i j L Hm) in E1. cbn [option_map fst] in E1.
  assert (Hi : length (firstn i T) = i) by (rewrite firstn_length; apply reads_le in H2; lia).
  assert (Ep : 0 + wwidth len_utf8 (map IC (firstn i T)) = byte_pos T i).
  { destruct H1 as [_ R]. apply reads_app in R as (i' & R & _). assert (X := reads_pos T _ _ _ R). apply reads_chars in R as [Y _]. rewrite chars_IC, Hi in Y. cbn in Y. subst i'. exact X. }
  unfold keyw. rewrite !run_marks_app, !run_marks_chars, Ep.
  destruct (run_marks len_utf8 (byte_pos T i) v (no_bounds g)) as [|[x y] b] eqn:Eb.
  - exfalso. apply (f_equal (@length _)) in Eb. rewrite run_marks_length in Eb. unfold no_bounds in Eb. rewrite repeat_length in Eb. cbn in Eb. lia.
  - cbn [key0]. assert (X := nth_run_marks len_utf8 v (byte_pos T i) (no_bounds g) 0 (None, None) ltac:(unfold no_bounds; rewrite repeat_length; lia)).
    rewrite Eb, E1 in X. cbn in X. now injection X.
Qed.
Lemma finish_key T b cs x y : run_finish T (Some b) = Ok (Some cs) -> nth_error cs 0 = Some (Some (x, y)) -> key0 b = Some x.
Proof.
  unfold run_finish, finish. intros H Hc. destruct (mapM (finish_one T) b) as [l| | |] eqn:E; try discriminate. cbn [bind] in H. injection H as ->.
  apply mapM_Ok in E. destruct E as [|[s t] o b l Eo _]; [discriminate|].
  cbn in Hc. injection Hc as ->. unfold finish_one in Eo. destruct s as [s|], t as [t|]; try discriminate Eo. destruct (str_get_ok T s t); [|discriminate Eo].
  cbn in Eo. injection Eo as -> ->. reflexivity.
Qed.

(** Nothing starts before the reported match. *)
Definition leads (e : ere) (en : engine) : Prop := forall T cs x y i j L, Forall scalar T -> engine_exec en T = Ok (Some cs) -> nth_error cs 0 = Some (Some (x, y)) ->
  matches T e i j L -> x <= byte_pos T i.
Lemma char_leads T e n g b : automaton_of e n -> Forall scalar T -> 1 <= g ->
  (forall W, lang acheck n W -> reads T 0 W (length T) -> kle (key0 b) (keyw len_utf8 g W)) ->
  forall cs x y i j L, run_finish T (Some b) = Ok (Some cs) -> nth_error cs 0 = Some (Some (x, y)) -> matches T e i j L -> x <= byte_pos T i.
Proof.
  intros (H1 & H2 & H3 & H4 & H5) HT Hg Hk cs x y i j L Hf Hc Hm. destruct (match_key T e g i j L HT Hg Hm) as (w & Hw & Ew).
  assert (Hr := proj2 Hw). apply (H4 T w HT) in Hw as [Hw _]. specialize (Hk w Hw Hr). rewrite Ew, (finish_key T b cs x y Hf Hc) in Hk. exact Hk.
Qed.
Lemma byte_leads T e m g b : byte_automaton_of e m -> Forall scalar T -> 1 <= g ->
  (forall W, lang byte_check m W -> reads (utf8 T) 0 W (length (utf8 T)) -> kle (key0 b) (keyw (fun _ => 1) g W)) ->
  forall cs x y i j L, run_finish T (Some b) = Ok (Some cs) -> nth_error cs 0 = Some (Some (x, y)) -> matches T e i j L -> x <= byte_pos T i.
Proof.
  intros (M1 & M2 & M3 & M4 & M5 & M6 & M7) HT Hg Hk cs x y i j L Hf Hc Hm. destruct (match_key T e g i j L HT Hg Hm) as (w & Hw & Ew).
  destruct (proj2 (M4 T (enc w) HT) (ex_intro _ w (conj Hw eq_refl))) as [A1 A2]. specialize (Hk _ A1 A2). unfold keyw in Hk. rewrite run_marks_enc in Hk. fold (keyw len_utf8 g w) in Hk.
  rewrite Ew, (finish_key T b cs x y Hf Hc) in Hk. exact Hk.
Qed.

(** ** Lockstep engines *)
Lemma flat_loop_check {A} (c1 c2 : A -> N -> bool) width (n : nfa A) tbl len text : (forall a c, In c text -> c1 a c = c2 a c) ->
  forall idx ths, flat_exec_loop c1 width n tbl len idx ths text = flat_exec_loop c2 width n tbl len idx ths text.
Proof.
  induction text as [|c text IH]; intros H idx ths; [reflexivity|]. cbn [flat_exec_loop]. cbn zeta.
  assert (E : flat_sym_exec c1 n ths c = flat_sym_exec c2 n ths c).
  { unfold flat_sym_exec. apply flat_map_ext. intros th. f_equal. apply filter_ext. intros t. apply H. now left. }
  rewrite E. destruct (flat_eps_exec _ _ _ _ _); [reflexivity|]. apply IH. intros; apply H; now right.
Qed.
Lemma working_lazy_parsed s e n : parse_str s = ROk e -> Forall scalar s -> working_new (tree_of e) = Ok n -> n <> [] -> lazy_char n.
Proof.
  intros Hp Hs En Hn. rewrite tree_of_eq in En. apply (working_lazy (TUnion (ere_trees e 1))); auto.
  - rewrite <- tree_of_eq. eapply tree_labels_mono; [|apply tree_of_labels; eapply parsed_ok; eauto]. auto.
  - rewrite <- tree_of_eq. apply tree_of_ok.
Qed.
Lemma u8_lazy_parsed s e n m : parse_str s = ROk e -> Forall scalar s -> working_new (tree_of e) = Ok n -> u8_new n = Ok m -> m <> [] -> lazy_byte m.
Proof.
  intros Hp Hs En Em Hm. assert (Hn : n <> []) by (intros ->; rewrite u8_nil in Em; discriminate).
  destruct (parsed_working_ne s e Hp Hs n En Hn) as [(H1 & H2 & _ & _ & H5) _]. apply lab_iff in H5 as [H5 _]. apply (u8_lazy n); auto. eapply working_lazy_parsed; eauto.
Qed.
Lemma flat_char_leads s e n : parse_str s = ROk e -> Forall scalar s -> working_new (tree_of e) = Ok n -> n <> [] -> leads e (EFlat n).
Proof.
  intros Hp Hs En Hn T cs x y i j L HT Hx Hc Hm. cbn [engine_exec] in Hx. unfold flat_char_exec in Hx.
  destruct (parsed_working_ne s e Hp Hs n En Hn) as [Ha Hg]. assert (Ha' := Ha). destruct Ha' as (H1 & H2 & H3 & H4 & H5).
  destruct (flat_make_spec n (ok_wf _ H1) ltac:(lia) Hg) as (tbl & Et & _). rewrite Et in Hx. cbn [bind] in Hx.
  destruct (flat_table_spec n (ok_wf _ H1) ltac:(lia)) as (tbl' & Et' & _). assert (tbl' = tbl) as ->.
  { unfold flat_make in Et. rewrite wfb_guard in Et by (try apply ok_wf; auto; lia). cbn [guard bind] in Et. rewrite Et' in Et. cbn [bind] in Et. destruct (forallb _ _); congruence. }
  destruct (flat_run_exec atom_check len_utf8 n tbl T) as [b|] eqn:Er; [|discriminate].
  destruct (char_opens e n (parsed_ok s e Hp Hs) En Hn) as [O1 O2].
  refine (char_leads T e n (num_capture_groups n) b Ha HT (num_groups_pos n) _ cs x y i j L Hx Hc Hm).
  refine (flat_lead to_ranges (fun _ _ => False) (fun k => k = any_ranges) acheck (fun a c d F _ _ => F) len_utf8 len_utf8_pos T n (ok_wf _ H1) ltac:(lia) (num_groups_pos n) O1 O2 (working_lazy_parsed s e n Hp Hs En Hn) tbl Et' b _).
  rewrite <- Er. unfold flat_run_exec. cbn zeta. do 2 f_equal. apply flat_loop_check. intros a c Hin. rewrite Forall_forall in HT. apply HT in Hin. unfold acheck. unfold scalar in Hin. rewrite Hin. now rewrite ?andb_true_r.
Qed.
Lemma flat_u8_leads s e n m : parse_str s = ROk e -> Forall scalar s -> working_new (tree_of e) = Ok n -> u8_new n = Ok m -> m <> [] -> leads e (EFlatU8 m).
Proof.
  intros Hp Hs En Em Hn T cs x y i j L HT Hx Hc Hm. cbn [engine_exec] in Hx. unfold flat_u8_exec in Hx.
  assert (Hb := parsed_u8_ne s e Hp Hs n m En Em Hn). assert (Hb' := Hb). destruct Hb' as (M1 & M2 & M3 & M4 & M5 & M6 & M7).
  destruct (flat_make_spec m (ok_wf _ M1) ltac:(lia) M5) as (tbl & Et & _). rewrite Et in Hx. cbn [bind] in Hx.
  destruct (flat_table_spec m (ok_wf _ M1) ltac:(lia)) as (tbl' & Et' & _). assert (tbl' = tbl) as ->.
  { unfold flat_make in Et. rewrite wfb_guard in Et by (try apply ok_wf; auto; lia). cbn [guard bind] in Et. rewrite Et' in Et. cbn [bind] in Et. destruct (forallb _ _); congruence. }
  destruct (flat_run_exec byte_check (fun _ => 1) m tbl (utf8 T)) as [b|] eqn:Er; [|discriminate].
  destruct (byte_opens e m Hb) as [O1 O2].
  refine (byte_leads T e m (num_capture_groups m) b Hb HT (num_groups_pos m) _ cs x y i j L Hx Hc Hm).
  exact (flat_lead (fun r : range => r) bapart (fun _ => True) byte_check (fun a c d (F : bapart a c) X Y => F d X Y) (fun _ => 1) (fun _ => le_n 1) (utf8 T) m (ok_wf _ M1) ltac:(lia) (num_groups_pos m) O1 O2 (u8_lazy_parsed s e n m Hp Hs En Em Hn) tbl Et' b Er).
Qed.
