(** [finalize] and [WorkingNFA::new]: the automaton has exactly the valid words of the tree, padded with
    arbitrary characters on both sides. *)
From Verif Require Export POpt PAtom.
From Coq Require Import ZifyBool ZifyNat.
Open Scope nat_scope.
Open Scope list_scope.
Set Default Proof Using "Type".

Section Final.
  Context {A : Type}.
  Variable check : A -> N -> bool.
  Variable eqA : A -> A -> bool.
  Variable good : A -> Prop.
  Hypothesis eqA_sound : forall a b, good a -> good b -> eqA a b = true -> forall c, check a c = check b c.

  (** The outcome of the pipeline on [n]: nothing left, or a good automaton with the same valid words. *)
  Definition refined (n n' : nfa A) : Prop :=
    (n' = [] /\ forall w, valid w -> ~ lang check n w) \/
    (ok n' /\ 2 <= length n' /\ trimmed n' /\
     (forall w, lang check n' w -> lang check n w) /\
     (forall w, valid w -> lang check n w -> lang check n' w) /\
     (forall P : A -> Prop, (forall s t a, In (t, a) (trans (get n s)) -> P a) ->
        forall s t a, In (t, a) (trans (get n' s)) -> P a) /\
     (forall P : epsk -> Prop, (forall s t a, In (t, a) (eps (get n s)) -> P a) ->
        forall s t a, In (t, a) (eps (get n' s)) -> P a)).

  Lemma conn_dec (n : nfa A) : wf n -> 1 <= length n -> conn n 0 (length n - 1) \/ ~ conn n 0 (length n - 1).
  Proof.
    intros Hw Hl. destruct (reach_from_spec (succ_all n) (length n) 0) as (r & _ & _ & Hr); [lia|intros x y; now apply succ_all_lt|].
    unfold conn. rewrite <- Hr. destruct (nth (length n - 1) r false); [left; reflexivity|right; discriminate].
  Qed.

  Lemma thin_syms (n' n : nfa A) (P : A -> Prop) : thin n' n -> (forall s t a, In (t, a) (trans (get n s)) -> P a) ->
    forall s t a, In (t, a) (trans (get n' s)) -> P a.
  Proof. intros [_ H] HP s t a Ha. apply (proj1 (H s)) in Ha. eauto. Qed.
  Lemma thin_marks (n' n : nfa A) (P : epsk -> Prop) : thin n' n -> (forall s t a, In (t, a) (eps (get n s)) -> P a) ->
    forall s t a, In (t, a) (eps (get n' s)) -> P a.
  Proof. intros [_ H] HP s t a Ha. apply (proj2 (H s)) in Ha. eauto. Qed.

  Lemma wfb_guard (n : nfa A) : wf n -> 1 <= length n -> wfb n && (1 <=? length n) = true.
  Proof. intros H1 H2. apply wfb_iff in H1. rewrite H1. destruct (length n); [lia|reflexivity]. Qed.

  Lemma finalize_spec n : goods good n -> ok n -> 2 <= length n -> exists n', finalize eqA n = Ok n' /\ refined n n'.
  Proof using eqA_sound.
    intros Hgd Hok Hl. unfold finalize. rewrite wfb_guard by (try apply Hok; lia). cbn [guard bind].
    destruct (zero_spec check n) as (n1 & -> & T1 & V1); [apply Hok|lia|]. cbn [bind].
    assert (O1 : ok n1) by (eapply thin_ok; eauto). assert (L1 : 2 <= length n1) by (rewrite (proj1 T1); lia).
    destruct (optimize_spec check eqA good eqA_sound (S (nfa_size n1)) n1 (thin_syms _ _ _ T1 Hgd) O1 L1) as (n2 & -> & O2 & L2 & G2 & S2 & M2); [lia|].
    cbn [bind]. rewrite wfb_guard by (try apply O2; lia). cbn [guard bind].
    destruct (remove_unreachable_spec n2) as (n3 & -> & E3 & C3); [apply O2|lia|].
    exists n3. split; [reflexivity|]. destruct (conn_dec n2) as [Hc|Hc]; [apply O2|lia| |].
    - right. destruct (C3 Hc) as (H1 & H2 & H3 & H4 & H5 & H6 & H7 & H8).
      split; [auto|]. split; [auto|]. split; [auto|]. split; [|split; [|split]].
      + intros w Hw. apply H6, G2 in Hw. eapply thin_lang; eauto.
      + intros w Hv Hw. apply H6, G2. auto.
      + intros P HP. apply H7. apply S2. eapply thin_syms; eauto.
      + intros P HP. apply H8. apply M2. eapply thin_marks; eauto.
    - left. split; [auto|]. intros w Hv Hw. apply Hc. apply (V1 w Hv), G2 in Hw. eapply path_conn; eauto.
  Qed.
End Final.

(** ** Characters *)
(** Atoms on scalar values. *)
Definition acheck (a : atom) (c : N) : bool := atom_check a c && scalarb c.
Definition anychar (c : N) : bool := scalarb c.
Lemma any_atom c : acheck (NonmatchingList []) c = scalarb c.
Proof. reflexivity. Qed.

Lemma any_loop_build : any_loop = build (TStar (TSymbol (NonmatchingList [])) false).
Proof. reflexivity. Qed.
Lemma any_loop_ok : ok any_loop.
Proof. rewrite any_loop_build. apply build_ok. constructor. Qed.
(** What is needed of the reading of atoms. *)
Definition atom_reading (chk : atom -> N -> bool) : Prop :=
  (forall c, chk (NonmatchingList []) c = scalarb c) /\
  (forall x y, atom_ok x -> atom_ok y -> atom_eqb x y = true -> forall c, chk x c = chk y c).
Lemma reading_acheck : atom_reading acheck.
Proof.
  split; [apply any_atom|]. intros x y Hx Hy E c. unfold acheck. destruct (scalarb c) eqn:Ec; [|now rewrite !andb_false_r].
  f_equal. apply eq_true_iff_eq. rewrite !atom_check_iff. now apply atom_eqb_sound.
Qed.

Section Loops.
  Variable chk : atom -> N -> bool.
  Hypothesis Hchk : atom_reading chk.
Lemma any_loop_lang w : lang chk any_loop w <-> exists pre, Forall scalar pre /\ w = map IC pre.
Proof using Hchk.
  rewrite any_loop_build, build_lang by constructor. cbn [tlang]. split.
  - intros (m & H). induction H as [|m u v Hu Hv IH].
    + exists []. auto.
    + destruct IH as (pre & H1 & ->). destruct Hu as (c & Hc & ->). rewrite (proj1 Hchk) in Hc. exists (c :: pre).
      split; [|reflexivity]. constructor; assumption.
  - intros (pre & H & ->). exists (length pre). induction H as [|c pre Hc H IH]; cbn [length map]; [constructor|].
    change (IC c :: map IC pre) with ([IC c] ++ map IC pre). constructor; [|assumption]. exists c. split; [|reflexivity].
    now rewrite (proj1 Hchk).
Qed.

(** [W] is [v] padded with scalars where loops are allowed. *)
Definition padded (sl el : bool) (L : word -> Prop) (W : word) : Prop :=
  exists pre v post, W = map IC pre ++ v ++ map IC post /\ Forall scalar pre /\ Forall scalar post /\
    (sl = false -> pre = []) /\ (el = false -> post = []) /\ L v.

Definition loop_front (sl : bool) (n : nfa atom) : nfa atom := if sl then nfa_concat [any_loop; n] else n.
Definition loop_back (el : bool) (n : nfa atom) : nfa atom := if el then nfa_concat [n; any_loop] else n.
Lemma loop_front_ok sl n : ok n -> ok (loop_front sl n).
Proof. intros H. destruct sl; [|assumption]. apply concat_ok. repeat (apply Forall_cons || apply Forall_nil); auto using any_loop_ok. Qed.
Lemma loop_back_ok sl n : ok n -> ok (loop_back sl n).
Proof. intros H. destruct sl; [|assumption]. apply concat_ok. repeat (apply Forall_cons || apply Forall_nil); auto using any_loop_ok. Qed.
Lemma concat2_lang (m n : nfa atom) w : ok m -> ok n ->
  lang chk (nfa_concat [m; n]) w <-> exists u v, w = u ++ v /\ lang chk m u /\ lang chk n v.
Proof.
  intros Hm Hn. destruct (ok_all [m; n]) as (Hf & Hw & _); [repeat (apply Forall_cons || apply Forall_nil); auto|].
  rewrite concat_lang by assumption. cbn. split.
  - intros H. inv H. inv H4. inv H5. rewrite app_nil_r. eauto.
  - intros (u & v & -> & Hu & Hv). constructor; [assumption|]. rewrite <- (app_nil_r v). constructor; [assumption|constructor].
Qed.
Lemma loops_lang sl el n w : ok n ->
  lang chk (loop_back el (loop_front sl n)) w <-> padded sl el (lang chk n) w.
Proof using Hchk.
  intros Hn.
  assert (HF : forall w, lang chk (loop_front sl n) w <->
    exists pre v, w = map IC pre ++ v /\ Forall scalar pre /\ (sl = false -> pre = []) /\ lang chk n v).
  { clear w. intros w. destruct sl; unfold loop_front.
    - rewrite concat2_lang by (auto using any_loop_ok). split.
      + intros (u & v & -> & Hu & Hv). apply any_loop_lang in Hu as (pre & H1 & ->). exists pre, v. repeat split; auto. discriminate.
      + intros (pre & v & -> & Hp & _ & Hv). exists (map IC pre), v. repeat split; auto. apply any_loop_lang. eauto.
    - split.
      + intros H. exists [], w. repeat split; auto.
      + intros (pre & v & -> & _ & E & Hv). now rewrite (E eq_refl). }
  unfold padded. destruct el; unfold loop_back.
  - rewrite concat2_lang by (auto using any_loop_ok, loop_front_ok). split.
    + intros (u & v & -> & Hu & Hv). apply any_loop_lang in Hv as (post & H1 & ->). apply HF in Hu as (pre & z & -> & H2 & H3 & H4).
      exists pre, z, post. rewrite app_assoc. repeat split; auto. discriminate.
    + intros (pre & v & post & -> & H1 & H2 & H3 & _ & H4). exists (map IC pre ++ v), (map IC post).
      rewrite app_assoc. repeat split; auto; [apply HF; eauto 10|apply any_loop_lang; eauto].
  - rewrite HF. split.
    + intros (pre & v & -> & H1 & H2 & H3). exists pre, v, []. cbn. rewrite app_nil_r. repeat split; auto.
    + intros (pre & v & post & -> & H1 & H2 & H3 & E & H4). rewrite (E eq_refl). cbn. rewrite app_nil_r. eauto 10.
Qed.
End Loops.

(** ** Labels *)
Section Labels.
  Context {A : Type}.
  Variable P : A -> Prop.
  Variable M : epsk -> Prop.
  Hypothesis MN : M ENone.
  Definition lab (s : state A) : Prop := (forall t a, In (t, a) (trans s) -> P a) /\ (forall t e, In (t, e) (eps s) -> M e).
  Lemma lab_empty : lab empty_state.
  Proof. split; intros ? ? []. Qed.
  Lemma lab_eps l : (forall t e, In (t, e) l -> M e) -> lab (mkState [] l).
  Proof. intros H. split; [intros ? ? []|exact H]. Qed.
  Lemma lab_shift k s : lab s -> lab (shift k s).
  Proof.
    intros [H1 H2]. split; intros t x Hx; cbn in Hx; apply in_map_iff in Hx as ([u y] & E & Hy); injection E as _ <-; cbn; eauto.
  Qed.
  Lemma lab_push x e s : M e -> lab s -> lab (push_eps (x, e) s).
  Proof.
    intros He [H1 H2]. split; [exact H1|]. intros t y Hy. cbn in Hy. apply in_app_or in Hy as [Hy|[E|[]]]; [eauto|]. now injection E as _ <-.
  Qed.
  Lemma Forall_lab_shift k n : Forall lab n -> Forall lab (map (shift k) n).
  Proof. intros H. apply Forall_map. eapply Forall_impl; [|exact H]. apply lab_shift. Qed.
  Lemma Forall_lab_modify i f n : (forall s, lab s -> lab (f s)) -> Forall lab n -> Forall lab (modify i f n).
  Proof. intros Hf. revert i; induction n as [|s n IH]; intros i H; [destruct i; constructor|]. inv H. destruct i; cbn; constructor; auto. Qed.
  Lemma Forall_lab_modify_last f n : (forall s, lab s -> lab (f s)) -> Forall lab n -> Forall lab (modify_last f n).
  Proof. rewrite modify_last_modify. apply Forall_lab_modify. Qed.
  Lemma Forall_lab_one s : lab s -> Forall lab [s].
  Proof. auto. Qed.
  Lemma lab_fold {B} (F : nfa A -> B -> nfa A) l : forall st, Forall lab st -> (forall st b, In b l -> Forall lab st -> Forall lab (F st b)) ->
    Forall lab (fold_left F l st).
  Proof. induction l as [|b l IH]; intros st Hs HF; cbn; [assumption|]. apply IH; [apply HF; auto; now left|]. intros; apply HF; auto; now right. Qed.

  Lemma lab_union ns : Forall (Forall lab) ns -> Forall lab (nfa_union ns).
  Proof using MN.
    intros H. unfold nfa_union. apply Forall_app. split; [|repeat constructor; apply lab_empty].
    apply lab_fold; [repeat constructor; apply lab_empty|]. intros st n Hn Hs. rewrite Forall_forall in H.
    apply Forall_lab_modify_last; [intros; now apply lab_push|]. apply Forall_app. split; [|apply Forall_lab_shift; auto].
    apply Forall_lab_modify; [intros; now apply lab_push|assumption].
  Qed.
  Lemma lab_concat ns : Forall (Forall lab) ns -> Forall lab (nfa_concat ns).
  Proof using MN.
    intros H. unfold nfa_concat. apply Forall_app. split; [|repeat constructor; apply lab_empty].
    apply lab_fold.
    - apply Forall_lab_one, lab_eps. intros t e [E|[]]. now injection E as _ <-.
    - intros st n Hn Hs. rewrite Forall_forall in H.
      apply Forall_lab_modify_last; [intros; now apply lab_push|]. apply Forall_app. split; [assumption|apply Forall_lab_shift; auto].
  Qed.
  Lemma lab_capture n k : M (ESC k) -> M (EEC k) -> Forall lab n -> Forall lab (nfa_capture n k).
  Proof.
    intros H1 H2 Hn. unfold nfa_capture. apply Forall_lab_modify; [intros; now apply lab_push|]. apply Forall_app. split.
    - apply Forall_lab_one, lab_eps. intros t e [E|[]]. now injection E as _ <-.
    - apply Forall_app. split; [now apply Forall_lab_shift|]. apply Forall_lab_one, lab_empty.
  Qed.
  Lemma lab_choice (b : bool) x y : lab (mkState [] (if b then [(x, ENone); (y, ENone)] else [(y, ENone); (x, ENone)])).
  Proof using MN. apply lab_eps. intros t e H. destruct b; destruct H as [E|[E|[]]]; now injection E as _ <-. Qed.
  Lemma lab_star n b : Forall lab n -> Forall lab (nfa_star n b).
  Proof using MN.
    intros Hn. unfold nfa_star. apply Forall_lab_modify; [intros; now apply lab_push|]. apply Forall_app. split.
    - apply Forall_lab_one, lab_choice.
    - apply Forall_app. split; [now apply Forall_lab_shift|]. apply Forall_lab_one, lab_empty.
  Qed.
  Lemma lab_upto n m b : Forall lab n -> Forall lab (nfa_upto n m b).
  Proof using MN.
    intros Hn. unfold nfa_upto. apply lab_fold; [apply Forall_lab_one, lab_choice|].
    intros st i Hi Hs. apply Forall_app. split.
    - apply Forall_lab_modify_last; [intros; now apply lab_push|]. apply Forall_app. split; [assumption|]. now apply Forall_lab_shift.
    - apply Forall_lab_one. destruct (_ =? m); [apply lab_empty|apply lab_choice].
  Qed.
  Lemma lab_iff (n : nfa A) : Forall lab n <-> (forall s t a, In (t, a) (trans (get n s)) -> P a) /\ (forall s t e, In (t, e) (eps (get n s)) -> M e).
  Proof.
    split.
    - intros H. rewrite Forall_forall in H. split; intros s t x Hx.
      + assert (Hs := trans_range _ _ _ Hx). destruct (H _ (get_In _ _ Hs)) as [H1 _]. eauto.
      + assert (Hs := eps_range _ _ _ Hx). destruct (H _ (get_In _ _ Hs)) as [_ H1]. eauto.
    - intros [H1 H2]. apply Forall_forall. intros s Hs. apply (In_nth _ _ empty_state) in Hs as (i & Hi & <-).
      split; [apply H1|apply H2].
  Qed.
End Labels.

Fixpoint tree_labels (P : atom -> Prop) (M : epsk -> Prop) (t : tree) : Prop :=
  match t with
  | TEmpty | TNever => True
  | TSymbol a => P a
  | TUnion l | TConcat l => fold_right (fun t Q => tree_labels P M t /\ Q) True l
  | TCapture t k => M (ESC k) /\ M (EEC k) /\ tree_labels P M t
  | TRepeat t _ | TUpTo t _ _ | TStar t _ => tree_labels P M t
  | TStart => M EStart
  | TEnd => M EEnd
  end.
Lemma build_labels (P : atom -> Prop) (M : epsk -> Prop) t : M ENone -> tree_labels P M t -> Forall (lab P M) (build t).
Proof.
  intros MN. induction t using tree_ind'; cbn [tree_labels build]; intros HL.
  - apply Forall_lab_one, lab_empty.
  - repeat constructor; intros ? ? Hi; cbn in Hi; try destruct Hi as [E|[]]; try contradiction. now injection E as _ <-.
  - apply lab_union; auto. apply Forall_map. induction H; cbn in HL; constructor; tauto.
  - apply lab_capture; tauto.
  - apply lab_concat; auto. apply Forall_map. induction H; cbn in HL; constructor; tauto.
  - apply lab_concat; auto. apply Forall_forall. intros x Hx. apply repeat_spec in Hx as ->. auto.
  - apply lab_upto; auto.
  - apply lab_star; auto.
  - repeat constructor; intros ? ? Hi; cbn in Hi; try destruct Hi as [E|[]]; try contradiction. now injection E as _ <-.
  - repeat constructor; intros ? ? Hi; cbn in Hi; try destruct Hi as [E|[]]; try contradiction. now injection E as _ <-.
  - repeat constructor; intros ? ? Hi; cbn in Hi; contradiction.
Qed.

(** ** [WorkingNFA::new] *)
Section New.
Variable chk : atom -> N -> bool.
Hypothesis Hchk : atom_reading chk.
Definition working_ok (sl el : bool) (t : tree) (n : nfa atom) : Prop :=
  (n = [] /\ forall W, valid W -> ~ padded sl el (tlang chk t) W) \/
  (ok n /\ 2 <= length n /\ trimmed n /\
   (forall W, lang chk n W -> padded sl el (tlang chk t) W) /\
   (forall W, valid W -> padded sl el (tlang chk t) W -> lang chk n W) /\
   (forall (P : atom -> Prop) (M : epsk -> Prop), M ENone -> P (NonmatchingList []) -> tree_labels P M t -> Forall (lab P M) n)).

Lemma padded_ext sl el (L L' : word -> Prop) W : (forall v, L v -> L' v) -> padded sl el L W -> padded sl el L' W.
Proof. intros H (pre & v & post & ? & ? & ? & ? & ? & ?). exists pre, v, post. auto 10. Qed.
Lemma padded_valid sl el (L L' : word -> Prop) W : valid W -> (forall v, valid v -> L v -> L' v) -> padded sl el L W -> padded sl el L' W.
Proof.
  intros Hv H (pre & v & post & -> & ? & ? & ? & ? & ?). exists pre, v, post. repeat split; auto.
  apply H; [|assumption]. apply valid_app_r, valid_app_l in Hv. exact Hv.
Qed.

Theorem working_chk sl el t : tree_labels atom_ok (fun _ => True) t -> tree_ok t -> 2 <= length (build t) ->
  exists n, working_new_loop_opt t sl el = Ok n /\ working_ok sl el t n.
Proof using Hchk.
  intros Hat Ht Hlen. unfold working_new_loop_opt. assert (Hok := build_ok t Ht). set (b := build t) in *.
  rewrite wfb_guard by (try apply Hok; lia). cbn [guard bind].
  destruct (clean_start_spec chk b) as (b1 & -> & T1 & V1); [apply Hok|lia|]. cbn [bind].
  assert (O1 : ok b1) by (eapply thin_ok; eauto).
  destruct (clean_end_spec chk b1) as (b2 & -> & T2 & V2); [apply O1|rewrite (proj1 T1); lia|]. cbn [bind].
  assert (O2 : ok b2) by (eapply thin_ok; eauto).
  change (if sl then nfa_concat [any_loop; b2] else b2) with (loop_front sl b2).
  change (if el then nfa_concat [loop_front sl b2; any_loop] else loop_front sl b2) with (loop_back el (loop_front sl b2)).
  assert (T : thin b2 b) by (eapply thin_trans; eauto).
  assert (HF := loop_front_ok sl b2 O2).
  assert (GL : forall (P : atom -> Prop) (M : epsk -> Prop), M ENone -> P (NonmatchingList []) -> tree_labels P M t -> Forall (lab P M) (loop_back el (loop_front sl b2))).
  { intros P M MN PA HL.
    assert (GA : Forall (lab P M) any_loop) by (apply build_labels with (t := TStar (TSymbol (NonmatchingList [])) false); auto).
    assert (G0 : Forall (lab P M) b2).
    { apply (build_labels P M t MN) in HL. apply lab_iff in HL as [L1 L2]. apply lab_iff. split.
      - eapply thin_syms; eauto.
      - eapply thin_marks; eauto. }
    assert (G1 : Forall (lab P M) (loop_front sl b2)) by (destruct sl; [apply lab_concat; auto|assumption]).
    destruct el; [apply lab_concat; auto|assumption]. }
  destruct (finalize_spec chk atom_eqb atom_ok) with (n := loop_back el (loop_front sl b2)) as (n & -> & Hn).
  { apply Hchk. }
  { intros s u a Ha. apply (GL atom_ok (fun _ => True) I) in Hat; [|constructor]. apply lab_iff in Hat as [Hat _]. eauto. }
  { now apply loop_back_ok. }
  { assert (E : 2 <= length b2) by (rewrite (proj1 T); assumption).
    assert (E1 : 2 <= length (loop_front sl b2)).
    { destruct sl; [|assumption]. unfold loop_front. rewrite nfa_concat_length; [lia|].
      repeat (apply Forall_cons || apply Forall_nil); [apply any_loop_ok|apply O2]. }
    destruct el; [|assumption]. unfold loop_back. rewrite nfa_concat_length; [lia|].
    repeat (apply Forall_cons || apply Forall_nil); [apply HF|apply any_loop_ok]. }
  exists n. split; [reflexivity|].
  assert (HP1 : forall W, padded sl el (lang chk b2) W -> padded sl el (tlang chk t) W).
  { intros W. apply padded_ext. intros v Hv. apply build_lang; [assumption|]. eapply thin_lang; eauto. }
  assert (HP2 : forall W, valid W -> padded sl el (tlang chk t) W -> padded sl el (lang chk b2) W).
  { intros W HW. apply padded_valid; [assumption|]. intros v Hv H. apply build_lang in H; auto. }
  destruct Hn as [[E Hn]|(H1 & H2 & H3 & H4 & H5 & H6 & H7)].
  - left. split; [assumption|]. intros W HW Hp. apply (Hn W HW). apply (loops_lang chk Hchk); [assumption|]. auto.
  - right. split; [assumption|]. split; [assumption|]. split; [assumption|]. split; [|split].
    + intros W HW. apply H4 in HW. apply (loops_lang chk Hchk) in HW; auto.
    + intros W HW Hp. apply H5; [assumption|]. apply (loops_lang chk Hchk); auto.
    + intros P M MN PA HL.
      assert (G := GL P M MN PA HL).
      apply lab_iff in G as [L1 L2]. apply lab_iff. split; [apply H6|apply H7]; assumption.
Qed.
End New.
Theorem working_spec sl el t : tree_labels atom_ok (fun _ => True) t -> tree_ok t -> 2 <= length (build t) ->
  exists n, working_new_loop_opt t sl el = Ok n /\ working_ok acheck sl el t n.
Proof. apply working_chk, reading_acheck. Qed.
