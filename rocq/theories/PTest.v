(** [WorkingNFA::test] and [U8NFA::test] decide whether the automaton has a word that can be read on the
    text. *)
From Verif Require Export PBridge.
From Coq Require Import ZifyBool ZifyNat Relation_Operators Operators_Properties.
Open Scope nat_scope.
Open Scope list_scope.
Set Default Proof Using "Type".

(** Setting flags. *)
Lemma marked_upd l i x : marked (upd i true l) x <-> (x = i /\ i < length l) \/ marked l x.
Proof.
  rewrite nth_upd. destruct (Nat.eqb_spec x i) as [E|E], (Nat.ltb_spec i (length l)); cbn; subst; intuition (try lia; auto).
Qed.
Lemma marked_fold_upd ts : forall l x, marked (fold_left (fun l t => upd t true l) ts l) x <-> (In x ts /\ x < length l) \/ marked l x.
Proof.
  induction ts as [|t ts IH]; intros l x; cbn; [tauto|]. rewrite IH, marked_upd, upd_length. intuition (subst; auto).
Qed.
Lemma marked_last l n : length l = n -> 1 <= n -> last l false = nth (n - 1) l false.
Proof.
  intros <- H. destruct (rev l) as [|x r] eqn:E.
  - apply (f_equal (@rev bool)) in E. rewrite rev_involutive in E. subst. cbn in H. lia.
  - apply (f_equal (@rev bool)) in E. rewrite rev_involutive in E. subst l. cbn [rev]. rewrite last_last, app_length. cbn.
    rewrite app_nth2 by lia. replace (length (rev r) + 1 - 1 - length (rev r)) with 0 by lia. reflexivity.
Qed.
Lemma fold_length {B} (f : list bool -> B -> list bool) xs : (forall l x, length (f l x) = length l) ->
  forall l, length (fold_left f xs l) = length l.
Proof. intros H. induction xs; intros l; cbn; [reflexivity|]. now rewrite IHxs, H. Qed.

Lemma initial_marked n x : 1 <= n -> marked (upd 0 true (repeat false n)) x <-> x = 0.
Proof. intros H. rewrite marked_upd, repeat_length, nth_repeat_false. intuition (try discriminate; lia). Qed.
Lemma initial_length n : length (upd 0 true (repeat false n)) = n.
Proof. now rewrite upd_length, repeat_length. Qed.

Lemma nth_firstn_S (T : list N) j c : nth_error T j = Some c -> firstn (S j) T = firstn j T ++ [c].
Proof.
  generalize T. induction j as [|j IH]; intros [|x l] H; cbn in *; try discriminate; [congruence|]. now rewrite IH.
Qed.
Lemma skipn_nth (T : list N) j c r : skipn j T = c :: r -> nth_error T j = Some c /\ skipn (S j) T = r.
Proof.
  generalize T. induction j as [|j IH]; intros [|x l] H; cbn in *; try discriminate; [injection H as -> ->; auto|]. now apply IH.
Qed.
Lemma skipn_nil_ge (T : list N) j : skipn j T = [] -> j <= length T -> j = length T.
Proof. intros H Hj. assert (E := skipn_length j T). rewrite H in E. cbn in E. lia. Qed.
Section Test.
  Variable width : N -> nat.
  Hypothesis Hwidth : forall c, 1 <= width c.
  Variable T : list N.

  Definition pos (j : nat) : nat := total_width width (firstn j T).
  Lemma pos_0 : pos 0 = 0. Proof. reflexivity. Qed.
  Lemma pos_all : pos (length T) = total_width width T.
  Proof. unfold pos. now rewrite firstn_all. Qed.
  Lemma pos_S j c : nth_error T j = Some c -> pos (S j) = pos j + width c.
  Proof. intros H. unfold pos. rewrite (nth_firstn_S _ _ _ H), total_width_app. unfold total_width. cbn. now rewrite Nat.add_0_r. Qed.
  Lemma pos_lt i j : i < j <= length T -> pos i < pos j.
  Proof using Hwidth.
    intros [H1 H2]. induction j as [|j IH]; [lia|]. destruct (nth_error T j) as [c|] eqn:E; [|apply nth_error_None in E; lia].
    rewrite (pos_S _ _ E). specialize (Hwidth c). destruct (Nat.eq_dec i j) as [->|]; [lia|]. assert (pos i < pos j) by (apply IH; lia). lia.
  Qed.
  Lemma pos_eq i j : i <= length T -> j <= length T -> pos i = pos j -> i = j.
  Proof using Hwidth.
    intros Hi Hj E. destruct (Nat.lt_trichotomy i j) as [H|[H|H]]; [|assumption|].
    - assert (pos i < pos j) by (apply pos_lt; lia). lia.
    - assert (pos j < pos i) by (apply pos_lt; lia). lia.
  Qed.

  Lemma at_start j : j <= length T -> (pos j =? 0) = (j =? 0).
  Proof using Hwidth.
    intros Hj. destruct (Nat.eqb_spec j 0) as [->|H]; [reflexivity|]. apply Nat.eqb_neq. rewrite <- pos_0. intros E.
    apply pos_eq in E; lia.
  Qed.
  Lemma at_end j : j <= length T -> (pos j =? total_width width T) = (j =? length T).
  Proof using Hwidth.
    intros Hj. rewrite <- pos_all. destruct (Nat.eqb_spec j (length T)) as [->|H]; [apply Nat.eqb_refl|]. apply Nat.eqb_neq. intros E.
    apply pos_eq in E; lia.
  Qed.
  (** A zero-width edge may be taken at character [j]. *)
  Definition enabled (j : nat) (e : epsk) : Prop := (e = EStart -> j = 0) /\ (e = EEnd -> j = length T).
  Lemma enabled_iff j e : j <= length T -> eps_enabled (pos j) (total_width width T) e = true <-> enabled j e.
  Proof using Hwidth.
    intros Hj. unfold enabled. destruct e; cbn [eps_enabled]; try (split; [split; discriminate|reflexivity]).
    - rewrite at_start by assumption. rewrite Nat.eqb_eq. split; [split; [auto|discriminate]|intros [H _]; auto].
    - rewrite at_end by assumption. rewrite Nat.eqb_eq. split; [split; [discriminate|auto]|intros [_ H]; auto].
  Qed.

  Lemma reads_mark j e w k : enabled j e -> reads T j w k -> reads T j (mark e ++ w) k.
  Proof. intros [H1 H2] Hr. destruct e; cbn; [assumption|..]; constructor; auto; discriminate. Qed.
  Lemma reads_mark_split j e w k : reads T j (mark e ++ w) k -> enabled j e /\ reads T j w k.
  Proof.
    destruct e; cbn; intros H.
    - split; [split; discriminate|assumption].
    - apply reads_mark_inv in H as (? & ? & ?). split; [split; auto|assumption].
    - apply reads_mark_inv in H as (? & ? & ?). split; [split; auto|assumption].
    - apply reads_mark_inv in H as (? & ? & ?). split; [split; auto|assumption].
    - apply reads_mark_inv in H as (? & ? & ?). split; [split; auto|assumption].
  Qed.
  Context {A : Type}.
  Variable check : A -> N -> bool.
  Variable n : nfa A.
  Hypothesis Hwf : wf n.
  Hypothesis Hlen : 1 <= length n.

  (** The rest of an accepting run. *)
  Definition rest (j s : nat) (w : word) : Prop := path check n s w (length n - 1) /\ reads T j w (length T).
  (** Zero-width moves at character [j]. *)
  Definition zstep (j s t : nat) : Prop := exists e, In (t, e) (eps (get n s)) /\ enabled j e.

  Lemma propagate_spec j l : j <= length T -> length l = length n ->
    exists r, propagate n (total_width width T) l (pos j) = Ok r /\ length r = length n /\
      (forall s, marked l s -> marked r s) /\
      (forall s t, marked r s -> zstep j s t -> marked r t) /\
      (forall t, marked r t -> exists s, marked l s /\ clos_refl_trans_1n nat (zstep j) s t).
  Proof using Hwidth Hwf.
    intros Hj Hl. unfold propagate.
    set (succ := succ_eps n (eps_enabled (pos j) (total_width width T))).
    assert (HE : forall s t, edge succ s t <-> zstep j s t).
    { intros s t. unfold edge, succ. rewrite succ_eps_In. unfold zstep. split; intros (e & H1 & H2); exists e; split; auto; now apply enabled_iff. }
    assert (HM : forall x, In x (rev (map fst (filter snd (enumerate l)))) <-> marked l x).
    { intros x. rewrite <- in_rev, in_map_iff. split.
      - intros ([i b] & <- & H). apply filter_In in H as [H Hb]. cbn in *. subst b. apply In_enumerate in H. now apply nth_error_nth.
      - intros H. exists (x, true). split; [reflexivity|]. apply filter_In. split; [|reflexivity]. apply In_enumerate.
        rewrite (nth_error_nth' _ false) by (now apply marked_lt). now rewrite H. }
    destruct (dfs_spec succ (S (length n)) l (rev (map fst (filter snd (enumerate l))))) as (r & -> & H1 & H2 & H3 & H4).
    - intros x y H. rewrite Hl. eapply succ_eps_lt; eauto.
    - split.
      + apply Forall_forall. intros x Hx. now apply HM.
      + intros x Hx. left. now apply HM.
    - rewrite rev_length, map_length. clear -Hl. 
      assert (G : forall l k, unseen l + length (filter snd (combine (seq k (length l)) l)) = length l).
      { clear. induction l as [|b l IH]; intros k; cbn; [reflexivity|]. unfold unseen in *. specialize (IH (S k)). destruct b; cbn; lia. }
      unfold enumerate. rewrite G. lia.
    - exists r. split; [reflexivity|]. split; [congruence|]. split; [assumption|]. split.
      + intros s t Hs Hz. eapply H3; eauto. now apply HE.
      + intros t Ht. destruct (H4 t Ht) as (s & Hs & Hst). exists s. split; [assumption|].
        clear - Hst HE. induction Hst; [constructor|]. econstructor; [apply HE; eassumption|assumption].
  Qed.

  Lemma step_inner ts c : forall new x, marked (fold_left (fun new (t : nat * A) => if check (snd t) c then upd (fst t) true new else new) ts new) x <->
    ((exists a, In (x, a) ts /\ check a c = true) /\ x < length new) \/ marked new x.
  Proof.
    induction ts as [|[t a] ts IH]; intros new x; cbn [fold_left fst snd]; [split; [auto|intros [[(? & [] & _) _]|]; auto]|].
    rewrite IH. destruct (check a c) eqn:E.
    - rewrite marked_upd, upd_length. split.
      + intros [[(b & Hb & Hc) Hx]|[[-> Hx]|H]]; auto.
        * left. split; [|assumption]. exists b. split; [now right|assumption].
        * left. split; [|assumption]. exists a. split; [now left|assumption].
      + intros [[(b & [E'|Hb] & Hc) Hx]|H]; auto.
        * injection E' as -> ->. auto.
        * left. split; eauto.
    - split.
      + intros [[(b & Hb & Hc) Hx]|H]; auto. left. split; [|assumption]. exists b. split; [now right|assumption].
      + intros [[(b & [E'|Hb] & Hc) Hx]|H]; auto; [injection E' as -> ->; congruence|]. left. split; eauto.
  Qed.
  Lemma step_inner_length ts c : forall new, length (fold_left (fun new (t : nat * A) => if check (snd t) c then upd (fst t) true new else new) ts new) = length new.
  Proof. intros new. apply fold_length. intros l x. destruct (check _ c); [apply upd_length|reflexivity]. Qed.
  Lemma step_symbols_spec l c : length l = length n ->
    length (step_symbols check n l c) = length n /\
    forall t, marked (step_symbols check n l c) t <-> exists s a, marked l s /\ In (t, a) (trans (get n s)) /\ check a c = true.
  Proof using Hwf.
    intros Hl. unfold step_symbols.
    set (F := fun new (p : nat * state A) => let '(from, s) := p in _).
    assert (HF : forall new p, length (F new p) = length new).
    { intros new [i s]. unfold F. destruct (nth i l false); [apply step_inner_length|reflexivity]. }
    split; [rewrite fold_length by exact HF; apply repeat_length|].
    intros t.
    assert (G : forall ps new, length new = length n ->
      (marked (fold_left F ps new) t <-> (exists i s a, In (i, s) ps /\ marked l i /\ In (t, a) (trans s) /\ check a c = true /\ t < length n) \/ marked new t)).
    { induction ps as [|[i s] ps IH]; intros new Hnew; cbn [fold_left].
      - split; [auto|]. intros [(? & ? & ? & [] & _)|]; auto.
      - rewrite IH by now rewrite HF. unfold F at 1. destruct (nth i l false) eqn:Ei.
        + rewrite step_inner, Hnew. split.
          * intros [(k & x & a & H1 & H2)|[[(a & H1 & H2) H3]|H]]; auto.
            -- left. exists k, x, a. split; [now right|assumption].
            -- left. exists i, s, a. split; [now left|]. auto.
          * intros [(k & x & a & [E|H1] & H2 & H3 & H4 & H5)|H]; auto.
            -- injection E as -> ->. right. left. eauto.
            -- left. exists k, x, a. auto.
        + split.
          * intros [(k & x & a & H1 & H2)|H]; auto. left. exists k, x, a. split; [now right|assumption].
          * intros [(k & x & a & [E|H1] & H2 & H3)|H]; auto.
            -- injection E as -> ->. congruence.
            -- left. exists k, x, a. auto. }
    rewrite G by apply repeat_length. rewrite nth_repeat_false. split.
    - intros [(i & s & a & H1 & H2 & H3 & H4 & H5)|]; [|discriminate]. apply In_get in H1 as [_ ->]. eauto.
    - intros (s & a & H1 & H2 & H3). left. exists s, (get n s), a. split; [apply In_get; split; [|reflexivity]; now apply marked_lt in H1; rewrite Hl in H1|].
      repeat split; auto. eapply wf_trans; eauto.
  Qed.

  Lemma zstar_rest j s t w : clos_refl_trans_1n nat (zstep j) s t -> rest j t w -> exists w', rest j s w'.
  Proof.
    intros H. revert w. induction H as [|s t u (e & He & Hen) H IH]; intros w Hw; [eauto|].
    destruct (IH _ Hw) as (w' & H1 & H2). exists (mark e ++ w'). split; [eapply p_eps; eauto|now apply reads_mark].
  Qed.

  Lemma test_loop_spec text : forall j l, j <= length T -> skipn j T = text -> length l = length n ->
    exists b, test_loop check width n (total_width width T) l (pos j) text = Ok b /\
      (b = true <-> exists s w, marked l s /\ rest j s w).
  Proof using Hwidth Hwf Hlen.
    induction text as [|c text IH]; intros j l Hj Hs Hl; cbn [test_loop].
    - destruct (propagate_spec j l Hj Hl) as (r & -> & R1 & R2 & R3 & R4). cbn [bind]. eexists; split; [reflexivity|].
      rewrite (marked_last r (length n)) by assumption. apply skipn_nil_ge in Hs; [|assumption]. split.
      + intros H. destruct (R4 _ H) as (s & Hm & Hst). destruct (zstar_rest _ _ _ [] Hst) as (w & Hw).
        { split; [constructor|]. rewrite Hs. constructor. lia. }
        eauto.
      + intros (s & w & Hm & Hp & Hr). apply R2 in Hm. clear R2 R4.
        assert (G : forall s w u, path check n s w u -> marked r s -> reads T j w (length T) -> marked r u).
        { clear s w Hm Hp Hr. induction 1 as [s|s t e w u He Hp IHp|s t a c w u He Hc Hp IHp]; intros Hm Hr.
          - assumption.
          - apply reads_mark_split in Hr as [Hen Hr]. apply IHp; [|assumption]. eapply R3; eauto. now exists e.
          - apply reads_char_inv in Hr as [Hn _]. rewrite Hs in Hn. assert (nth_error T (length T) <> None) by congruence.
            apply nth_error_Some in H. lia. }
        eauto.
    - destruct (propagate_spec j l Hj Hl) as (r & -> & R1 & R2 & R3 & R4). cbn [bind].
      destruct (skipn_nth _ _ _ _ Hs) as [Hc Hs']. destruct (step_symbols_spec r c R1) as [S1 S2].
      assert (Hj' : S j <= length T) by (apply nth_error_Some; congruence).
      destruct (IH (S j) (step_symbols check n r c) Hj' Hs' S1) as (b & Eb & Hb). rewrite (pos_S _ _ Hc) in Eb. exists b. split; [exact Eb|].
      rewrite Hb. split.
      + intros (t & w & Ht & Hp & Hr). apply S2 in Ht as (s & a & Hm & Ha & Hca). destruct (R4 _ Hm) as (s0 & Hm0 & Hst).
        destruct (zstar_rest _ _ _ (IC c :: w) Hst) as (w' & Hw').
        { split; [eapply p_sym; eauto|now constructor]. }
        eauto.
      + intros (s & w & Hm & Hp & Hr). apply R2 in Hm. clear R2 R4 Hb IH Eb.
        assert (G : forall s w u, path check n s w u -> marked r s -> reads T j w (length T) ->
          exists t w', marked (step_symbols check n r c) t /\ path check n t w' u /\ reads T (S j) w' (length T)).
        { clear s w Hm Hp Hr. induction 1 as [s|s t e w u He Hp IHp|s t a d w u He Hd Hp IHp]; intros Hm Hr.
          - apply reads_nil_inv in Hr as [E _]. lia.
          - apply reads_mark_split in Hr as [Hen Hr]. apply IHp; [|assumption]. eapply R3; eauto. now exists e.
          - apply reads_char_inv in Hr as [Hn Hr]. assert (d = c) by congruence. subst d. exists t, w. split; [|auto]. apply S2. eauto. }
        destruct (G _ _ _ Hp Hm Hr) as (t & w' & H1 & H2 & H3). exists t, w'. repeat split; auto.
  Qed.

  Lemma nfa_test_spec : exists b, nfa_test check width n T = Ok b /\
    (b = true <-> exists W, lang check n W /\ reads T 0 W (length T)).
  Proof using Hwidth Hwf Hlen.
    unfold nfa_test. rewrite wfb_guard by assumption. cbn [guard bind].
    destruct (test_loop_spec T 0 (upd 0 true (repeat false (length n)))) as (b & Eb & Hb); [lia|reflexivity|apply initial_length|].
    exists b. split; [exact Eb|]. rewrite Hb. split.
    - intros (s & w & Hm & H). apply initial_marked in Hm; [|assumption]. subst s. exists w. exact H.
    - intros (W & H). exists 0, W. split; [now apply initial_marked|exact H].
  Qed.
End Test.

(** ** On characters the two readings of an atom agree *)
Lemma len_utf8_pos c : 1 <= len_utf8 c.
Proof. unfold len_utf8. repeat destruct (_ <? _)%N; lia. Qed.
Lemma path_acheck n s w t : path atom_check n s w t -> Forall scalar (chars w) -> path acheck n s w t.
Proof.
  induction 1 as [s|s t e w u He Hp IH|s t a c w u He Hc Hp IH]; intros Hs.
  - constructor.
  - rewrite chars_app, chars_mark in Hs. eapply p_eps; eauto.
  - cbn in Hs. inv Hs. eapply p_sym; eauto. unfold acheck. now rewrite Hc.
Qed.
Lemma path_atom_check n s w t : path acheck n s w t -> path atom_check n s w t.
Proof.
  induction 1 as [s|s t e w u He Hp IH|s t a c w u He Hc Hp IH]; [constructor|eapply p_eps; eauto|].
  eapply p_sym; eauto. now apply andb_true_iff in Hc.
Qed.
Lemma lang_acheck T n W : Forall scalar T -> reads T 0 W (length T) -> lang atom_check n W <-> lang acheck n W.
Proof.
  intros HT Hr. apply reads_whole in Hr as [E _]. split; [|apply path_atom_check].
  intros H. apply path_acheck; [exact H|]. now rewrite E.
Qed.

(** ** [WorkingNFA::new] followed by [WorkingNFA::test] *)
Section Working.
  Variable e : ere.
  Hypothesis He : ere_atoms atom_ok e.

  (** The automaton of [e] has exactly the words of [e] that can be read on some text. *)
  Definition automaton_of (n : nfa atom) : Prop :=
    ok n /\ 2 <= length n /\ trimmed n /\
    (forall T W, Forall scalar T -> (lang acheck n W /\ reads T 0 W (length T)) <-> accepted T e W) /\
    Forall (lab atom_ok (mark_in 0 (S (groups e)))) n.
  Lemma working_new_spec : exists n, working_new (tree_of e) = Ok n /\
    ((n = [] /\ forall T, Forall scalar T -> ~ occurs e T) \/ automaton_of n).
  Proof using He.
    destruct (working_spec true true (tree_of e)) as (n & En & H).
    - eapply tree_labels_mono; [|apply tree_of_labels; exact He]. auto.
    - apply tree_of_ok.
    - apply tree_of_length.
    - exists n. split; [exact En|]. destruct H as [[-> H]|(H1 & H2 & H3 & H4 & H5 & H6)].
      + left. split; [reflexivity|]. intros T HT Ho. apply (occurs_iff T HT) in Ho as (W & Hp & Hr).
        apply (H W); [|assumption]. now apply reads_whole in Hr.
      + right. split; [assumption|]. split; [assumption|]. split; [assumption|]. split.
        * intros T W HT. split.
          -- intros [Hl Hr]. split; [now apply H4|assumption].
          -- intros [Hp Hr]. split; [|assumption]. apply H5; [now apply reads_whole in Hr|assumption].
        * apply H6; [exact I|constructor|]. apply tree_of_labels. exact He.
  Qed.
  Lemma working_test_spec n T : automaton_of n -> Forall scalar T ->
    exists b, working_test n T = Ok b /\ (b = true <-> occurs e T).
  Proof.
    intros (H1 & H2 & H3 & H4 & H5) HT. destruct (nfa_test_spec len_utf8 len_utf8_pos T atom_check n (ok_wf _ H1) ltac:(lia)) as (b & Eb & Hb).
    exists b. split; [exact Eb|]. rewrite Hb, (occurs_iff T HT). split; intros (W & HW); exists W.
    - apply (H4 T W HT). destruct HW as [HW Hr]. split; [|assumption]. now apply (lang_acheck T).
    - apply (H4 T W HT) in HW as [HW Hr]. split; [|assumption]. now apply (lang_acheck T).
  Qed.
End Working.
