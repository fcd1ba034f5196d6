(** Capture indices in the automata: an end mark never occurs without its start mark, so every index
    fits the number of groups computed from the start marks. *)
From Verif Require Export PFlat.
From Coq Require Import ZifyBool ZifyNat.
Open Scope nat_scope.
Open Scope list_scope.
Set Default Proof Using "Type".

Definition paired (w : word) : Prop := forall k, In (IM (EEC k)) w <-> In (IM (ESC k)) w.
Lemma paired_app u v : paired u -> paired v -> paired (u ++ v).
Proof. intros H1 H2 k. now rewrite !in_app_iff, (H1 k), (H2 k). Qed.
Lemma paired_nil : paired [].
Proof. intros k. cbn. tauto. Qed.
Lemma paired_chars l : paired (map IC l).
Proof. intros k. rewrite !in_map_iff. split; intros (x & E & _); discriminate. Qed.
Lemma powL_paired (L : word -> Prop) n w : (forall v, L v -> paired v) -> powL L n w -> paired w.
Proof. intros H. induction 1; [apply paired_nil|apply paired_app; auto]. Qed.
Lemma tlang_paired check t w : tlang check t w -> paired w.
Proof.
  revert w. induction t using tree_ind'; intros w; cbn [tlang]; intros Hw.
  - subst. apply paired_nil.
  - destruct Hw as (c & _ & ->). apply (paired_chars [c]).
  - induction H as [|t l Ht H IH]; cbn in *; inv Hw; eauto.
  - destruct Hw as (v & Hv & ->). intros j. specialize (IHt v Hv j). cbn. rewrite !in_app_iff, IHt. cbn.
    split; intros [E|[E|[E|[]]]]; try discriminate E; try injection E as ->; auto.
  - revert w Hw. induction H as [|t l Ht H IH]; cbn in *; intros w Hw; inv Hw; [apply paired_nil|apply paired_app; eauto].
  - eapply powL_paired; eauto.
  - destruct Hw as (m & _ & Hw). eapply powL_paired; eauto.
  - destruct Hw as (m & Hw). eapply powL_paired; eauto.
  - subst. intros j. cbn. split; intros [E|[]]; discriminate E.
  - subst. intros j. cbn. split; intros [E|[]]; discriminate E.
  - contradiction.
Qed.
Lemma padded_paired check sl el t w : padded sl el (tlang check t) w -> paired w.
Proof.
  intros (pre & v & post & -> & _ & _ & _ & _ & Hv). apply paired_app; [apply paired_chars|]. apply paired_app; [eapply tlang_paired; eauto|apply paired_chars].
Qed.

Section Groups.
  Context {A : Type}.
  Variable n : nfa A.
  Lemma num_groups_start s t k : In (t, ESC k) (eps (get n s)) -> k < num_capture_groups n.
  Proof.
    intros H. unfold num_capture_groups. assert (Hs := eps_range _ _ _ H). apply (get_In n) in Hs.
    apply Nat.lt_succ_r. set (l := flat_map _ n). assert (Hi : In k l).
    { apply in_flat_map. exists (get n s). split; [assumption|]. apply in_map_iff. exists (t, ESC k). auto. }
    clearbody l. induction l as [|x l IH]; [destruct Hi|]. cbn. destruct Hi as [->|Hi]; [lia|]. specialize (IH Hi). lia.
  Qed.
  Lemma num_groups_inv k : k < num_capture_groups n -> k = 0 \/ exists s t k', k <= k' /\ In (t, ESC k') (eps (get n s)).
  Proof.
    unfold num_capture_groups. intros H. destruct (Nat.eq_dec k 0) as [->|H0]; [auto|]. right. apply Nat.lt_succ_r in H.
    set (l := flat_map _ n) in H. assert (Hl : exists x, In x l /\ k <= x).
    { clearbody l. induction l as [|x l IH]; cbn in H; [lia|]. destruct (Nat.le_gt_cases k x).
      - exists x. split; [now left|assumption].
      - destruct IH as (y & Hy & Hk); [lia|]. exists y. split; [now right|assumption]. }
    destruct Hl as (x & Hx & Hk). apply in_flat_map in Hx as (st & Hst & Hx). apply in_map_iff in Hx as ([t e] & Ex & Hin).
    cbn in Ex. destruct e; try lia. subst x. apply (In_nth _ _ empty_state) in Hst as (s & Hs & <-). exists s, t, k0. auto.
  Qed.
  (** Every connection is a path, if every label can be read. *)
  Lemma conn_path check s t : (forall s t a, In (t, a) (trans (get n s)) -> exists c, check a c = true) ->
    conn n s t -> exists w, path check n s w t.
  Proof.
    intros HL H. induction H as [x|x y z Hxy H IH].
    - exists []. constructor.
    - destruct IH as (w & Hw). apply succ_all_inv in Hxy as [(e & He)|(a & Ha)].
      + exists (mark e ++ w). eapply p_eps; eauto.
      + destruct (HL _ _ _ Ha) as (c & Hc). exists (IC c :: w). eapply p_sym; eauto.
  Qed.
  Lemma path_marks check s w t : path check n s w t -> forall m, In (IM m) w -> exists q u, In (u, m) (eps (get n q)).
  Proof.
    induction 1 as [s|s t e w u He Hp IH|s t a c w u He Hc Hp IH]; intros m Hm.
    - destruct Hm.
    - apply in_app_or in Hm as [Hm|Hm]; [|auto]. destruct e; cbn in Hm; try tauto; destruct Hm as [E|[]]; injection E as <-; eauto.
    - destruct Hm as [E|Hm]; [discriminate|auto].
  Qed.
  Lemma edge_word check s t e : (forall s t a, In (t, a) (trans (get n s)) -> exists c, check a c = true) -> wf n -> trimmed n ->
    In (t, e) (eps (get n s)) -> exists u v, lang check n (u ++ mark e ++ v).
  Proof.
    intros HL Hw Ht He. assert (Hs := eps_range _ _ _ He). assert (Htl := wf_eps _ _ _ _ Hw He).
    destruct (conn_path check 0 s HL) as (u & Hu); [now apply Ht|].
    destruct (conn_path check t (length n - 1) HL) as (v & Hv); [now apply Ht|].
    exists u, v. eapply path_app; [exact Hu|]. eapply p_eps; eauto.
  Qed.
  Lemma groups_paired check : (forall s t a, In (t, a) (trans (get n s)) -> exists c, check a c = true) -> wf n -> trimmed n ->
    (forall W, lang check n W -> paired W) -> groups_ok n.
  Proof.
    intros HL Hw Ht HP s t k [He|He]; [eapply num_groups_start; eauto|].
    destruct (edge_word check s t _ HL Hw Ht He) as (u & v & HW). assert (Hk := HP _ HW k).
    destruct Hk as [Hk _]. destruct (path_marks check _ _ _ HW (ESC k)) as (q & x & Hq).
    - apply Hk. apply in_or_app. right. now left.
    - eapply num_groups_start; eauto.
  Qed.
End Groups.

(** Reading any atom on any scalar. *)
Definition anycheck (a : atom) (c : N) : bool := scalarb c.
Lemma reading_any : atom_reading anycheck.
Proof. split; reflexivity. Qed.
Lemma anycheck_readable a : exists c, anycheck a c = true.
Proof. exists 97%N. reflexivity. Qed.
Lemma working_groups e n : ere_atoms atom_ok e -> working_new (tree_of e) = Ok n -> n <> [] -> groups_ok n.
Proof.
  intros He En Hn. destruct (working_chk anycheck reading_any true true (tree_of e)) as (n' & En' & H).
  - eapply tree_labels_mono; [|apply tree_of_labels; exact He]. auto.
  - apply tree_of_ok.
  - apply tree_of_length.
  - unfold working_new in En. rewrite En in En'. injection En' as <-. destruct H as [[-> _]|(H1 & _ & H3 & H4 & _)]; [congruence|].
    eapply groups_paired with (check := anycheck); eauto using anycheck_readable; [apply H1|].
    intros W HW. apply H4 in HW. eapply padded_paired; eauto.
Qed.
