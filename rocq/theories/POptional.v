(** The classification of groups as optional: it never trips its assertion, and it is exact for patterns
    without anchors. *)
From Verif Require Export SpecLaws PCount PCompile PPrioLock.
From Coq Require Import ZifyBool ZifyNat ZifyN.
Open Scope nat_scope.
Open Scope list_scope.
Set Default Proof Using "Type".

(** ** A group is opened before it is closed *)
Definition of_group (k : nat) (x : item) : bool := match x with IM (ESC j) | IM (EEC j) => j =? k | _ => false end.
Definition opened (k : nat) (w : word) : Prop := find (of_group k) w <> Some (IM (EEC k)).
Lemma find_app {X} (f : X -> bool) u v : find f (u ++ v) = match find f u with Some x => Some x | None => find f v end.
Proof. induction u as [|x u IH]; cbn; [reflexivity|]. destruct (f x); auto. Qed.
Lemma opened_app k u v : opened k u -> opened k v -> opened k (u ++ v).
Proof. unfold opened. rewrite find_app. destruct (find (of_group k) u); auto. Qed.
Lemma opened_chars k l : opened k (map IC l).
Proof. unfold opened. induction l; cbn; [discriminate|assumption]. Qed.
Lemma powL_opened k (L : word -> Prop) n w : (forall v, L v -> opened k v) -> powL L n w -> opened k w.
Proof. intros H. induction 1; [discriminate|apply opened_app; auto]. Qed.
Lemma tlang_opened check k t w : tlang check t w -> opened k w.
Proof.
  revert w. induction t using tree_ind'; intros w; cbn [tlang]; intros Hw.
  - subst. discriminate.
  - destruct Hw as (c & _ & ->). apply (opened_chars k [c]).
  - induction H as [|t l Ht H IH]; cbn in *; inv Hw; eauto.
  - destruct Hw as (v & Hv & ->). specialize (IHt v Hv). unfold opened in *. cbn [find of_group]. destruct (Nat.eqb_spec k0 k) as [->|Hne]; [discriminate|].
    rewrite find_app. destruct (find (of_group k) v); [assumption|]. cbn. destruct (Nat.eqb_spec k0 k); [contradiction|discriminate].
  - revert w Hw. induction H as [|t l Ht H IH]; cbn in *; intros w Hw; inv Hw; [discriminate|apply opened_app; eauto].
  - eapply powL_opened; eauto.
  - destruct Hw as (m & _ & Hw). eapply powL_opened; eauto.
  - destruct Hw as (m & Hw). eapply powL_opened; eauto.
  - subst. discriminate.
  - subst. discriminate.
  - contradiction.
Qed.
Lemma padded_opened check k sl el t w : padded sl el (tlang check t) w -> opened k w.
Proof.
  intros (pre & v & post & -> & _ & _ & _ & _ & Hv). apply opened_app; [apply opened_chars|]. apply opened_app; [eapply tlang_opened; eauto|apply opened_chars].
Qed.
Lemma unopened k u v : ~ In (IM (ESC k)) u -> ~ opened k (u ++ IM (EEC k) :: v).
Proof.
  intros H Ho. apply Ho. rewrite find_app. destruct (find (of_group k) u) as [x|] eqn:E.
  - apply find_some in E as [E1 E2]. destruct x as [c|[]]; try discriminate E2; apply Nat.eqb_eq in E2; subst; [contradiction|reflexivity].
  - cbn. now rewrite Nat.eqb_refl.
Qed.

(** ** States reached without opening the group *)
Section Avoid.
  Context {A : Type}.
  Variable n : nfa A.
  Hypothesis Hw : wf n.
  Hypothesis Hl : 1 <= length n.
  Variable check : A -> N -> bool.
  Hypothesis HL : forall s t a, In (t, a) (trans (get n s)) -> exists c, check a c = true.
  Variable k : nat.
  Definition avoiding (s : nat) : list nat := succ_trans n s ++ succ_eps n (fun e => negb (epsk_eqb e (ESC k))) s.
  Lemma avoid_path s t : star avoiding s t -> exists w, path check n s w t /\ ~ In (IM (ESC k)) w.
  Proof using HL.
    intros H. induction H as [x|x y z Hxy H IH].
    - exists []. split; [constructor|intros []].
    - destruct IH as (w & Hp & Hn). unfold edge, avoiding in Hxy. apply in_app_or in Hxy as [Hxy|Hxy].
      + apply succ_trans_In in Hxy as (a & Ha). destruct (HL _ _ _ Ha) as (c & Hc). exists (IC c :: w). split; [eapply p_sym; eauto|]. intros [E|E]; [discriminate|auto].
      + apply succ_eps_In in Hxy as (e & He & Hk). exists (mark e ++ w). split; [eapply p_eps; eauto|]. intros E. apply in_app_or in E as [E|E]; [|auto].
        destruct e; cbn in E; try tauto; destruct E as [E|[]]; try discriminate E. injection E as <-. now rewrite (proj2 (epsk_eqb_iff (ESC k0) (ESC k0)) eq_refl) in Hk.
  Qed.
  Lemma optional_value : exists r, capture_group_is_optional n k = (do _ <- guard (forallb (fun s => negb (nth s r false && existsb (fun e => epsk_eqb (snd e) (EEC k)) (eps (get n s)))) (seq 0 (length n))); Ok (last r false)) /\
    (forall s, nth s r false = true <-> star avoiding 0 s) /\ last r false = nth (length n - 1) r false.
  Proof using Hw Hl.
    unfold capture_group_is_optional. rewrite wfb_guard by assumption. cbn [guard bind].
    change (fun s => succ_trans n s ++ succ_eps n (fun e => negb (epsk_eqb e (ESC k))) s) with avoiding.
    destruct (reach_from_spec avoiding (length n) 0) as (r & -> & Hrl & Hr); [exact Hl| |].
    { intros x y Hy. unfold edge, avoiding in Hy. apply in_app_or in Hy as [Hy|Hy]; [apply succ_trans_In in Hy as (a & Hy); eapply wf_trans; eauto|].
      apply succ_eps_In in Hy as (e & Hy & _). eapply wf_eps; eauto. }
    cbn [bind]. exists r. split; [reflexivity|]. split; [exact Hr|now apply marked_last].
  Qed.
  Lemma optional_true : capture_group_is_optional n k = Ok true -> exists w, lang check n w /\ ~ In (IM (ESC k)) w.
  Proof using Hw Hl HL.
    destruct optional_value as (r & -> & Hr & Hlast). intros H. destruct (forallb _ _); [|discriminate]. cbn [guard bind] in H. injection H as H.
    rewrite Hlast in H. apply Hr in H. now apply avoid_path in H.
  Qed.
  Lemma optional_runs : trimmed n -> (forall w, lang check n w -> opened k w) -> exists b, capture_group_is_optional n k = Ok b.
  Proof using Hw Hl HL.
    intros Ht Ho. destruct optional_value as (r & -> & Hr & _). match goal with |- context [guard ?b] => assert (E : b = true) end.
    { apply forallb_forall. intros s Hs. apply negb_true_iff. apply not_true_iff_false. intros H. apply andb_prop in H as [H1 H2]. apply Hr in H1. apply existsb_exists in H2 as ([t e] & He & Hk).
      cbn in Hk. apply epsk_eqb_iff in Hk. subst e. destruct (avoid_path _ _ H1) as (u & Hu & Hn).
      assert (Htl := wf_eps _ _ _ _ Hw He). destruct (conn_path n check t (length n - 1) HL) as (v & Hv); [now apply Ht|].
      apply (unopened k u v Hn). apply Ho. eapply path_app; [exact Hu|]. apply (p_eps check n s t (EEC k) v _ He Hv). }
    rewrite E. cbn [guard bind]. eauto.
  Qed.
End Avoid.

(** ** Patterns *)
Lemma optional_total e n k : ere_atoms atom_ok e -> working_new (tree_of e) = Ok n -> n <> [] -> exists b, capture_group_is_optional n k = Ok b.
Proof.
  intros He En Hn. destruct (working_chk anycheck reading_any true true (tree_of e)) as (n' & En' & H).
  - eapply tree_labels_mono; [|apply tree_of_labels; exact He]. auto.
  - apply tree_of_ok.
  - apply tree_of_length.
  - unfold working_new in En. rewrite En in En'. injection En' as <-. destruct H as [[-> _]|(H1 & H2 & H3 & H4 & _)]; [congruence|].
    refine (optional_runs n _ _ anycheck _ k _ _); [apply H1|lia|intros; apply anycheck_readable|assumption|].
    intros W HW. apply H4 in HW. eapply padded_opened; eauto.
Qed.

Lemma free_counts : (forall p, free_part p = true -> carets_part p = Some 0 /\ dollars_part p = Some 0) /\
  (forall e, free_expr e = true -> carets_expr e = Some 0 /\ dollars_expr e = Some 0) /\
  (forall b, forallb free_part b = true -> carets_branch b = Some 0 /\ dollars_branch b = Some 0) /\
  (forall e, anchor_free e = true -> (carets e = Some 0 /\ dollars e = Some 0) /\ Forall (fun b => carets_branch b = Some 0 /\ dollars_branch b = Some 0) e).
Proof.
  apply syntax_ind; cbn [free_part free_expr carets_part dollars_part carets_expr dollars_expr]; try discriminate; auto.
  - intros e q IH H. destruct (IH H) as [-> ->]. auto.
  - intros bs IH H. destruct (IH H) as [H1 _]. exact H1.
  - intros p b IHp IHb H. cbn [forallb] in H. apply andb_prop in H as [H1 H2]. destruct (IHp H1) as [E1 E2], (IHb H2) as [F1 F2].
    unfold carets_branch, dollars_branch, total in *. cbn [map fold_right]. rewrite E1, E2, F1, F2. auto.
  - intros b e IHb IHe H. cbn [anchor_free forallb] in H. apply andb_prop in H as [H1 H2]. destruct (IHb H1) as [E1 E2], (IHe H2) as [_ F].
    split; [|constructor; auto]. unfold carets, dollars. cbn [map common]. rewrite E1, E2.
    assert (G1 : forallb (opt_eqb (Some 0)) (map carets_branch e) = true) by (apply forallb_forall; intros x Hx; apply in_map_iff in Hx as (b' & <- & Hb); rewrite Forall_forall in F; destruct (F b' Hb) as [-> _]; reflexivity).
    assert (G2 : forallb (opt_eqb (Some 0)) (map dollars_branch e) = true) by (apply forallb_forall; intros x Hx; apply in_map_iff in Hx as (b' & <- & Hb); rewrite Forall_forall in F; destruct (F b' Hb) as [_ ->]; reflexivity).
    rewrite G1, G2. auto.
Qed.
Lemma free_valid chk e w : anchor_free e = true -> padded true true (tlang chk (tree_of e)) w -> valid w.
Proof.
  intros Hf Hp. apply (proj2 (proj2 (proj2 free_counts))) in Hf as [[H1 H2] _]. apply (pad_carets chk e 0 w H1) in Hp as Hs. apply (pad_dollars chk e 0 w H2) in Hp as Hd. split.
  - intros u v ->. change (IM EStart :: v) with ([IM EStart] ++ v) in Hs. rewrite !starts_app in Hs. unfold starts at 2 in Hs. cbn in Hs. lia.
  - intros u v ->. change (IM EEnd :: v) with ([IM EEnd] ++ v) in Hd. rewrite !ends_app in Hd. unfold ends at 2 in Hd. cbn in Hd. lia.
Qed.
Lemma path_scalar n s w t : path acheck n s w t -> Forall scalar (chars w).
Proof.
  induction 1 as [|s q e w t H Hp IH|s q a c w t H Hc Hp IH]; cbn; [constructor|rewrite chars_app, chars_mark; exact IH|constructor; [|exact IH]].
  unfold acheck in Hc. now apply andb_prop in Hc as [_ Hc].
Qed.
Lemma blog_unmarked i v j L k : blog i v j L -> ~ In (IM (ESC k)) v -> last_of k L = None.
Proof.
  induction 1 as [i|i c|i|i|k' i j v L H IH Hf|i j k' u v L1 L2 H1 IH1 H2 IH2]; intros Hi; try reflexivity.
  - rewrite last_of_app. cbn. destruct (Nat.eqb_spec k' k) as [->|]; [exfalso; apply Hi; now left|]. cbn. apply IH. intros E. apply Hi. right. apply in_or_app. now left.
  - rewrite last_of_app, IH2, IH1; [reflexivity| |]; intros E; apply Hi; apply in_or_app; auto.
Qed.
Lemma optional_exact e n k : ere_atoms atom_ok e -> inhabited_atoms e -> anchor_free e = true -> working_new (tree_of e) = Ok n -> n <> [] ->
  capture_group_is_optional n k = Ok true -> exists T i j L, Forall scalar T /\ matches T e i j L /\ last_of k L = None.
Proof.
  intros He Hi Hf En Hn Ho. destruct (working_chk acheck reading_acheck true true (tree_of e)) as (n' & En' & H).
  - eapply tree_labels_mono; [|apply tree_of_labels; exact He]. auto.
  - apply tree_of_ok.
  - apply tree_of_length.
  - unfold working_new in En. rewrite En in En'. injection En' as <-. destruct H as [[-> _]|(H1 & H2 & H3 & H4 & _ & H6)]; [congruence|].
    set (P := fun a => exists c, acheck a c = true). assert (HL : Forall (lab P (fun _ => True)) n).
    { apply H6; [exact I|exists 97%N; reflexivity|]. eapply tree_labels_mono; [|apply tree_of_labels].
      - auto.
      - apply (proj2 (proj2 (proj2 (atoms_In P)))). intros a Ha. destruct (Hi a Ha) as (c & Hc & Hac). exists c. unfold acheck. apply andb_true_intro. split; [now apply atom_check_iff|exact Hc]. }
    apply lab_iff in HL as [HL _]. destruct (optional_true n (ok_wf _ H1) ltac:(lia) acheck HL k Ho) as (w & Hlw & Hk).
    assert (HS : Forall scalar (chars w)) by (eapply path_scalar; exact Hlw).
    apply H4 in Hlw. assert (Hv := free_valid acheck e w Hf Hlw). destruct Hlw as (pre & v & post & -> & Hp & Hq & _ & _ & Hv').
    set (W := map IC pre ++ v ++ map IC post) in *. set (T := chars W). exists T.
    assert (HR : reads T 0 W (length T)) by (apply reads_whole; split; [reflexivity|assumption]).
    apply reads_app in HR as (i & R1 & R2). apply reads_app in R2 as (j & R2 & R3). destruct (word_matches T _ _ _ _ Hv' R2) as (L & Hm & Hb).
    exists i, j, L. split; [|split; [assumption|]].
    + exact HS.
    + eapply blog_unmarked; eauto. intros E. apply Hk. apply in_or_app. right. apply in_or_app. now left.
Qed.

(** ** Through the attribute macro *)
Lemma optional_parsed s e n k : Forall scalar s -> G_ere e s -> working_new (tree_of e) = Ok n -> n <> [] -> exists b, capture_group_is_optional n k = Ok b.
Proof. intros Hs Hg. apply optional_total. apply parse_iff in Hg. eapply parsed_atoms_ok; eauto. Qed.
Lemma attr_parts s en opts e k b : attr_compile s = Ok (en, opts) -> Forall scalar s -> G_ere e s -> nth_error opts k = Some b ->
  exists n, working_new (tree_of e) = Ok n /\ n <> [] /\ automaton_of e n /\ capture_group_is_optional n k = Ok b.
Proof.
  intros H Hs Hg Hk. apply parse_iff in Hg. unfold attr_compile, with_ere in H. rewrite Hg in H.
  destruct (working_new (tree_of e)) as [n| | |] eqn:En; try discriminate. cbn [bind] in H.
  destruct (mapM (capture_group_is_optional n) (seq 0 (num_capture_groups n))) as [os| | |] eqn:Eo; try discriminate. cbn [bind] in H.
  destruct (pick_engine e) as [en'| | |] eqn:Ep; try discriminate. cbn [bind] in H. destruct (Nat.eqb_spec (engine_groups en') (num_capture_groups n)) as [Hgr|]; [|discriminate]. injection H as -> ->.
  assert (Hc : compiled s en) by (left; unfold compile_regex, with_ere; now rewrite Hg). apply parse_iff in Hg. destruct (compiled_unique s en e Hc Hs Hg) as (_ & _ & n' & En' & Ha & _). rewrite En in En'. injection En' as <-.
  exists n. split; [reflexivity|]. split; [intros ->; destruct Ha as (_ & Ha & _); cbn in Ha; lia|]. split; [assumption|].
  assert (Hlen : length opts = num_capture_groups n) by (apply mapM_length in Eo; now rewrite seq_length in Eo).
  assert (Hkl : k < length opts) by (apply nth_error_Some; congruence).
  destruct (mapM_In _ _ _ Eo k k) as (y & Ey & Hy); [rewrite (nth_error_nth' _ 0) by (rewrite seq_length; lia); rewrite seq_nth by lia; reflexivity|].
  rewrite Hk in Ey. injection Ey as <-. exact Hy.
Qed.
Lemma attr_mandatory s en opts e k : attr_compile s = Ok (en, opts) -> Forall scalar s -> G_ere e s -> nth_error opts k = Some false ->
  forall T i j L, Forall scalar T -> matches T e i j L -> last_of k L <> None.
Proof. intros H Hs Hg Hk T i j L HT. destruct (attr_parts s en opts e k false H Hs Hg Hk) as (n & _ & _ & Ha & Ho). eapply mandatory_spec; eauto. Qed.
Lemma attr_optional s en opts e k : attr_compile s = Ok (en, opts) -> Forall scalar s -> G_ere e s -> anchor_free e = true -> inhabited_atoms e -> nth_error opts k = Some true ->
  exists T i j L, Forall scalar T /\ matches T e i j L /\ last_of k L = None.
Proof.
  intros H Hs Hg Hf Hi Hk. destruct (attr_parts s en opts e k true H Hs Hg Hk) as (n & En & Hn & _ & Ho). apply (optional_exact e n); auto.
  apply parse_iff in Hg. eapply parsed_atoms_ok; eauto.
Qed.

(** ** A pattern with [^] whose classification is not exact: [(^x|(y?)){2}] *)
Definition twice_pattern : ere :=
  [[PQuant (XSub [[PStart; PSingle (XAtom (NormalChar 120%N))]; [PSingle (XSub [[PQuant (XAtom (NormalChar 121%N)) {| q_type := QQuestion; q_alt := false |}]])]]) {| q_type := QMultiple 2%N; q_alt := false |}]].
Lemma last_of_in k L s : In (k, s) L -> last_of k L <> None.
Proof. induction L as [|[g x] L IH]; cbn; [intros []|]. intros [E|E]; [injection E as -> ->; rewrite Nat.eqb_refl; destruct (last_of k L); discriminate|]. destruct (last_of k L); [discriminate|now destruct (IH E)]. Qed.
Lemma twice_step T i j L : m_expr T (XSub [[PStart; PSingle (XAtom (NormalChar 120%N))]; [PSingle (XSub [[PQuant (XAtom (NormalChar 121%N)) {| q_type := QQuestion; q_alt := false |}]])]]) 1 i j L ->
  (i = 0 /\ j = 1) \/ exists s, In (2, s) L.
Proof.
  intros H. inversion H as [|bs g i' j' L' H1]; subst. inversion H1 as [b bs g i' j' L H2|b bs g i' j' L H2]; subst.
  - inversion H2 as [|p b g i' j' k' L1 L2 H3 H4]; subst. inversion H3; subst. inversion H4 as [|p b g i' j'' k' L1' L2' H5 H6]; subst. inversion H6; subst. inversion H5 as [e g i' j' L H7| | |]; subst. inversion H7; subst. auto.
  - inversion H2 as [b bs g i' j' L H3|b bs g i' j' L H3]; subst; [|inversion H3]. inversion H3 as [|p b g i' j' k' L1 L2 H5 H6]; subst. inversion H6; subst. inversion H5 as [e g i' j' L H7| | |]; subst.
    inversion H7 as [|bs g i' j' L Ha]; subst. right. eexists. apply in_or_app. left. apply in_or_app. left. apply in_or_app. right. left. reflexivity.
Qed.
Lemma twice_uses T i j L : matches T twice_pattern i j L -> last_of 2 L <> None.
Proof.
  intros (L' & H & ->). inversion H as [b bs g i' j' L H2|b bs g i' j' L H2]; subst; [|inversion H2].
  inversion H2 as [|p b g i' j' k' L1 L2 H3 H4]; subst. inversion H4; subst. inversion H3 as [|e q n g i' j'' L Hq Hi| |]; subst. cbn [quant_allows q_type] in Hq. assert (n = 2) as -> by lia.
  inversion Hi as [|e n g i' j1 k L1' L2 A1 A2]; subst. inversion A2 as [|e n g i' j2 k L1 L2' B1 B2]; subst.
  assert (G : exists s, In (2, s) L1' \/ In (2, s) L1).
  { apply twice_step in A1 as [[-> ->]|(s & A1)]; [|eauto]. apply twice_step in B1 as [[B _]|(s & B1)]; [discriminate|eauto]. }
  destruct G as (s & G). apply last_of_in with (s := s). apply in_or_app. left. apply in_or_app. left. apply in_or_app. destruct G; [auto|]. right. apply in_or_app. auto.
Qed.
