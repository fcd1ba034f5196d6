(** [optimize] terminates, never panics, and keeps the language of an automaton. *)
From Verif Require Export PPrune.
From Coq Require Import ZifyBool ZifyNat.
Open Scope nat_scope.
Open Scope list_scope.
Set Default Proof Using "Type".

Lemma epsk_eqb_iff a b : epsk_eqb a b = true <-> a = b.
Proof. destruct a, b; cbn; rewrite ?Nat.eqb_eq; split; congruence. Qed.
Lemma eps_eqb_iff x y : eps_eqb x y = true <-> x = y.
Proof.
  destruct x, y. unfold eps_eqb. cbn. rewrite andb_true_iff, Nat.eqb_eq, epsk_eqb_iff.
  split; [intros [-> ->]; reflexivity|now injection 1].
Qed.
Lemma list_eqb_iff {A} (f : A -> A -> bool) (R : A -> A -> Prop) l m : (forall x y, f x y = true -> R x y) ->
  list_eqb f l m = true -> Forall2 R l m.
Proof.
  intros HR. revert m; induction l as [|x l IH]; intros [|y m]; cbn; try discriminate; [constructor|].
  intros H. apply andb_true_iff in H as [H1 H2]. constructor; auto.
Qed.
Lemma Forall2_eq {A} (l m : list A) : Forall2 eq l m -> l = m.
Proof. induction 1; congruence. Qed.
Lemma Forall2_In_l {A B} (R : A -> B -> Prop) l m x : Forall2 R l m -> In x l -> exists y, In y m /\ R x y.
Proof.
  induction 1 as [|a b l m H1 H2 IH]; intros H; [destruct H|]. destruct H as [<-|H]; [exists b; cbn; auto|].
  destruct (IH H) as (y & ? & ?). exists y. cbn. auto.
Qed.
Lemma Forall2_In_r {A B} (R : A -> B -> Prop) l m y : Forall2 R l m -> In y m -> exists x, In x l /\ R x y.
Proof.
  induction 1 as [|a b l m H1 H2 IH]; intros H; [destruct H|]. destruct H as [<-|H]; [exists a; cbn; auto|].
  destruct (IH H) as (x & ? & ?). exists x. cbn. auto.
Qed.
Lemma dedup_In {A} (f : A -> A -> bool) (Hf : forall x y, f x y = true <-> x = y) l : forall seen x,
  In x (dedup_by f seen l) <-> In x l /\ ~ In x seen.
Proof.
  induction l as [|y l IH]; intros seen x; cbn; [tauto|].
  destruct (existsb (f y) seen) eqn:E.
  - apply existsb_exists in E as (z & Hz & E). apply Hf in E as <-. rewrite IH. intuition (subst; tauto).
  - assert (Hn : ~ In y seen).
    { intros H. enough (existsb (f y) seen = true) by congruence. apply existsb_exists. exists y. split; [assumption|]. now apply Hf. }
    cbn. rewrite IH. cbn. split.
    + intros [<-|[H1 H2]]; [auto|]. tauto.
    + intros [[<-|H1] H2]; [auto|].
      destruct (f y x) eqn:E2; [apply Hf in E2; auto|]. right. split; [assumption|]. intros [->|H]; [|auto].
      enough (f x x = true) by congruence. now apply Hf.
Qed.
Lemma dedup_length {A} (f : A -> A -> bool) l : forall seen, length (dedup_by f seen l) <= length l.
Proof. induction l as [|y l IH]; intros seen; cbn; [lia|]. destruct (existsb _ _); cbn; [specialize (IH seen)|specialize (IH (y :: seen))]; lia. Qed.

Lemma foldM_inv {A B} (f : B -> A -> res B) (I : B -> Prop) l : forall b, I b ->
  (forall b a, I b -> In a l -> exists b', f b a = Ok b' /\ I b') -> exists b', foldM f l b = Ok b' /\ I b'.
Proof.
  induction l as [|a l IH]; intros b Hb Hf; cbn; [eauto|].
  destruct (Hf b a Hb (or_introl eq_refl)) as (b' & -> & Hb'). cbn. apply IH; [assumption|].
  intros b2 a2 H2 Hi. apply Hf; [assumption|now right].
Qed.

Section Opt.
  Context {A : Type}.
  Implicit Types n : nfa A.

  (** Sizes *)
  Definition wt (d : bool) (s : state A) : nat := if d then 0 else S (length (eps s)).
  Fixpoint lsz (dead : list bool) n : nat :=
    match dead, n with
    | d :: dead, s :: n => wt d s + lsz dead n
    | _, _ => 0
    end.
  Lemma lsz_rd dead n : nfa_size (remove_dead_states dead n) = lsz dead n.
  Proof.
    unfold remove_dead_states, nfa_size. set (f := remap _ _). clearbody f. revert n; induction dead as [|d dead IH]; intros [|s n]; cbn; try reflexivity.
    destruct d; cbn; [apply IH|]. rewrite map_length, IH. reflexivity.
  Qed.
  Lemma lsz_none n : lsz (repeat false (length n)) n = nfa_size n.
  Proof. induction n as [|s n IH]; cbn; [reflexivity|]. now rewrite IH. Qed.
  Lemma lsz_le f dead n : (forall s, length (eps (f s)) <= length (eps s)) -> lsz dead (map f n) <= lsz dead n.
  Proof.
    intros Hf. revert n; induction dead as [|d dead IH]; intros [|s n]; cbn; try lia.
    specialize (IH n). specialize (Hf s). unfold wt. destruct d; lia.
  Qed.
  Lemma lsz_eq f dead n : (forall s, length (eps (f s)) = length (eps s)) -> lsz dead (map f n) = lsz dead n.
  Proof.
    intros Hf. revert n; induction dead as [|d dead IH]; intros [|s n]; cbn; try lia.
    specialize (IH n). specialize (Hf s). unfold wt. destruct d; lia.
  Qed.
  Lemma lsz_upd i s dead n : i < length n -> length dead = length n ->
    lsz dead (upd i s n) + wt (nth i dead true) (get n i) = lsz dead n + wt (nth i dead true) s.
  Proof.
    unfold get. revert i n; induction dead as [|d dead IH]; intros i [|x n] Hi HL; cbn in *; try lia.
    destruct i as [|i]; cbn; [lia|]. specialize (IH i n). lia.
  Qed.
  Lemma lsz_kill i dead n : i < length n -> length dead = length n ->
    lsz (upd i true dead) n + wt (nth i dead true) (get n i) = lsz dead n.
  Proof.
    unfold get. revert i n; induction dead as [|d dead IH]; intros i [|x n] Hi HL; cbn in *; try lia.
    destruct i as [|i]; cbn; [lia|]. specialize (IH i n). lia.
  Qed.
  Lemma wt_true s : wt true s = 0. Proof. reflexivity. Qed.

  Lemma get_upd i x n s : i < length n -> get (upd i x n) s = if s =? i then x else get n s.
  Proof. intros H. unfold get. now apply nth_upd_in. Qed.

  Definition isolated n (d : nat) : Prop :=
    get n d = empty_state /\ forall s x, ~ In (d, x) (eps (get n s)) /\ forall a, ~ In (d, a) (trans (get n s)).

  Lemma ranked_get n h : ranked_at 0 h n <-> forall s t, In (t, ENone) (eps (get n s)) -> h t < h s.
  Proof. unfold ranked_at. split; [intros H s t Hi; apply H in Hi as [_ Hi]; exact Hi|]. intros H q t Hi. split; [lia|]. cbn. auto. Qed.

  (** *** Redirection of all edges into [i] to [j] *)
  Section Redirect.
    Variables (n : nfa A) (i j : nat) (n1 : nfa A).
    Hypothesis Hok : ok n.
    Hypothesis Hi : 0 < i < length n - 1.
    Hypothesis Hij : i <> j.
    Hypothesis Hj : j < length n.
    Hypothesis HL : length n1 = length n.
    Hypothesis HG : forall s, get n1 s = if s =? i then empty_state else map_targets (retarget i j) (get n s).
    Set Default Proof Using "All".

    Lemma rt_ne t : retarget i j t <> i.
    Proof. unfold retarget. destruct (Nat.eqb_spec t i); congruence. Qed.
    Lemma rt_eps s k e : In (k, e) (eps (get n1 s)) <-> s <> i /\ exists t, k = retarget i j t /\ In (t, e) (eps (get n s)).
    Proof.
      rewrite HG. destruct (Nat.eqb_spec s i) as [E|E]; cbn; [split; [intros []|tauto]|].
      rewrite in_map_iff. split.
      - intros ([t e'] & E2 & H). cbn in E2. injection E2 as <- ->. eauto.
      - intros (_ & t & -> & H). exists (t, e). auto.
    Qed.
    Lemma rt_trans s k e : In (k, e) (trans (get n1 s)) <-> s <> i /\ exists t, k = retarget i j t /\ In (t, e) (trans (get n s)).
    Proof.
      rewrite HG. destruct (Nat.eqb_spec s i) as [E|E]; cbn; [split; [intros []|tauto]|].
      rewrite in_map_iff. split.
      - intros ([t e'] & E2 & H). cbn in E2. injection E2 as <- ->. eauto.
      - intros (_ & t & -> & H). exists (t, e). auto.
    Qed.
    Lemma rt_lt t : t < length n -> retarget i j t < length n.
    Proof. unfold retarget. destruct (t =? i); lia. Qed.
    Lemma rt_iso : isolated n1 i.
    Proof.
      split; [rewrite HG, Nat.eqb_refl; reflexivity|]. intros s x. split; [intros H; apply rt_eps in H|intros a H; apply rt_trans in H];
      destruct H as (_ & t & E & _); symmetry in E; now apply rt_ne in E.
    Qed.
    Lemma rt_keep_iso d : d <> j \/ ~ isolated n j -> isolated n d -> isolated n1 d.
    Proof.
      intros Hd [H1 H2]. split.
      - rewrite HG, H1. destruct (d =? i); reflexivity.
      - intros s x. split; [intros H; apply rt_eps in H|intros a H; apply rt_trans in H]; destruct H as (_ & t & E & H);
        unfold retarget in E; destruct (Nat.eqb_spec t i) as [Et|Et]; subst; destruct Hd as [Hd|Hd]; try congruence;
        try (apply Hd; split; assumption); now apply H2 in H.
    Qed.
    Lemma rt_acyclic : (exists h, ranked_at 0 h n1) -> ok n1.
    Proof.
      intros Ha. destruct Hok as [Hf Hw Hp _]. split; auto.
      - apply fin_iff in Hf as [_ Hf]. apply fin_iff. rewrite HL. split; [lia|]. rewrite HG, Hf. now destruct (_ =? i).
      - apply wf_intro; intros s t x Hx; [apply rt_eps in Hx|apply rt_trans in Hx]; destruct Hx as (_ & u & -> & Hx);
        rewrite HL; apply rt_lt; [eapply wf_eps|eapply wf_trans]; eauto.
      - apply pure_iff. rewrite pure_iff in Hp. intros s. rewrite HG. destruct (s =? i); [now left|].
        destruct (Hp s) as [E|E]; [left|right]; cbn; now rewrite E.
    Qed.
    Lemma rt_lang (check : A -> N -> bool) :
      (forall w, path check n j w (length n - 1) -> path check n i w (length n - 1)) ->
      (forall s w, path check n s w (length n - 1) -> path check n1 (retarget i j s) w (length n - 1)) ->
      forall w, lang check n1 w <-> lang check n w.
    Proof.
      intros Hback Hfwd w. unfold lang. rewrite HL. split.
      - assert (G : forall s w t, path check n1 s w t -> t = length n - 1 -> s <> i -> path check n s w t).
        { clear w. intros s w t Hp. induction Hp as [s|s t e w u He Hp IH|s t a c w u He Hc Hp IH]; intros Hu Hs.
          - apply p_nil.
          - apply rt_eps in He as (_ & t' & -> & He). eapply p_eps; [exact He|].
            specialize (IH Hu (rt_ne t')). unfold retarget in IH. destruct (Nat.eqb_spec t' i) as [E|]; [|assumption].
            rewrite E, Hu in *. now apply Hback.
          - apply rt_trans in He as (_ & t' & -> & He). eapply p_sym; [exact He|exact Hc|].
            specialize (IH Hu (rt_ne t')). unfold retarget in IH. destruct (Nat.eqb_spec t' i) as [E|]; [|assumption].
            rewrite E, Hu in *. now apply Hback. }
        intros H. apply G; auto. lia.
      - intros H. apply Hfwd in H. unfold retarget in H. destruct (Nat.eqb_spec 0 i); [lia|assumption].
    Qed.
    Lemma rt_syms (P : A -> Prop) : (forall s t a, In (t, a) (trans (get n s)) -> P a) ->
            forall s t a, In (t, a) (trans (get n1 s)) -> P a.
    Proof. intros H s t a Ha. apply rt_trans in Ha as (_ & t' & _ & Ha). eauto. Qed.
    Lemma rt_marks (P : epsk -> Prop) : (forall s t a, In (t, a) (eps (get n s)) -> P a) ->
            forall s t a, In (t, a) (eps (get n1 s)) -> P a.
    Proof. intros H s t a Ha. apply rt_eps in Ha as (_ & t' & _ & Ha). eauto. Qed.
  End Redirect.
  Set Default Proof Using "Type".

  Variable check : A -> N -> bool.

  Record stp (n n1 : nfa A) : Prop := mkStp {
    st_len : length n1 = length n;
    st_ok : ok n1;
    st_lang : forall w, lang check n1 w <-> lang check n w;
    st_iso : forall d, isolated n d -> isolated n1 d;
    st_syms : forall P : A -> Prop, (forall s t a, In (t, a) (trans (get n s)) -> P a) ->
            forall s t a, In (t, a) (trans (get n1 s)) -> P a;
    st_marks : forall P : epsk -> Prop, (forall s t a, In (t, a) (eps (get n s)) -> P a) ->
            forall s t a, In (t, a) (eps (get n1 s)) -> P a }.
  Lemma stp_refl n : ok n -> stp n n.
  Proof. intros H. split; auto; try tauto. Qed.
  Lemma stp_trans a b c : stp a b -> stp b c -> stp a c.
  Proof.
    intros [L1 O1 G1 I1 S1 M1] [L2 O2 G2 I2 S2 M2]. split; auto; try congruence.
    - intros w. now rewrite G2, G1.
    - intros P HP. apply S2. now apply S1.
    - intros P HP. apply M2. now apply M1.
  Qed.

  Variable eqA : A -> A -> bool.
  Variable good : A -> Prop.
  Hypothesis eqA_sound : forall a b, good a -> good b -> eqA a b = true -> forall c, check a c = check b c.
  Definition goods n : Prop := forall s t a, In (t, a) (trans (get n s)) -> good a.

  (** *** Case 1: merging states with the same outgoing transitions *)
  Lemma same_outgoing_inv x y : (forall t a, In (t, a) (trans x) -> good a) -> (forall t a, In (t, a) (trans y) -> good a) ->
    same_outgoing eqA x y = true ->
    eps x = eps y /\
    (forall t a, In (t, a) (trans x) -> exists b, In (t, b) (trans y) /\ forall c, check a c = check b c) /\
    (forall t b, In (t, b) (trans y) -> exists a, In (t, a) (trans x) /\ forall c, check a c = check b c).
  Proof using eqA_sound.
    intros Gx Gy H. apply andb_true_iff in H as [H1 H2].
    apply (list_eqb_iff _ eq) in H1; [|intros ? ?; apply eps_eqb_iff]. apply Forall2_eq in H1. split; [assumption|].
    apply (list_eqb_iff _ (fun p q => fst p = fst q /\ (good (snd p) -> good (snd q) -> forall c, check (snd p) c = check (snd q) c))) in H2.
    2:{ intros [t a] [u b] H. apply andb_true_iff in H as [H3 H4]. apply Nat.eqb_eq in H3. cbn in *. auto. }
    split; intros t a Ha.
    - apply (Forall2_In_l _ _ _ _ H2) in Ha as Hb. destruct Hb as ([u b] & Hb & E & E2). cbn in *. subst. eauto 10.
    - apply (Forall2_In_r _ _ _ _ H2) in Ha as Hb. destruct Hb as ([u b] & Hb & E & E2). cbn in *. subst. eauto 10.
  Qed.
  Lemma merge_stp n i j : goods n -> ok n -> 0 < i < length n - 1 -> j < length n - 1 -> i <> j ->
    same_outgoing eqA (get n i) (get n j) = true -> state_is_empty (get n i) = false ->
    stp n (map (map_targets (retarget i j)) (upd i empty_state n)) /\
    isolated (map (map_targets (retarget i j)) (upd i empty_state n)) i.
  Proof using eqA_sound.
    intros Hgd Hok Hi Hj Hij HS Hne. apply same_outgoing_inv in HS as (HE & HT1 & HT2); [|intros; eapply Hgd; eauto..]. set (n1 := map _ _).
    assert (HL : length n1 = length n) by (unfold n1; now rewrite map_length, upd_length).
    assert (HG : forall s, get n1 s = if s =? i then empty_state else map_targets (retarget i j) (get n s)).
    { intros s. unfold n1. rewrite get_map by reflexivity. rewrite get_upd by lia. now destruct (s =? i). }
    assert (Hj' : j < length n) by lia.
    assert (Hnj : ~ isolated n j).
    { intros [E _]. rewrite E in *. cbn in *. unfold state_is_empty in Hne. rewrite HE in Hne.
      destruct (trans (get n i)) as [|[t a] r]; [discriminate|]. destruct (HT1 t a) as (b & [] & _). now left. }
    assert (Hback : forall w, path check n j w (length n - 1) -> path check n i w (length n - 1)).
    { intros w Hp. remember (length n - 1) as z eqn:Ez. destruct Hp as [s|s t e w u He Hp|s t a c w u He Hc Hp].
      - lia.
      - eapply p_eps; [rewrite HE; exact He|exact Hp].
      - apply HT2 in He as (b & Hb & E). eapply p_sym; [exact Hb|rewrite E; exact Hc|exact Hp]. }
    assert (Hok1 : ok n1).
    { apply (rt_acyclic n i j n1); auto. destruct (ok_acy _ Hok) as [h Hh]. rewrite ranked_get in Hh.
      exists (fun x => if x =? j then Nat.min (h i) (h j) else h x). apply ranked_get.
      intros s k Hk. apply (rt_eps n i j n1) in Hk as (Hs & t & -> & Ht); auto.
      assert (Hii : forall s, In (s, ENone) (eps (get n s)) -> False) by (intros x Hx; apply Hh in Hx; lia).
      assert (Hst := Hh _ _ Ht). unfold retarget.
      destruct (Nat.eqb_spec t i) as [->|Hti].
      - rewrite Nat.eqb_refl. destruct (Nat.eqb_spec s j) as [->|]; [|lia].
        exfalso. rewrite <- HE in Ht. eauto.
      - destruct (Nat.eqb_spec t j) as [->|], (Nat.eqb_spec s j) as [->|]; try lia.
        assert (h t < h i) by (apply Hh; now rewrite HE). lia. }
    split; [split; auto|].
    - apply (rt_lang n i j n1); auto. intros s w Hp.
      assert (G : forall s w t, path check n s w t -> t = length n - 1 -> path check n1 (retarget i j s) w t); [|now apply G].
      clear s w Hp. intros s w t Hp. induction Hp as [s|s t e w u He Hp IH|s t a c w u He Hc Hp IH]; intros Hu.
      + unfold retarget. destruct (Nat.eqb_spec s i); [lia|]. apply p_nil.
      + eapply p_eps; [|now apply IH]. apply (rt_eps n i j n1); auto. split; [now apply rt_ne with (n := n) (n1 := n1)|].
        exists t. split; [reflexivity|]. unfold retarget. destruct (Nat.eqb_spec s i) as [E|]; [|assumption]. rewrite <- HE, <- E. exact He.
      + unfold retarget at 1. destruct (Nat.eqb_spec s i) as [E|E].
        * rewrite E in He. apply HT1 in He as (b & Hb & E2). eapply p_sym; [|rewrite <- E2; exact Hc|now apply IH].
          apply (rt_trans n i j n1); eauto.
        * eapply p_sym; [|exact Hc|now apply IH]. apply (rt_trans n i j n1); eauto.
    - intros d Hd. apply (rt_keep_iso n i j n1); auto.
    - intros P. now apply (rt_syms n i j n1).
    - intros P. now apply (rt_marks n i j n1).
    - now apply (rt_iso n i j n1).
  Qed.

  (** *** Case 2: removing duplicate epsilons *)
  Lemma get_dedupe n s : get (fst (dedupe n)) s = dedupe_state (get n s).
  Proof. unfold dedupe. cbn [fst]. apply get_map. reflexivity. Qed.
  Lemma dedupe_eps n s x : In x (eps (get (fst (dedupe n)) s)) <-> In x (eps (get n s)).
  Proof. rewrite get_dedupe. cbn. rewrite dedup_In by apply eps_eqb_iff. cbn. tauto. Qed.
  Lemma dedupe_stp n : ok n -> stp n (fst (dedupe n)).
  Proof.
    intros Hok. assert (HL : length (fst (dedupe n)) = length n) by apply map_length.
    assert (HT : forall s, trans (get (fst (dedupe n)) s) = trans (get n s)) by (intros s; now rewrite get_dedupe).
    assert (T1 : thin (fst (dedupe n)) n).
    { split; [assumption|]. intros s. rewrite HT. split; [apply incl_refl|]. intros x. apply dedupe_eps. }
    assert (T2 : thin n (fst (dedupe n))).
    { split; [congruence|]. intros s. rewrite HT. split; [apply incl_refl|]. intros x. apply dedupe_eps. }
    split; auto.
    - eapply thin_ok; eauto.
    - intros w. split; now apply thin_lang.
    - intros d [H1 H2]. split; [rewrite get_dedupe, H1; reflexivity|]. intros s x. rewrite HT, dedupe_eps. apply H2.
    - intros P HP s t a. rewrite HT. apply HP.
    - intros P HP s t a. rewrite dedupe_eps. apply HP.
  Qed.

  (** *** Case 3: a state with a single unmarked epsilon *)
  Lemma skip_stp n i to : ok n -> 0 < i < length n - 1 -> get n i = mkState [] [(to, ENone)] ->
    stp n (upd i empty_state (map (map_targets (retarget i to)) n)) /\
    isolated (upd i empty_state (map (map_targets (retarget i to)) n)) i.
  Proof.
    intros Hok Hi Hg. set (n1 := upd _ _ _).
    assert (HL : length n1 = length n) by (unfold n1; now rewrite upd_length, map_length).
    assert (HG : forall s, get n1 s = if s =? i then empty_state else map_targets (retarget i to) (get n s)).
    { intros s. unfold n1. rewrite get_upd by (rewrite map_length; lia). now rewrite get_map by reflexivity. }
    assert (He : In (to, ENone) (eps (get n i))) by (rewrite Hg; now left).
    assert (Hj : to < length n) by (eapply wf_eps; [apply Hok|exact He]).
    assert (Hnj : ~ isolated n to).
    { intros [_ E]. apply (E i ENone). exact He. }
    assert (Hij : i <> to).
    { destruct (ok_acy _ Hok) as [h Hh]. rewrite ranked_get in Hh. apply Hh in He. intros ->. lia. }
    assert (Hok1 : ok n1).
    { apply (rt_acyclic n i to n1); auto. destruct (ok_acy _ Hok) as [h Hh]. rewrite ranked_get in Hh.
      exists h. apply ranked_get. intros s k Hk. apply (rt_eps n i to n1) in Hk as (Hs & t & -> & Ht); auto.
      apply Hh in He, Ht. unfold retarget. destruct (Nat.eqb_spec t i) as [->|]; lia. }
    split; [split; auto|].
    - apply (rt_lang n i to n1); auto.
      + intros w Hp. change w with (mark ENone ++ w). eapply p_eps; eauto.
      + intros s w Hp.
        assert (G : forall s w t, path check n s w t -> t = length n - 1 -> path check n1 (retarget i to s) w t); [|now apply G].
        clear s w Hp. intros s w t Hp. induction Hp as [s|s t e w u Hs Hp IH|s t a c w u Hs Hc Hp IH]; intros Hu.
        * unfold retarget. destruct (Nat.eqb_spec s i); [lia|]. apply p_nil.
        * unfold retarget at 1. destruct (Nat.eqb_spec s i) as [->|Hsi].
          -- rewrite Hg in Hs. destruct Hs as [E|[]]. injection E as <- <-. cbn.
             specialize (IH Hu). unfold retarget in IH. destruct (Nat.eqb_spec to i); [congruence|assumption].
          -- eapply p_eps; [|now apply IH]. apply (rt_eps n i to n1); eauto.
        * unfold retarget at 1. destruct (Nat.eqb_spec s i) as [->|Hsi]; [rewrite Hg in Hs; destruct Hs|].
          eapply p_sym; [|exact Hc|now apply IH]. apply (rt_trans n i to n1); eauto.
    - intros d Hd. apply (rt_keep_iso n i to n1); auto.
    - intros P. now apply (rt_syms n i to n1).
    - intros P. now apply (rt_marks n i to n1).
    - now apply (rt_iso n i to n1).
  Qed.

  (** *** Case 4: a state with a single, unmarked, incoming epsilon *)
  Lemma incoming_In n i s p : In (s, p) (incoming_eps n i) <-> exists k, nth_error (eps (get n s)) p = Some (i, k).
  Proof.
    unfold incoming_eps. rewrite in_flat_map. split.
    - intros ([s' st] & Hs & H). apply In_get in Hs as [Hs ->]. apply in_map_iff in H as ([p' [t k]] & E & H).
      injection E as -> ->. apply filter_In in H as [H1 H2]. cbn in H2. apply Nat.eqb_eq in H2 as ->.
      apply In_enumerate in H1. eauto.
    - intros (k & H). assert (Hs := eps_range _ _ _ (nth_error_In _ _ H)).
      exists (s, get n s). split; [now apply In_get|]. apply in_map_iff. exists (p, (i, k)). split; [reflexivity|].
      apply filter_In. split; [now apply In_enumerate|]. cbn. apply Nat.eqb_refl.
  Qed.
  Lemma has_incoming_false n i : has_incoming n i = false -> forall s a, ~ In (i, a) (trans (get n s)).
  Proof.
    intros H s a Ha. enough (has_incoming n i = true) by congruence. apply existsb_exists.
    exists (get n s). split; [apply get_In; eapply trans_range; eauto|]. apply existsb_exists. exists (i, a). split; [assumption|].
    cbn. apply Nat.eqb_refl.
  Qed.
  Lemma In_split_nth {B} (l : list B) p x y : nth_error l p = Some x ->
    (In y l <-> y = x \/ In y (firstn p l) \/ In y (skipn (S p) l)).
  Proof.
    revert p; induction l as [|z l IH]; intros [|p] H; cbn in *; try discriminate.
    - injection H as <-. intuition.
    - specialize (IH p H). cbn in IH. rewrite IH. intuition.
  Qed.
  Definition splice (e : nat) (out : list (nat * epsk)) (st : state A) : state A :=
    mkState (trans st) (firstn e (eps st) ++ out ++ skipn (S e) (eps st)).
  Lemma splice_stp n i s p : ok n -> 0 < i < length n - 1 -> has_incoming n i = false ->
    incoming_eps n i = [(s, p)] -> trans (get n i) = [] -> nth_error (eps (get n s)) p = Some (i, ENone) ->
    s <> i /\
    stp n (modify s (splice p (eps (get n i))) (upd i (mkState (trans (get n i)) []) n)) /\
    isolated (modify s (splice p (eps (get n i))) (upd i (mkState (trans (get n i)) []) n)) i.
  Proof.
    intros Hok Hi Hinc Hin Htr Hp. set (n1 := modify _ _ _).
    assert (Hsi : In (i, ENone) (eps (get n s))) by (eapply nth_error_In; eauto).
    assert (Hs := eps_range _ _ _ Hsi).
    assert (Hne : s <> i).
    { destruct (ok_acy _ Hok) as [h Hh]. rewrite ranked_get in Hh. apply Hh in Hsi. intros ->. lia. }
    split; [assumption|].
    assert (HL : length n1 = length n) by (unfold n1; now rewrite modify_length, upd_length).
    assert (HG : forall x, get n1 x = if x =? s then splice p (eps (get n i)) (get n s) else if x =? i then empty_state else get n x).
    { intros x. unfold n1, get at 1. rewrite nth_modify. rewrite upd_length.
      destruct (Nat.ltb_spec s (length n)); [|lia]. rewrite andb_true_r.
      change (nth x (upd i (mkState (trans (get n i)) []) n) empty_state) with (get (upd i (mkState (trans (get n i)) []) n) x).
      change (nth s (upd i (mkState (trans (get n i)) []) n) empty_state) with (get (upd i (mkState (trans (get n i)) []) n) s).
      rewrite ?get_upd by lia. rewrite Htr.
      destruct (Nat.eqb_spec x s) as [->|]; [|reflexivity]. destruct (Nat.eqb_spec s i); [congruence|]. reflexivity. }
    assert (Hpos : forall x q k, nth_error (eps (get n x)) q = Some (i, k) -> x = s /\ q = p).
    { intros x q k Hq. assert (H : In (x, q) (incoming_eps n i)) by (apply incoming_In; eauto). rewrite Hin in H.
      destruct H as [E|[]]. injection E; auto. }
    assert (Hnoi : forall t k, In (t, k) (eps (get n i)) -> t <> i).
    { intros t k Ht ->. apply In_nth_error in Ht as (q & Hq). apply Hpos in Hq. intuition. }
    assert (Hfs : forall t k, In (t, k) (firstn p (eps (get n s))) \/ In (t, k) (skipn (S p) (eps (get n s))) -> t <> i).
    { intros t k Ht ->. set (l := eps (get n s)) in *.
      assert (Hpl : p < length l) by (apply nth_error_Some; congruence).
      assert (exists q, nth_error l q = Some (i, k) /\ q <> p) as (q & Hq & Hqp).
      { destruct Ht as [Ht|Ht]; apply In_nth_error in Ht as (q & Hq).
        - exists q. assert (Hq' : q < length (firstn p l)) by (apply nth_error_Some; congruence).
          rewrite firstn_length in Hq'. rewrite <- (firstn_skipn p l). rewrite nth_error_app1 by (rewrite firstn_length; lia). split; [assumption|lia].
        - exists (S p + q). rewrite <- (firstn_skipn (S p) l). rewrite nth_error_app2 by (rewrite firstn_length; lia).
          rewrite firstn_length, Nat.min_l, Nat.add_comm, Nat.add_sub by lia. split; [assumption|lia]. }
      apply Hpos in Hq. intuition. }
    assert (HE : forall x t k, In (t, k) (eps (get n1 x)) <->
      t <> i /\ x <> i /\ (In (t, k) (eps (get n x)) \/ (x = s /\ In (t, k) (eps (get n i))))).
    { intros x t k. rewrite HG. destruct (Nat.eqb_spec x s) as [->|Hxs].
      - cbn [splice eps]. rewrite !in_app_iff. rewrite (In_split_nth _ _ _ (t, k) Hp). split.
        + intros H. split; [|split; [assumption|tauto]]. destruct H as [H|[H|H]]; eauto.
        + intros (H1 & _ & [[E|H]|[_ H]]); [injection E; congruence|tauto|tauto].
      - destruct (Nat.eqb_spec x i) as [->|Hxi].
        + cbn. tauto.
        + split; [|intros (_ & _ & [H|[H _]]); [assumption|congruence]].
          intros H. split; [|auto]. intros ->. apply In_nth_error in H as (q & Hq). apply Hpos in Hq. intuition. }
    assert (HT : forall x t a, In (t, a) (trans (get n1 x)) <-> In (t, a) (trans (get n x))).
    { intros x t a. rewrite HG. destruct (Nat.eqb_spec x s) as [->|]; [reflexivity|].
      destruct (Nat.eqb_spec x i) as [->|]; [|reflexivity]. rewrite Htr. reflexivity. }
    assert (HTn := has_incoming_false _ _ Hinc).
    split; [split; auto|].
    - destruct Hok as [Hf Hw Hpu [h Hh]]. split.
      + apply fin_iff in Hf as [_ Hf]. apply fin_iff. rewrite HL. split; [lia|]. rewrite HG.
        destruct (Nat.eqb_spec (length n - 1) s) as [E|]; [|now destruct (_ =? i)].
        rewrite <- E, Hf in Hsi. destruct Hsi.
      + apply wf_intro; intros x t y Hy; rewrite HL.
        * apply HE in Hy as (_ & _ & [Hy|[_ Hy]]); eapply wf_eps; eauto.
        * apply HT in Hy. eapply wf_trans; eauto.
      + apply pure_iff. rewrite pure_iff in Hpu. intros x. rewrite HG. destruct (Nat.eqb_spec x s) as [->|].
        * left. cbn. destruct (Hpu s) as [E|E]; [assumption|]. rewrite E in Hsi. destruct Hsi.
        * destruct (x =? i); [now left|apply Hpu].
      + exists h. apply ranked_get. rewrite ranked_get in Hh. intros x t Ht. apply HE in Ht as (_ & _ & [Ht|[-> Ht]]); apply Hh in Ht; [assumption|].
        apply Hh in Hsi. lia.
    - intros w. unfold lang. rewrite HL. split.
      + assert (G : forall x w t, path check n1 x w t -> t = length n - 1 -> path check n x w t).
        { clear w. intros x w t Hpa. induction Hpa as [x|x t e w u He Hpa IH|x t a c w u He Hc Hpa IH]; intros Hu.
          - apply p_nil.
          - apply HE in He as (_ & _ & [He|[-> He]]); [eapply p_eps; eauto|].
            change (mark e ++ w) with (mark ENone ++ mark e ++ w). eapply p_eps; [exact Hsi|]. eapply p_eps; eauto.
          - apply HT in He. eapply p_sym; eauto. }
        intros H. now apply G.
      + assert (G : forall x w t, path check n x w t -> t = length n - 1 -> path check n1 (if x =? i then s else x) w t).
        { clear w. intros x w t Hpa. induction Hpa as [x|x t e w u He Hpa IH|x t a c w u He Hc Hpa IH]; intros Hu.
          - destruct (Nat.eqb_spec x i); [lia|]. apply p_nil.
          - specialize (IH Hu). destruct (Nat.eqb_spec t i) as [->|Hti].
            + (* the edge into [i] *)
              apply In_nth_error in He as (q & Hq). destruct (Hpos _ _ _ Hq) as [-> ->].
              rewrite Hp in Hq. injection Hq as <-. destruct (Nat.eqb_spec s i); [congruence|]. exact IH.
            + eapply p_eps; [|exact IH]. apply HE. destruct (Nat.eqb_spec x i) as [->|]; auto.
          - specialize (IH Hu). destruct (Nat.eqb_spec t i) as [->|Hti]; [now apply HTn in He|].
            destruct (Nat.eqb_spec x i) as [->|]; [rewrite Htr in He; destruct He|].
            eapply p_sym; [apply HT; exact He|exact Hc|exact IH]. }
        intros H. apply G in H; auto. destruct (Nat.eqb_spec 0 i); [lia|assumption].
    - intros d [H1 H2]. split.
      + rewrite HG. destruct (Nat.eqb_spec d s) as [->|]; [rewrite H1 in Hsi; destruct Hsi|]. now destruct (d =? i).
      + intros x y. split; [intros H; apply HE in H|intros a H; apply HT in H; now apply H2 in H].
        destruct H as (_ & _ & [H|[_ H]]); now apply H2 in H.
    - intros P HP x t a Ha. apply HT in Ha. eauto.
    - intros P HP x t a Ha. apply HE in Ha as (_ & _ & [Ha|[_ Ha]]); eauto.
    - split; [rewrite HG; destruct (Nat.eqb_spec i s); [congruence|]; now rewrite Nat.eqb_refl|].
      intros x y. split; [intros H; apply HE in H; tauto|intros a H; apply HT in H; now apply HTn in H].
  Qed.

  (** *** The loop *)
  Record oinv (n0 : nfa A) (acc : nfa A * list bool * bool) : Prop := mkOinv {
    oi_stp : stp n0 (fst (fst acc));
    oi_dl : length (snd (fst acc)) = length n0;
    oi_zero : live (snd (fst acc)) 0;
    oi_last : live (snd (fst acc)) (length n0 - 1);
    oi_iso : forall d, d < length n0 -> ~ live (snd (fst acc)) d -> isolated (fst (fst acc)) d;
    oi_size : lsz (snd (fst acc)) (fst (fst acc)) + (if snd acc then 1 else 0) <= nfa_size n0 }.

  Lemma live_dec dead d : live dead d \/ ~ live dead d.
  Proof. unfold live. destruct (nth d dead true); [right; discriminate|now left]. Qed.
  Lemma live_upd dead i d : i < length dead -> live (upd i true dead) d <-> d <> i /\ live dead d.
  Proof. intros H. unfold live. rewrite nth_upd_in by assumption. destruct (Nat.eqb_spec d i); split; try tauto; discriminate. Qed.
  Lemma nonempty_eps_live n0 n dead ch d x : oinv n0 (n, dead, ch) -> In x (eps (get n d)) -> live dead d.
  Proof.
    intros [H1 H2 H3 H4 H5 H6] Hx. cbn in *. destruct (live_dec dead d) as [|Hd]; [assumption|].
    assert (Hl := eps_range _ _ _ Hx). rewrite (st_len _ _ H1) in Hl. apply H5 in Hd; [|assumption].
    destruct Hd as [E _]. rewrite E in Hx. destruct Hx.
  Qed.
  Lemma kill_inv n0 n dead ch n1 i : oinv n0 (n, dead, ch) -> 0 < i < length n0 - 1 ->
    stp n n1 -> isolated n1 i -> lsz (upd i true dead) n1 + 1 <= lsz dead n -> oinv n0 (n1, upd i true dead, true).
  Proof.
    intros [H1 H2 H3 H4 H5 H6] Hi Hs Hiso Hsz. cbn in *. split; cbn.
    - eapply stp_trans; eauto.
    - now rewrite upd_length.
    - apply live_upd; [lia|]. split; [lia|assumption].
    - apply live_upd; [lia|]. split; [lia|assumption].
    - intros d Hd Hl. rewrite live_upd in Hl by lia. destruct (Nat.eq_dec d i) as [->|Hdi]; [assumption|].
      apply (st_iso _ _ Hs). apply H5; tauto.
    - lia.
  Qed.
  Lemma dedupe_size dead n : length dead = length n -> (forall d, d < length n -> ~ live dead d -> get n d = empty_state) ->
    lsz dead (fst (dedupe n)) + (if snd (dedupe n) then 1 else 0) <= lsz dead n.
  Proof.
    intros HL Hd. cbn [dedupe fst snd]. destruct (existsb _ n) eqn:E.
    - revert n HL Hd E. induction dead as [|d dead IH]; intros [|s n] HL Hd E; cbn in HL; try discriminate.
      injection HL as HL. cbn [map lsz]. cbn [existsb] in E. apply orb_true_iff in E as [E|E].
      + destruct d.
        * exfalso. assert (Hs : get (s :: n) 0 = empty_state) by (apply Hd; [cbn; lia|]; unfold live; cbn; congruence).
          cbn in Hs. subst s. discriminate.
        * assert (H1 := lsz_le dedupe_state dead n (fun s => dedup_length _ _ _)).
          assert (H2 := dedup_length eps_eqb (eps s) []). cbn in *. lia.
      + assert (IH' : lsz dead (map dedupe_state n) + 1 <= lsz dead n).
        { apply IH; auto. intros x Hx Hl. apply (Hd (S x)); [cbn; lia|]. exact Hl. }
        assert (H2 := dedup_length eps_eqb (eps s) []). unfold wt. destruct d; cbn in *; lia.
    - assert (H1 := lsz_le dedupe_state dead n (fun s => dedup_length _ _ _)). lia.
  Qed.

  Lemma step_spec n0 acc i : goods n0 -> oinv n0 acc -> In i (seq 1 (length n0 - 2)) ->
    exists acc', optimize_step eqA acc i = Ok acc' /\ oinv n0 acc'.
  Proof using eqA_sound.
    destruct acc as [[n dead] ch]. intros Hgd Hinv Hi. apply in_seq in Hi.
    assert (Hi' : 0 < i < length n0 - 1) by lia.
    assert (Hlen := st_len _ _ (oi_stp _ _ Hinv)). assert (Hok := st_ok _ _ (oi_stp _ _ Hinv)). cbn in Hlen, Hok.
    assert (Hdl := oi_dl _ _ Hinv). cbn in Hdl.
    cbv beta iota zeta delta [optimize_step].
    destruct (find _ (seq 0 (length n - 1))) as [j|] eqn:Ej.
    - apply find_some in Ej as [Hj E]. apply in_seq in Hj. rewrite !andb_true_iff, !negb_true_iff in E.
      destruct E as [[E1 E2] E3]. apply Nat.eqb_neq in E2.
      destruct (merge_stp n i j) as [S1 S2]; auto; try lia; [exact (st_syms _ _ (oi_stp _ _ Hinv) good Hgd)|].
      eexists. split; [reflexivity|]. eapply kill_inv; eauto.
      rewrite lsz_eq by (intros s; cbn; apply map_length).
      assert (G := lsz_kill i dead (upd i empty_state n)). rewrite upd_length in G.
      assert (G2 := lsz_kill i dead n). assert (G3 := lsz_upd i empty_state dead n).
      assert (Hl : live dead i).
      { destruct (live_dec dead i) as [|Hd]; [assumption|]. destruct (oi_iso _ _ Hinv i) as [E _]; [lia|assumption|].
        cbn [fst snd] in E. rewrite E in E3. discriminate. }
      unfold live in Hl. rewrite Hl in *. rewrite get_upd, Nat.eqb_refl in G by lia. unfold wt in *. cbn in G, G3. lia.
    - clear Ej. destruct (dedupe n) as [m dch] eqn:Edd.
      assert (Em : m = fst (dedupe n)) by now rewrite Edd. assert (Ec : dch = snd (dedupe n)) by now rewrite Edd.
      assert (Hinv2 : oinv n0 (m, dead, ch || dch)).
      { assert (Hds := dedupe_stp n Hok). rewrite <- Em in Hds. destruct Hinv as [H1 H2 H3 H4 H5 H6]. cbn [fst snd] in H1, H2, H3, H4, H5, H6. split; cbn [fst snd]; auto.
        - eapply stp_trans; eauto.
        - intros d Hd Hl. apply (st_iso _ _ Hds). auto.
        - assert (G := dedupe_size dead n). rewrite <- Em, <- Ec in G. specialize (G ltac:(lia)).
          assert (G' : lsz dead m + (if dch then 1 else 0) <= lsz dead n).
          { apply G. intros d Hd Hl. apply H5; [lia|assumption]. }
          destruct ch, dch; cbn; lia. }
      clear Em Ec Edd Hinv Hok Hlen n. rename m into n, Hinv2 into Hinv.
      assert (Hlen := st_len _ _ (oi_stp _ _ Hinv)). assert (Hok := st_ok _ _ (oi_stp _ _ Hinv)). cbn in Hlen, Hok.
      destruct (trans (get n i)) as [|tr0 trr] eqn:Et.
      2:{ eexists. split; [|exact Hinv]. destruct (has_incoming n i); [reflexivity|].
          destruct (incoming_eps n i) as [|[s e] [|]]; reflexivity. }
      assert (Hother : eps (get n i) <> [] \/ True -> exists acc',
        match has_incoming n i, incoming_eps n i, @nil (nat * A) with
        | false, [(s, e)], [] =>
            match nth_error (eps (get n s)) e with
            | Some (_, ENone) =>
                if s =? i then Panic
                else Ok (modify s (fun st => mkState (trans st) (firstn e (eps st) ++ eps (get n i) ++ skipn (S e) (eps st)))
                           (upd i (mkState [] []) n), upd i true dead, true)
            | _ => Ok (n, dead, ch || dch)
            end
        | _, _, _ => Ok (n, dead, ch || dch)
        end = Ok acc' /\ oinv n0 acc').
      { intros _. assert (Hsame : exists acc', Ok (n, dead, ch || dch) = Ok acc' /\ oinv n0 acc') by eauto.
        destruct (has_incoming n i) eqn:Einc; [assumption|].
        destruct (incoming_eps n i) as [|[s e] [|]] eqn:Ein; try assumption.
        destruct (nth_error (eps (get n s)) e) as [[t k]|] eqn:En; [|assumption].
        destruct k; try assumption.
        assert (t = i) as ->.
        { assert (H : In (s, e) (incoming_eps n i)) by (rewrite Ein; now left). apply incoming_In in H as (k & H). congruence. }
        destruct (splice_stp n i s e) as (Hne & S1 & S2); auto; [lia|].
        apply Nat.eqb_neq in Hne as Hne'. rewrite Hne'.
        eexists. split; [reflexivity|]. rewrite Et in S1, S2. eapply kill_inv; eauto.
        (* sizes *)
        assert (Hsi : In (i, ENone) (eps (get n s))) by (eapply nth_error_In; eauto).
        assert (Hls := nonempty_eps_live _ _ _ _ _ _ Hinv Hsi).
        assert (Hs := eps_range _ _ _ Hsi).
        assert (Hli : live dead i).
        { destruct (live_dec dead i) as [|Hd]; [assumption|]. destruct (oi_iso _ _ Hinv i) as [_ E]; [lia|assumption|].
          exfalso. apply (E s ENone). exact Hsi. }
        set (sp := fun st => _).
        assert (Emod : modify s sp (upd i (mkState [] []) n) = upd s (sp (get n s)) (upd i (mkState [] []) n)).
        { apply nth_ext with (d := empty_state) (d' := empty_state); [now rewrite modify_length, !upd_length|].
          intros x _. rewrite nth_modify, !nth_upd, upd_length.
          destruct (Nat.eqb_spec x s) as [->|]; [|reflexivity]. rewrite Hne'. reflexivity. }
        rewrite Emod.
        assert (G1 := lsz_upd s (sp (get n s)) (upd i true dead) (upd i (mkState [] []) n)).
        assert (G2 := lsz_upd i (mkState [] []) (upd i true dead) n).
        assert (G3 := lsz_kill i dead n).
        rewrite !upd_length in G1. rewrite !upd_length in G2.
        rewrite get_upd, Hne' in G1 by lia. rewrite !nth_upd_in in G1 by lia. rewrite !nth_upd_in in G2 by lia.
        rewrite Hne' in G1. rewrite Nat.eqb_refl in G2. unfold live in Hls, Hli. rewrite Hls in G1. rewrite Hli in G3.
        unfold wt, sp in *. cbn [eps] in G1.
        assert (Hlen2 : length (firstn e (eps (get n s)) ++ eps (get n i) ++ skipn (S e) (eps (get n s))) + 1 = length (eps (get n s)) + length (eps (get n i))).
        { assert (He : e < length (eps (get n s))) by (apply nth_error_Some; congruence).
          rewrite !app_length, firstn_length, skipn_length. lia. }
        lia. }
      destruct (eps (get n i)) as [|[to k] [|]] eqn:Ee; [apply Hother; now right| |destruct k; apply Hother; now right].
      destruct k; [|apply Hother; now right..].
      destruct (skip_stp n i to) as [S1 S2]; auto; [lia|destruct (get n i); cbn in *; congruence|].
      eexists. split; [reflexivity|]. eapply kill_inv; eauto.
      assert (Hli : live dead i) by (eapply nonempty_eps_live; [exact Hinv|rewrite Ee; now left]).
      set (mm := map _ n).
      assert (Hmm : length mm = length n) by apply map_length.
      assert (G2 := lsz_upd i empty_state (upd i true dead) mm).
      assert (G3 := lsz_kill i dead mm).
      assert (G4 : lsz dead mm = lsz dead n) by (apply lsz_eq; intros s; cbn; apply map_length).
      rewrite upd_length in G2. rewrite nth_upd_in, Nat.eqb_refl in G2 by lia. unfold live in Hli. rewrite Hli in G3.
      unfold wt in *. lia.
  Qed.

  Lemma pass_spec n : goods n -> ok n -> 2 <= length n ->
    exists n' ch, optimize_pass eqA n = Ok (n', ch) /\ ok n' /\ 2 <= length n' /\
      (forall w, lang check n' w <-> lang check n w) /\
      (forall P : A -> Prop, (forall s t a, In (t, a) (trans (get n s)) -> P a) ->
            forall s t a, In (t, a) (trans (get n' s)) -> P a) /\
      (forall P : epsk -> Prop, (forall s t a, In (t, a) (eps (get n s)) -> P a) ->
            forall s t a, In (t, a) (eps (get n' s)) -> P a) /\
      (ch = true -> nfa_size n' < nfa_size n).
  Proof using eqA_sound.
    intros Hgd Hok Hl. unfold optimize_pass. destruct (Nat.leb_spec 2 (length n)); [|lia]. cbn [guard bind].
    destruct (foldM_inv (optimize_step eqA) (oinv n) (seq 1 (length n - 2)) (n, repeat false (length n), false)) as (acc & E & Hinv).
    - assert (Hr : forall d, d < length n -> live (repeat false (length n)) d).
      { intros d Hd. unfold live. rewrite (nth_indep _ _ false) by now rewrite repeat_length. apply nth_repeat_false. }
      split; cbn.
      + now apply stp_refl.
      + apply repeat_length.
      + apply Hr. lia.
      + apply Hr. lia.
      + intros d Hd Hn. destruct Hn. auto.
      + rewrite lsz_none. lia.
    - intros b a Hb Ha. now apply step_spec.
    - rewrite E. cbn [bind]. destruct acc as [[m dead] ch]. destruct Hinv as [H1 H2 H3 H4 H5 H6]. cbn in *.
      destruct H1 as [L1 O1 G1 I1 S1 M1]. destruct ch.
      + assert (Hd : length dead = length m) by lia. assert (HC : closed m dead).
        { intros s t _. split; intros e He; (destruct (live_dec dead t) as [|Hd']; [assumption|exfalso]).
          - apply H5 in Hd'; [|rewrite <- L1; eapply wf_eps; [apply O1|exact He]]. destruct Hd' as [_ Hd']. now apply Hd' in He.
          - apply H5 in Hd'; [|rewrite <- L1; eapply wf_trans; [apply O1|exact He]]. destruct Hd' as [_ Hd']. destruct (Hd' s ENone) as [_ Hd'']. now apply Hd'' in He. }
        rewrite <- L1 in H4. eexists _, true. split; [reflexivity|].
        split; [now apply rd_ok|]. split; [apply rd_length2; auto; lia|].
        split; [intros w; now rewrite rd_lang|].
        split; [intros P HP; apply (rd_syms m dead Hd HC); now apply S1|].
        split; [intros P HP; apply (rd_marks m dead Hd HC); now apply M1|].
        intros _. rewrite lsz_rd. lia.
      + eexists _, false. split; [reflexivity|]. split; [assumption|]. split; [lia|]. split; [assumption|]. split; [assumption|]. split; [assumption|].
        discriminate.
  Qed.

  Lemma optimize_spec fuel : forall n, goods n -> ok n -> 2 <= length n -> nfa_size n < fuel ->
    exists n', optimize eqA fuel n = Ok n' /\ ok n' /\ 2 <= length n' /\
      (forall w, lang check n' w <-> lang check n w) /\
      (forall P : A -> Prop, (forall s t a, In (t, a) (trans (get n s)) -> P a) ->
            forall s t a, In (t, a) (trans (get n' s)) -> P a) /\
      (forall P : epsk -> Prop, (forall s t a, In (t, a) (eps (get n s)) -> P a) ->
            forall s t a, In (t, a) (eps (get n' s)) -> P a).
  Proof using eqA_sound.
    induction fuel as [|f IH]; intros n Hgd Hok Hl Hsz; [lia|]. cbn [optimize].
    assert (Hw : wfb n = true) by (apply wfb_iff; apply Hok). rewrite Hw. cbn [guard bind].
    destruct (pass_spec n Hgd Hok Hl) as (n' & ch & -> & O1 & L1 & G1 & S1 & M1 & Z1). cbn [bind].
    destruct ch; [|exists n'; auto 10].
    specialize (Z1 eq_refl). destruct (IH n' (S1 good Hgd) O1 L1) as (m & -> & O2 & L2 & G2 & S2 & M2); [lia|].
    exists m. split; [reflexivity|]. split; [assumption|]. split; [assumption|].
    split; [intros w; now rewrite G2|]. split.
    - intros P HP. apply S2. now apply S1.
    - intros P HP. apply M2. now apply M1.
  Qed.
End Opt.
