(** The order of an automaton's alternatives before a match has started: every way to start now comes
    before every way to read on.  The shape is established for the lazy loop in front of the pattern and
    kept by the clean-up passes. *)
From Verif Require Export PPrioOpt.
From Coq Require Import ZifyBool ZifyNat.
Open Scope nat_scope.
Open Scope list_scope.
Set Default Proof Using "Type".

(** What the unmarked paths from a state lead to, in order: starting group 0, or reading. *)
Inductive lev (A : Type) := LS | LC (t : nat) (a : A).
Arguments LS {A}.
Arguments LC {A}.

Section Lazy.
  Context {A B : Type}.
  Variable key : A -> B.
  Implicit Types n : nfa A.

  Section One.
    Variable n : nfa A.
    Inductive fl : list (alt A) -> list (lev A) -> Prop :=
    | fl_nil : fl [] []
    | fl_sym : forall t a l r, fl l r -> fl (ASym t a :: l) (LC t a :: r)
    | fl_start : forall t l r, fl l r -> fl (AEps t (ESC 0) :: l) (LS :: r)
    | fl_none : forall t l r1 r, fl (edges (get n t)) r1 -> fl l r -> fl (AEps t ENone :: l) (r1 ++ r).
    Lemma fl_app l1 l2 r1 r2 : fl l1 r1 -> fl l2 r2 -> fl (l1 ++ l2) (r1 ++ r2).
    Proof. intros H H2. induction H; cbn; try (constructor; assumption); [assumption|]. rewrite <- app_assoc. now constructor. Qed.
  End One.

  (** [r'] has some of the events of [r], in the same order; one start may have become several. *)
  Inductive sb (R : nat -> nat -> Prop) : list (lev A) -> list (lev A) -> Prop :=
  | sb_nil : forall r, sb R [] r
  | sb_drop : forall x r' r, sb R r' r -> sb R r' (x :: r)
  | sb_sym : forall t' a' t a r' r, R t' t -> key a' = key a -> sb R r' r -> sb R (LC t' a' :: r') (LC t a :: r)
  | sb_start : forall r' r, sb R r' r -> sb R (LS :: r') (LS :: r)
  | sb_more : forall r' r, sb R r' (LS :: r) -> sb R (LS :: r') (LS :: r).
  Lemma sb_app R r1' r1 r2' r2 : sb R r1' r1 -> sb R r2' r2 -> sb R (r1' ++ r2') (r1 ++ r2).
  Proof.
    intros H H2. induction H; cbn.
    - induction r; cbn; [assumption|now constructor].
    - now constructor.
    - now constructor.
    - now constructor.
    - now apply sb_more.
  Qed.

  (** The order of events. *)
  Variable D : B -> B -> Prop.
  Variable P : B -> Prop.
  Definition okp (x y : lev A) : Prop :=
    match x, y with
    | LS, _ => True
    | LC _ _, LS => False
    | LC _ a, LC _ b => D (key a) (key b)
    end.
  Lemma sb_In R r' r t' a' : sb R r' r -> In (LC t' a') r' -> exists t a, In (LC t a) r /\ R t' t /\ key a' = key a.
  Proof.
    induction 1; intros Hin.
    - destruct Hin.
    - destruct (IHsb Hin) as (t & a & H1 & H2). exists t, a. split; [now right|assumption].
    - destruct Hin as [E|Hin]; [injection E as -> ->; exists t, a; split; [now left|auto]|].
      destruct (IHsb Hin) as (u & b & H2 & H3). exists u, b. split; [now right|assumption].
    - destruct Hin as [E|Hin]; [discriminate|]. destruct (IHsb Hin) as (u & b & H2 & H3). exists u, b. split; [now right|assumption].
    - destruct Hin as [E|Hin]; [discriminate|]. auto.
  Qed.
  Lemma sb_start_In R r' r : sb R r' r -> In LS r' -> In LS r.
  Proof.
    induction 1; intros Hin.
    - destruct Hin.
    - right. auto.
    - destruct Hin as [E|Hin]; [discriminate|]. right. auto.
    - now left.
    - now left.
  Qed.
  Lemma sb_fop R r' r : sb R r' r -> ForallOrdPairs okp r -> ForallOrdPairs okp r'.
  Proof.
    induction 1 as [r|x r' r H IH|t' a' t a r' r Ht Ha H IH|r' r H IH|r' r H IH]; intros Hr.
    - constructor.
    - inversion Hr; subst. auto.
    - inversion Hr as [|? ? H1 H2]; subst. constructor; [|auto]. apply Forall_forall. rewrite Forall_forall in H1. intros [|u b] Hy.
      + apply (sb_start_In _ _ _ H) in Hy. apply H1 in Hy. exact Hy.
      + destruct (sb_In _ _ _ _ _ H Hy) as (u0 & b0 & Hin & _ & E). apply H1 in Hin. cbn in *. congruence.
    - inversion Hr as [|? ? H1 H2]; subst. constructor; [|auto]. apply Forall_forall. intros [|] _; exact I.
    - constructor; [|auto]. apply Forall_forall. intros [|] _; exact I.
  Qed.

  (** The shape: from the start, and after each reading step before the match has started. *)
  Definition lazy_at n (E : nat -> Prop) (s : nat) : Prop :=
    exists r, fl n (edges (get n s)) r /\ ForallOrdPairs okp r /\ forall t a, In (LC t a) r -> E t /\ P (key a).
  Definition lazyq n : Prop := exists E : nat -> Prop, E 0 /\ forall s, E s -> lazy_at n E s.

  (** *** Simulation *)
  Section Sim.
    Variables n n' : nfa A.
    Variable R : nat -> nat -> Prop.
    Inductive emb : list (alt A) -> list (alt A) -> Prop :=
    | m_nil : forall l, emb [] l
    | m_drop : forall x l' l, emb l' l -> emb l' (x :: l)
    | m_sym : forall t' a' t a l' l, R t' t -> key a' = key a -> emb l' l -> emb (ASym t' a' :: l') (ASym t a :: l)
    | m_eps : forall t' t e l' l, R t' t -> emb l' l -> emb (AEps t' e :: l') (AEps t e :: l)
    | m_spl : forall t l1 l' l, emb l1 (edges (get n t)) -> emb l' l -> emb (l1 ++ l') (AEps t ENone :: l).
    Hypothesis HR : forall s' s, R s' s -> emb (edges (get n' s')) (edges (get n s)).
    Lemma emb_fl l r : fl n l r -> forall l', emb l' l -> exists r', fl n' l' r' /\ sb R r' r.
    Proof using HR.
      induction 1 as [|t a l r H IH|t l r H IH|t l r1 r H1 IH1 H IH]; intros l' He; inversion He; subst.
      - exists []. split; constructor.
      - exists []. split; constructor.
      - destruct (IH l') as (r' & F & S); [assumption|]. exists r'. split; [assumption|now constructor].
      - destruct (IH l'0) as (r' & F & S); [assumption|]. exists (LC t' a' :: r'). split; now constructor.
      - exists []. split; constructor.
      - destruct (IH l') as (r' & F & S); [assumption|]. exists r'. split; [assumption|now constructor].
      - destruct (IH l'0) as (r' & F & S); [assumption|]. exists (LS :: r'). split; now constructor.
      - exists []. split; constructor.
      - destruct (IH l') as (r' & F & S); [assumption|]. exists r'. split; [assumption|].
        change (sb R ([] ++ r') (r1 ++ r)). apply sb_app; [constructor|assumption].
      - destruct (IH l'0) as (r' & F & S); [assumption|]. destruct (IH1 (edges (get n' t'))) as (r1' & F1 & S1); [auto|].
        exists (r1' ++ r'). split; [now constructor|now apply sb_app].
      - destruct (IH l'0) as (r' & F & S); [assumption|]. destruct (IH1 l1) as (r1' & F1 & S1); [auto|].
        exists (r1' ++ r'). split; [now apply fl_app|now apply sb_app].
    Qed.
    Lemma lazy_sim : R 0 0 -> lazyq n -> lazyq n'.
    Proof using HR.
      intros H0 (E & E0 & HE). exists (fun s' => exists s, R s' s /\ E s). split; [eauto|].
      intros s' (s & Hs & Es). destruct (HE s Es) as (r & F & O & C). destruct (emb_fl _ _ F _ (HR _ _ Hs)) as (r' & F' & S).
      exists r'. split; [assumption|]. split; [eapply sb_fop; eauto|]. intros t' a' Hin.
      destruct (sb_In _ _ _ _ _ S Hin) as (t & a & Hin2 & Ht & Ek). destruct (C _ _ Hin2) as [C1 C2]. split; [eauto|]. now rewrite Ek.
    Qed.
    Lemma emb_app l1' l1 l2' l2 : emb l1' l1 -> emb l2' l2 -> emb (l1' ++ l2') (l1 ++ l2).
    Proof.
      intros H H2. induction H; cbn.
      - induction l; cbn; [assumption|now constructor].
      - now constructor.
      - now constructor.
      - now constructor.
      - rewrite <- app_assoc. now constructor.
    Qed.
    Lemma emb_drops l1 l' l : emb l' l -> emb l' (l1 ++ l).
    Proof. intros H. induction l1; cbn; [assumption|now constructor]. Qed.
    (** One for one. *)
    Definition nacc (x : alt A) : Prop := x <> AAcc.
    Lemma edges_nacc s : Forall nacc (edges (get n s)).
    Proof.
      apply Forall_forall. intros x Hx. unfold edges in Hx. rewrite in_app_iff, !in_map_iff in Hx. unfold nacc.
      destruct Hx as [([? ?] & <- & _)|([? ?] & <- & _)]; discriminate.
    Qed.
    Lemma emb_ren f l : Forall nacc l -> (forall t a, In (ASym t a) l -> R (f t) t) -> (forall t e, In (AEps t e) l -> R (f t) t) ->
      emb (flat_map (ren f (fun a => a) [AAcc]) l) l.
    Proof.
      induction l as [|[|t a|t e] l IH]; intros Hn H1 H2; cbn; [constructor| | |]; inversion Hn; subst; try (exfalso; unfold nacc in *; congruence).
      - apply m_sym; [apply (H1 t a); now left|reflexivity|]. apply IH; [assumption| |]; intros; [eapply H1|eapply H2]; right; eassumption.
      - apply m_eps; [apply (H2 t e); now left|]. apply IH; [assumption| |]; intros; [eapply H1|eapply H2]; right; eassumption.
    Qed.
    Lemma edges_sym s t a : In (ASym t a) (edges (get n s)) <-> In (t, a) (trans (get n s)).
    Proof.
      unfold edges. rewrite in_app_iff, !in_map_iff. split.
      - intros [([x y] & E & H)|([x y] & E & H)]; [|discriminate]. cbn in E. injection E as <- <-. assumption.
      - intros H. left. exists (t, a). auto.
    Qed.
    Lemma edges_eps s t a : In (AEps t a) (edges (get n s)) <-> In (t, a) (eps (get n s)).
    Proof.
      unfold edges. rewrite in_app_iff, !in_map_iff. split.
      - intros [([x y] & E & H)|([x y] & E & H)]; [discriminate|]. cbn in E. injection E as <- <-. assumption.
      - intros H. right. exists (t, a). auto.
    Qed.
  End Sim.

  (** *** The passes *)
  Lemma emb_id n (l : list (alt A)) : Forall nacc l -> emb n eq l l.
  Proof. induction 1 as [|[|t a|t e] l H _ IH]; [constructor|exfalso; unfold nacc in *; congruence|now apply m_sym|now apply m_eps]. Qed.
  Lemma emb_filter n g (l : list (alt A)) : Forall nacc l -> emb n eq (filter g l) l.
  Proof.
    induction 1 as [|x l H _ IH]; [constructor|]. cbn. destruct (g x); [|now constructor].
    destruct x as [|t a|t e]; [exfalso; unfold nacc in *; congruence|now apply m_sym|now apply m_eps].
  Qed.
  Lemma filter_lazy n n' (p : nat -> nat * A -> bool) (q : nat -> nat * epsk -> bool) :
    (forall s, get n' s = mkState (filter (p s) (trans (get n s))) (filter (q s) (eps (get n s)))) -> lazyq n -> lazyq n'.
  Proof.
    intros HG. apply (lazy_sim n n' eq); [|reflexivity]. intros s' s ->. rewrite HG, filter_edges. apply emb_filter, edges_nacc.
  Qed.
  Lemma zero_lazy n n' : zero_symbols n = Ok n' -> lazyq n -> lazyq n'.
  Proof.
    unfold zero_symbols. destruct (nodes_after_end n) as [a| | |]; try discriminate. destruct (nodes_before_start n) as [b| | |]; try discriminate.
    cbn [bind]. intros E. injection E as <-. set (n' := map _ _).
    apply (filter_lazy n n' (fun i _ => negb (nth i a false || nth i b false)) (fun _ _ => true)).
    intros i. transitivity (if nth i a false || nth i b false then mkState [] (eps (get n i)) else get n i).
    - unfold n'. apply (get_enum_map n (fun i s => if nth i a false || nth i b false then mkState [] (eps s) else s)).
      destruct (_ || _); reflexivity.
    - rewrite filter_true. destruct (_ || _); cbn.
      + f_equal. clear. now induction (trans (get n i)).
      + rewrite filter_true. apply state_eta.
  Qed.
  Lemma rd_lazy n dead : length dead = length n -> closed n dead -> live dead 0 -> lazyq n -> lazyq (remove_dead_states dead n).
  Proof.
    intros HL HC H0. apply (lazy_sim n _ (fun s' s => s' = new n dead s /\ live dead s)).
    - intros s' s [-> Hs]. rewrite rd_get_live, map_edges by assumption.
      apply (emb_ren n); [apply edges_nacc| |]; intros t x Hx.
      + apply edges_sym in Hx. split; [reflexivity|]. eapply (proj2 (HC s t Hs)); eauto.
      + apply edges_eps in Hx. split; [reflexivity|]. eapply (proj1 (HC s t Hs)); eauto.
    - split; [symmetry; now apply new_zero|assumption].
  Qed.
  Lemma unreachable_lazy n n' : wf n -> 1 <= length n -> remove_unreachable n = Ok n' -> conn n 0 (length n - 1) -> lazyq n -> lazyq n'.
  Proof.
    intros Hw Hl. unfold remove_unreachable, reachable_start, reachable_end.
    destruct (reach_from_spec (succ_all n) (length n) 0) as (a & Ea & Hal & Ha); [lia|intros x y; now apply succ_all_lt|].
    destruct (reach_from_spec (pred_all n any_eps) (length n) (length n - 1)) as (b & Eb & Hbl & Hb); [lia|intros x y; apply pred_all_lt|].
    fold (succ_all n). change (fun s => succ_eps n any_eps s ++ succ_trans n s) with (succ_all n).
    rewrite Ea, Eb. cbn [bind]. intros E Hc. injection E as <-.
    set (dead := map _ (combine a b)). set (m := map _ n).
    assert (Hb' : forall s, marked b s <-> conn n s (length n - 1)).
    { intros s. rewrite Hb. symmetry. apply star_rev. intros. symmetry. apply pred_all_In. }
    assert (Hm : length m = length n) by (unfold m; apply map_length).
    assert (Hd : length dead = length m) by (rewrite Hm; unfold dead; rewrite map_length, combine_length; lia).
    assert (HG : forall s, get m s = mkState (filter (fun t => nth (fst t) a false && nth (fst t) b false) (trans (get n s)))
                                             (filter (fun t => nth (fst t) a false && nth (fst t) b false) (eps (get n s)))).
    { intros s. unfold m. apply (get_map n (fun s => mkState (filter (fun t => nth (fst t) a false && nth (fst t) b false) (trans s))
                                             (filter (fun t => nth (fst t) a false && nth (fst t) b false) (eps s)))). reflexivity. }
    assert (HLv : forall s, live dead s <-> conn n 0 s /\ conn n s (length n - 1)).
    { intros s. unfold live. destruct (Nat.lt_ge_cases s (length n)) as [Hs|Hs].
      - unfold dead. set (F := fun p : bool * bool => negb (fst p) || negb (snd p)).
        rewrite (nth_indep _ _ (F (false, false))) by (rewrite map_length, combine_length; lia).
        rewrite map_nth, combine_nth by lia. unfold F. cbn. rewrite orb_false_iff, !negb_false_iff, Hb'. unfold conn. now rewrite Ha.
      - rewrite nth_overflow by lia. split; [discriminate|]. intros [H _]. apply conn_lt in H; auto; lia. }
    assert (HC : closed m dead).
    { intros s t _. split; intros e H; rewrite HG in H; cbn in H; apply filter_In in H as [_ H]; cbn in H; rewrite HLv;
      rewrite andb_true_iff, Hb' in H; unfold conn in *; now rewrite Ha in H. }
    intros Q. apply rd_lazy; auto; [apply HLv; split; [constructor|assumption]|].
    eapply (filter_lazy n m (fun _ t => nth (fst t) a false && nth (fst t) b false) (fun _ t => nth (fst t) a false && nth (fst t) b false)); auto.
  Qed.

  Variable check : A -> N -> bool.
  Variable eqA : A -> A -> bool.
  Variable good : A -> Prop.
  Hypothesis eqA_sound : forall a b, good a -> good b -> eqA a b = true -> forall c, check a c = check b c.
  Hypothesis eqA_key : forall a b, eqA a b = true -> key a = key b.

  Lemma redirect_lazy n n' i j : 0 < i ->
    (forall s, s <> i -> edges (get n' s) = flat_map (ren (retarget i j) (fun a => a) [AAcc]) (edges (get n s))) ->
    emb n (fun s' s => s' = retarget i j s) (edges (get n' j)) (edges (get n i)) ->
    lazyq n -> lazyq n'.
  Proof.
    intros Hi HG Hj. apply (lazy_sim n n' (fun s' s => s' = retarget i j s)).
    - intros s' s ->. unfold retarget. destruct (Nat.eqb_spec s i) as [->|Hs]; [assumption|]. rewrite HG by assumption.
      apply emb_ren; [apply edges_nacc|reflexivity|reflexivity].
    - unfold retarget. destruct (Nat.eqb_spec 0 i); [lia|reflexivity].
  Qed.
  Lemma merge_lazy n i j : 0 < i < length n - 1 -> i <> j -> same_outgoing eqA (get n i) (get n j) = true ->
    lazyq n -> lazyq (map (map_targets (retarget i j)) (upd i empty_state n)).
  Proof using eqA_key.
    intros Hi Hij HS. set (n1 := map _ _).
    assert (HG : forall s, get n1 s = if s =? i then empty_state else map_targets (retarget i j) (get n s)).
    { intros s. unfold n1. rewrite get_map by reflexivity. rewrite get_upd by lia. now destruct (s =? i). }
    apply (redirect_lazy n n1 i j); [lia| |].
    - intros s Hs. rewrite HG. destruct (Nat.eqb_spec s i); [congruence|]. apply map_edges.
    - rewrite HG. destruct (Nat.eqb_spec j i); [congruence|]. unfold same_outgoing in HS. apply andb_true_iff in HS as [H1 H2].
      apply (list_eqb_iff _ eq) in H1; [|intros ? ?; apply eps_eqb_iff]. apply Forall2_eq in H1.
      apply (list_eqb_iff _ (fun p q => fst p = fst q /\ (eqA (snd p) (snd q) = true))) in H2.
      2:{ intros [t a] [u b] H. apply andb_true_iff in H as [H3 H4]. apply Nat.eqb_eq in H3. cbn in *. auto. }
      unfold edges, map_targets. cbn [trans eps]. apply emb_app.
      + induction H2 as [|[t a] [u b] l l' [E1 E2] H IH]; cbn in *; [constructor|]. subst u. apply m_sym; [reflexivity|symmetry; auto|assumption].
      + rewrite H1. clear. induction (eps (get n j)) as [|[t e] l IH]; cbn; [constructor|apply m_eps; auto].
  Qed.
  Lemma dedupe_lazy n : lazyq n -> lazyq (fst (dedupe n)).
  Proof.
    apply (lazy_sim n _ eq); [|reflexivity]. intros s' s ->. rewrite get_dedupe. unfold edges. cbn [dedupe_state trans eps]. apply emb_app.
    - apply emb_id. apply Forall_forall. intros x Hx. apply in_map_iff in Hx as (y & <- & _). discriminate.
    - generalize (@nil (nat * epsk)) as seen. induction (eps (get n s)) as [|[t e] l IH]; intros seen; cbn [dedup_by map]; [constructor|].
      destruct (existsb (eps_eqb (t, e)) seen); cbn [map fst snd]; [apply m_drop|apply m_eps]; auto.
  Qed.
  Lemma skip_lazy n i to : ok n -> 0 < i < length n - 1 -> get n i = mkState [] [(to, ENone)] ->
    lazyq n -> lazyq (upd i empty_state (map (map_targets (retarget i to)) n)).
  Proof.
    intros Hok Hi Hg. set (n1 := upd _ _ _).
    assert (HG : forall s, get n1 s = if s =? i then empty_state else map_targets (retarget i to) (get n s)).
    { intros s. unfold n1. rewrite get_upd by (rewrite map_length; lia). rewrite get_map by reflexivity. reflexivity. }
    apply (redirect_lazy n n1 i to); [lia| |].
    - intros s Hs. rewrite HG. destruct (Nat.eqb_spec s i); [congruence|]. apply map_edges.
    - rewrite HG, Hg. destruct (Nat.eqb_spec to i) as [->|Hn]; [constructor|]. cbn [edges trans eps map app].
      rewrite <- (app_nil_r (edges (map_targets _ _))). apply m_spl; [|constructor]. rewrite map_edges. apply emb_ren; [apply edges_nacc|reflexivity|reflexivity].
  Qed.
  Lemma splice_lazy n i s p : 0 < i < length n - 1 -> has_incoming n i = false ->
    incoming_eps n i = [(s, p)] -> trans (get n i) = [] -> nth_error (eps (get n s)) p = Some (i, ENone) -> s <> i ->
    lazyq n -> lazyq (modify s (splice p (eps (get n i))) (upd i (mkState (trans (get n i)) []) n)).
  Proof.
    intros Hi Hinc Hin Ht Hp Hsi. set (n1 := modify _ _ _).
    assert (Hs : s < length n).
    { apply (eps_range n s (i, ENone)). eapply nth_error_In; eauto. }
    assert (HG : forall x, get n1 x = if x =? s then splice p (eps (get n i)) (get n s) else if x =? i then empty_state else get n x).
    { intros x. unfold n1, get at 1. rewrite nth_modify. rewrite upd_length.
      destruct (Nat.ltb_spec s (length n)); [|lia]. rewrite andb_true_r.
      change (nth x (upd i (mkState (trans (get n i)) []) n) empty_state) with (get (upd i (mkState (trans (get n i)) []) n) x).
      change (nth s (upd i (mkState (trans (get n i)) []) n) empty_state) with (get (upd i (mkState (trans (get n i)) []) n) s).
      rewrite ?get_upd by lia. rewrite Ht.
      destruct (Nat.eqb_spec x s) as [->|]; [|reflexivity]. destruct (Nat.eqb_spec s i); [congruence|]. reflexivity. }
    apply (lazy_sim n n1 eq); [|reflexivity]. intros x' x ->. rewrite HG. destruct (Nat.eqb_spec x s) as [->|Hxs].
    - unfold edges. cbn [splice trans eps]. apply emb_app; [apply emb_id, Forall_forall; intros y Hy; apply in_map_iff in Hy as (z & <- & _); discriminate|].
      assert (Hsk : eps (get n s) = firstn p (eps (get n s)) ++ (i, ENone) :: skipn (S p) (eps (get n s))).
      { rewrite <- (firstn_skipn p (eps (get n s))) at 1. f_equal. clear - Hp. revert Hp. generalize (eps (get n s)) as l. induction p as [|p IH]; intros [|y l] E; cbn in *; try discriminate.
        - injection E as ->. reflexivity.
        - rewrite (IH l E). destruct l; reflexivity. }
      rewrite Hsk at 3. rewrite !map_app. cbn [map fst snd].
      assert (HI : forall l : list (nat * epsk), emb n eq (map (fun e => @AEps A (fst e) (snd e)) l) (map (fun e => AEps (fst e) (snd e)) l)).
      { intros l. apply emb_id, Forall_forall. intros y Hy. apply in_map_iff in Hy as (z & <- & _). discriminate. }
      apply emb_app; [apply HI|]. apply m_spl; [|apply HI]. unfold edges. rewrite Ht. cbn [map app]. apply HI.
    - destruct (Nat.eqb_spec x i); [constructor|]. apply emb_id, edges_nacc.
  Qed.

  Lemma step_lazy n0 n dead ch i n1 dead1 ch1 : goods good n0 -> oinv check n0 (n, dead, ch) -> In i (seq 1 (length n0 - 2)) ->
    optimize_step eqA (n, dead, ch) i = Ok (n1, dead1, ch1) -> lazyq n -> lazyq n1.
  Proof using eqA_key.
    intros Hgd Hinv Hi. apply in_seq in Hi.
    assert (Hlen := st_len _ _ _ (oi_stp _ _ _ Hinv)). assert (Hok := st_ok _ _ _ (oi_stp _ _ _ Hinv)). cbn in Hlen, Hok.
    cbv beta iota zeta delta [optimize_step].
    destruct (find _ (seq 0 (length n - 1))) as [j|] eqn:Ej.
    - apply find_some in Ej as [Hj E]. apply in_seq in Hj. rewrite !andb_true_iff, !negb_true_iff in E.
      destruct E as [[E1 E2] E3]. apply Nat.eqb_neq in E2. intros E. assert (En1 : n1 = map (map_targets (retarget i j)) (upd i empty_state n)) by congruence.
      rewrite En1. apply merge_lazy; auto; lia.
    - clear Ej. destruct (dedupe n) as [m dch] eqn:Edd. assert (Em : m = fst (dedupe n)) by now rewrite Edd.
      assert (K1 := dedupe_lazy n). assert (S1 := dedupe_stp check n Hok). rewrite <- Em in K1, S1.
      assert (Hlm := st_len _ _ _ S1). assert (Hom := st_ok _ _ _ S1).
      intros E Q. apply K1 in Q. clear K1 S1 Em Edd. revert Q.
      assert (Hsame : forall ch', Ok (m, dead, ch') = Ok (n1, dead1, ch1) -> lazyq m -> lazyq n1).
      { intros ch' E'. assert (n1 = m) as -> by congruence. auto. }
      destruct (trans (get m i)) as [|tr0 trr] eqn:Et.
      2:{ destruct (has_incoming m i); [exact (Hsame _ E)|]. destruct (incoming_eps m i) as [|[s e] [|]]; exact (Hsame _ E). }
      assert (Hother :
        match has_incoming m i, incoming_eps m i, @nil (nat * A) with
        | false, [(s, e)], [] =>
            match nth_error (eps (get m s)) e with
            | Some (_, ENone) =>
                if s =? i then Panic
                else Ok (modify s (fun st => mkState (trans st) (firstn e (eps st) ++ eps (get m i) ++ skipn (S e) (eps st)))
                           (upd i (mkState [] []) m), upd i true dead, true)
            | _ => Ok (m, dead, ch || dch)
            end
        | _, _, _ => Ok (m, dead, ch || dch)
        end = Ok (n1, dead1, ch1) -> lazyq m -> lazyq n1).
      { clear E. intros E. destruct (has_incoming m i) eqn:Einc; [exact (Hsame _ E)|].
        destruct (incoming_eps m i) as [|[s e] [|]] eqn:Ein; try exact (Hsame _ E).
        destruct (nth_error (eps (get m s)) e) as [[t k]|] eqn:En; [|exact (Hsame _ E)].
        destruct k; try exact (Hsame _ E).
        assert (t = i) as ->.
        { assert (H : In (s, e) (incoming_eps m i)) by (rewrite Ein; now left). apply incoming_In in H as (k & H). congruence. }
        destruct (Nat.eqb_spec s i) as [|Hne]; [discriminate|].
        assert (En1 : n1 = modify s (splice e (eps (get m i))) (upd i (mkState (trans (get m i)) []) m)) by (rewrite Et; unfold splice; congruence).
        rewrite En1. apply splice_lazy; auto. lia. }
      destruct (eps (get m i)) as [|[to k] [|]] eqn:Ee; [exact (Hother E)| |destruct k; exact (Hother E)].
      destruct k; [|exact (Hother E)..].
      assert (En1 : n1 = upd i empty_state (map (map_targets (retarget i to)) m)) by congruence. rewrite En1.
      apply skip_lazy; auto; [lia|]. destruct (get m i); cbn in *; congruence.
  Qed.
  Lemma steps_lazy n0 is : forall n dead ch n1 dead1 ch1, goods good n0 -> oinv check n0 (n, dead, ch) -> incl is (seq 1 (length n0 - 2)) ->
    foldM (optimize_step eqA) is (n, dead, ch) = Ok (n1, dead1, ch1) -> lazyq n -> lazyq n1.
  Proof using eqA_sound eqA_key.
    induction is as [|i is IH]; intros n dead ch n1 dead1 ch1 Hgd Hinv Hin E; cbn [foldM] in E.
    - assert (n1 = n) as -> by congruence. auto.
    - assert (Hi : In i (seq 1 (length n0 - 2))) by (apply Hin; now left).
      destruct (step_spec check eqA good eqA_sound n0 (n, dead, ch) i Hgd Hinv Hi) as ([[n2 dead2] ch2] & E2 & Hinv2).
      rewrite E2 in E. cbn [bind] in E. intros Q. apply (IH n2 dead2 ch2 n1 dead1 ch1); [exact Hgd|exact Hinv2| |exact E|exact (step_lazy _ _ _ _ _ _ _ _ Hgd Hinv Hi E2 Q)]. intros x Hx. apply Hin. now right.
  Qed.
  Lemma pass_lazy n n' ch : goods good n -> ok n -> 2 <= length n -> optimize_pass eqA n = Ok (n', ch) -> lazyq n -> lazyq n'.
  Proof using eqA_sound eqA_key.
    intros Hgd Hok Hl. unfold optimize_pass. destruct (Nat.leb_spec 2 (length n)); [|lia]. cbn [guard bind].
    assert (Hinv0 : oinv check n (n, repeat false (length n), false)).
    { assert (Hr : forall d, d < length n -> live (repeat false (length n)) d).
      { intros d Hd. unfold live. rewrite (nth_indep _ _ false) by now rewrite repeat_length. apply nth_repeat_false. }
      split; cbn.
      + now apply stp_refl.
      + apply repeat_length.
      + apply Hr. lia.
      + apply Hr. lia.
      + intros d Hd Hn. destruct Hn. auto.
      + rewrite lsz_none. lia. }
    destruct (foldM_inv (optimize_step eqA) (oinv check n) (seq 1 (length n - 2)) (n, repeat false (length n), false)) as (acc & E & Hinv); [assumption| |].
    { intros b a Hb Ha. now apply (step_spec check eqA good eqA_sound). }
    rewrite E. cbn [bind]. destruct acc as [[m dead] chm]. intros E' Q.
    assert (K1 : lazyq m) by (eapply steps_lazy; [exact Hgd|exact Hinv0|apply incl_refl|exact E|exact Q]).
    destruct Hinv as [H1 H2 H3 H4 H5 H6]. cbn in *. destruct H1 as [L1 O1 G1 I1 S1 M1]. revert E'. destruct chm; intros E'.
    - assert (n' = remove_dead_states dead m) as -> by congruence.
      assert (Hd : length dead = length m) by lia. apply rd_lazy; auto.
      intros s t _. split; intros e He; (destruct (live_dec dead t) as [|Hd']; [assumption|exfalso]).
      + apply H5 in Hd'; [|rewrite <- L1; eapply wf_eps; [apply O1|exact He]]. destruct Hd' as [_ Hd']. now apply Hd' in He.
      + apply H5 in Hd'; [|rewrite <- L1; eapply wf_trans; [apply O1|exact He]]. destruct Hd' as [_ Hd']. destruct (Hd' s ENone) as [_ Hd'']. now apply Hd'' in He.
    - assert (n' = m) as -> by congruence. assumption.
  Qed.
  Lemma optimize_lazy fuel : forall n n', goods good n -> ok n -> 2 <= length n -> optimize eqA fuel n = Ok n' -> lazyq n -> lazyq n'.
  Proof using eqA_sound eqA_key.
    induction fuel as [|f IH]; intros n n' Hgd Hok Hl E; [discriminate|]. cbn [optimize] in E.
    assert (Hw : wfb n = true) by (apply wfb_iff; apply Hok). rewrite Hw in E. cbn [guard bind] in E.
    destruct (pass_spec check eqA good eqA_sound n Hgd Hok Hl) as (m & ch & Ep & O1 & L1 & G1 & S1 & M1 & Z1). rewrite Ep in E. cbn [bind] in E.
    assert (K1 := pass_lazy n m ch Hgd Hok Hl Ep). intros Q. destruct ch.
    - apply (IH m n'); auto. exact (S1 good Hgd).
    - assert (n' = m) as -> by congruence. auto.
  Qed.
  Lemma finalize_lazy n n' : goods good n -> ok n -> 2 <= length n -> finalize eqA n = Ok n' -> n' <> [] -> lazyq n -> lazyq n'.
  Proof using eqA_sound eqA_key.
    intros Hgd Hok Hl. unfold finalize. rewrite wfb_guard by (try apply Hok; lia). cbn [guard bind].
    destruct (zero_spec check n) as (n1 & E1 & T1 & V1); [apply Hok|lia|]. rewrite E1. cbn [bind].
    assert (O1 : ok n1) by (eapply thin_ok; eauto). assert (L1 : 2 <= length n1) by (rewrite (proj1 T1); lia).
    destruct (optimize_spec check eqA good eqA_sound (S (nfa_size n1)) n1 (thin_syms _ _ _ T1 Hgd) O1 L1) as (n2 & E2 & O2 & L2 & G2 & S2 & M2); [lia|].
    rewrite E2. cbn [bind]. rewrite wfb_guard by (try apply O2; lia). cbn [guard bind]. intros E3 Hne Q.
    apply (zero_lazy _ _ E1) in Q. eapply optimize_lazy in Q; [|exact (thin_syms _ _ _ T1 Hgd)|exact O1|exact L1|exact E2].
    destruct (remove_unreachable_spec n2) as (n3 & E4 & C3 & _); [apply O2|lia|].
    destruct (conn_dec n2) as [Hc|Hc]; [apply O2|lia| |].
    - eapply unreachable_lazy; eauto; [apply O2|lia].
    - exfalso. apply Hne. specialize (C3 Hc). congruence.
  Qed.
End Lazy.
