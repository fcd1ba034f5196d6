(** The clean-up passes keep the preferred run: removing edges no accepted reading uses, merging and
    skipping states, renumbering. *)
From Verif Require Export PPrio.
From Coq Require Import ZifyBool ZifyNat Relation_Operators.
Open Scope nat_scope.
Open Scope list_scope.
Set Default Proof Using "Type".

Lemma alts_In {A} (n : nfa A) s x : In x (alts n s) <->
  (x = AAcc /\ s = length n - 1) \/ (exists t a, x = ASym t a /\ In (t, a) (trans (get n s))) \/
  (exists t e, x = AEps t e /\ In (t, e) (eps (get n s))).
Proof.
  unfold alts, edges. rewrite !in_app_iff, !in_map_iff. split.
  - intros [H|[([t a] & <- & H)|([t e] & <- & H)]].
    + destruct (Nat.eqb_spec s (length n - 1)) as [->|]; [|destruct H]. destruct H as [<-|[]]. auto.
    + right. left. eauto.
    + right. right. eauto.
  - intros [[-> ->]|[(t & a & -> & H)|(t & e & -> & H)]].
    + left. rewrite Nat.eqb_refl. now left.
    + right. left. exists (t, a). auto.
    + right. right. exists (t, e). auto.
Qed.
Definition kdet (K : nat -> option word -> Prop) : Prop := forall j r r', K j r -> K j r' -> r = r'.

(** ** Removing edges *)
Section Drop.
  Context {A : Type}.
  Variables (check : A -> N -> bool) (T : list N) (n n' : nfa A) (K : nat -> option word -> Prop) (i : nat).
  Variable keep : nat -> alt A -> bool.
  Hypothesis HA : forall s, alts n' s = filter (keep s) (alts n s).
  Hypothesis Hdrop : forall u s j x w, path check n 0 u s -> reads T i u j -> In x (alts n s) -> keep s x = false ->
    alt_run check T n K x j w -> False.
  Lemma drop_ev r : i <= length T -> ev check T n K (alts n 0) i r -> ev check T n' K (alts n' 0) i r.
  Proof using All.
    assert (G : (forall x j r, ev1 check T n K x j r -> forall s u, path check n 0 u s -> reads T i u j -> In x (alts n s) -> ev1 check T n' K x j r) /\
                (forall l j r, ev check T n K l j r -> forall s u, path check n 0 u s -> reads T i u j -> incl l (alts n s) ->
                   ev check T n' K (filter (keep s) l) j r)).
    { apply ev_ind2.
      - intros. now constructor.
      - intros. now constructor.
      - intros t a j c r0 Hc Hev IH s u Hp Hr Hin. apply alts_In in Hin as [[E _]|[(t' & a' & E & Hin)|(t' & e' & E & _)]]; try discriminate.
        injection E as <- <-. assert (Hc' := Hc). apply canb_iff in Hc' as [H1 H2].
        apply e_sym; [assumption|]. rewrite HA. apply (IH t (u ++ [IC c])).
        + eapply path_app; [exact Hp|]. eapply path_sym1; eauto.
        + apply reads_app. exists j. split; [assumption|]. constructor; [assumption|]. constructor. apply nth_error_Some. congruence.
        + apply incl_refl.
      - intros. now constructor.
      - intros t e j r0 He Hev IH s u Hp Hr Hin. apply alts_In in Hin as [[E _]|[(t' & a' & E & _)|(t' & e' & E & Hin)]]; try discriminate.
        injection E as <- <-. apply e_eps; [assumption|]. rewrite HA. apply (IH t (u ++ mark e)).
        + eapply path_app; [exact Hp|]. now apply path_eps1.
        + apply reads_app. exists j. split; [assumption|]. rewrite <- (app_nil_r (mark e)). apply reads_mark; [now apply on_enabled|].
          constructor. apply reads_le in Hr. lia.
        + apply incl_refl.
      - intros. constructor.
      - intros x l j r0 r' Hx IHx Hl IHl s u Hp Hr Hin. cbn [filter]. assert (Hxs : In x (alts n s)) by (apply Hin; now left).
        assert (Hls : incl l (alts n s)) by (intros y Hy; apply Hin; now right).
        destruct (keep s x) eqn:Ek.
        + constructor; [eapply IHx; eauto|eapply IHl; eauto].
        + assert (E : r0 = None).
          { destruct r0 as [w|]; [|reflexivity]. exfalso. apply (Hdrop u s j x w); auto.
            apply (proj1 (ev_sound0 check T n K) _ _ _ Hx); [|reflexivity]. apply reads_le in Hr. lia. }
          subst r0. cbn. eapply IHl; eauto. }
    intros Hi H. rewrite HA. eapply (proj2 G); [exact H|apply p_nil|now constructor|apply incl_refl].
  Qed.
End Drop.

(** ** Lists of alternatives in one automaton *)
Section Lists.
  Context {A : Type}.
  Variables (check : A -> N -> bool) (T : list N) (n : nfa A) (K : nat -> option word -> Prop).
  (** The same alternatives, up to symbols with the same characters. *)
  Definition alike (x y : alt A) : Prop :=
    match x, y with
    | AAcc, AAcc => True
    | ASym t a, ASym t' b => t = t' /\ forall c, check a c = check b c
    | AEps t e, AEps t' e' => t = t' /\ e = e'
    | _, _ => False
    end.
  Lemma ev_alike l l' j r : Forall2 alike l l' -> ev check T n K l j r -> ev check T n K l' j r.
  Proof.
    intros H. revert r. induction H as [|x y l l' Hxy H IH]; intros r Hev; [assumption|].
    inversion Hev as [|? ? ? r1 r2 H1 H2]; subst. constructor; [|auto].
    destruct x as [|t a|t e], y as [|t' b|t' e']; try contradiction.
    - assumption.
    - destruct Hxy as [<- Hab]. assert (Ec : canb check T j a = canb check T j b) by (unfold canb; destruct (nth_error T j); [now rewrite Hab|reflexivity]).
      inversion H1; subst; [apply e_sym_no; congruence|apply e_sym; congruence].
    - destruct Hxy as [<- <-]. assumption.
  Qed.
  Hypothesis HK : kdet K.
  Lemma ev_orelse_seen x l seen j r rs : ev check T n K seen j rs -> In x seen -> ev1 check T n K x j r -> orelse rs (orelse r l) = orelse rs l.
  Proof using HK.
    intros H Hin Hx. induction H as [j|y ys j r1 r2 H1 H2 IH]; [destruct Hin|]. rewrite !orelse_assoc. destruct Hin as [->|Hin].
    - assert (r1 = r) as -> by (eapply (proj1 (ev_det check T n K HK)); eauto). destruct r; [reflexivity|]. cbn. reflexivity.
    - destruct r1; [reflexivity|]. cbn. auto.
  Qed.
  Lemma ev_dedup (l : list (nat * epsk)) : forall seen tried j rs r, incl seen tried -> ev check T n K (map (fun e => AEps (fst e) (snd e)) tried) j rs ->
    ev check T n K (map (fun e => AEps (fst e) (snd e)) l) j r ->
    exists r', ev check T n K (map (fun e => AEps (fst e) (snd e)) (dedup_by eps_eqb seen l)) j r' /\ orelse rs r' = orelse rs r.
  Proof using HK.
    induction l as [|x l IH]; intros seen tried j rs r Hi Hs Hev; cbn in *.
    - eauto.
    - inversion Hev as [|? ? ? r1 r2 H1 H2]; subst. destruct (existsb (eps_eqb x) seen) eqn:E.
      + apply existsb_exists in E as (y & Hy & E). apply eps_eqb_iff in E. subst y.
        destruct (IH seen tried j rs r2 Hi Hs H2) as (r' & H3 & H4). exists r'. split; [assumption|]. rewrite H4. symmetry.
        eapply ev_orelse_seen; eauto. apply in_map_iff. exists x. auto.
      + destruct (IH (x :: seen) (tried ++ [x]) j (orelse rs r1) r2) as (r' & H3 & H4).
        * intros y [->|Hy]; apply in_or_app; [right; now left|left; auto].
        * rewrite map_app. apply ev_app; [assumption|]. now apply ev_one.
        * assumption.
        * cbn. exists (orelse r1 r'). split; [now constructor|]. rewrite <- !orelse_assoc. assumption.
  Qed.
End Lists.

(** ** The passes *)
Definition keeps {A} (check : A -> N -> bool) (n n' : nfa A) : Prop :=
  forall T K i r, kdet K -> i <= length T -> ev check T n K (alts n 0) i r -> ev check T n' K (alts n' 0) i r.
Lemma keeps_trans {A} (check : A -> N -> bool) a b c : keeps check a b -> keeps check b c -> keeps check a c.
Proof. intros H1 H2 T K i r HK Hi H. apply H2; auto. Qed.
Lemma keeps_refl {A} (check : A -> N -> bool) n : keeps check n n.
Proof. intros T K i r _ _ H. exact H. Qed.

(** For every continuation. *)
Definition keeps_all {A} (check : A -> N -> bool) (n n' : nfa A) : Prop :=
  forall T K i r, i <= length T -> ev check T n K (alts n 0) i r -> ev check T n' K (alts n' 0) i r.

Section Passes.
  Context {A : Type}.
  Variable check : A -> N -> bool.
  Implicit Types n : nfa A.

  Lemma filter_edges (p : nat * A -> bool) (q : nat * epsk -> bool) (st : state A) :
    edges (mkState (filter p (trans st)) (filter q (eps st))) =
    filter (fun x => match x with AAcc => true | ASym t a => p (t, a) | AEps t e => q (t, e) end) (edges st).
  Proof.
    unfold edges. cbn. rewrite filter_app. f_equal.
    - induction (trans st) as [|[t a] l IH]; [reflexivity|]. cbn. destruct (p (t, a)); cbn; now rewrite IH.
    - induction (eps st) as [|[t a] l IH]; [reflexivity|]. cbn. destruct (q (t, a)); cbn; now rewrite IH.
  Qed.
  Lemma filter_alts n n' (p : nat -> nat * A -> bool) (q : nat -> nat * epsk -> bool) : length n' = length n ->
    (forall s, get n' s = mkState (filter (p s) (trans (get n s))) (filter (q s) (eps (get n s)))) ->
    forall s, alts n' s = filter (fun x => match x with AAcc => true | ASym t a => p s (t, a) | AEps t e => q s (t, e) end) (alts n s).
  Proof.
    intros HL HG s. unfold alts. rewrite HG, HL, filter_edges, filter_app. f_equal. now destruct (s =? length n - 1).
  Qed.
  Lemma filter_true {B} (l : list B) : filter (fun _ => true) l = l.
  Proof. induction l as [|x l IH]; cbn; [reflexivity|now rewrite IH]. Qed.
  Lemma state_eta (s : state A) : s = mkState (trans s) (eps s).
  Proof. now destruct s. Qed.

  Lemma clean_start_keeps n n' : wf n -> 1 <= length n -> clean_start_anchors n = Ok n' -> keeps_all check n n'.
  Proof.
    intros Hw Hl. unfold clean_start_anchors.
    destruct (reach_from_spec (succ_eps n any_eps) (length n) 0) as (r & -> & Hrl & Hr).
    { lia. } { intros x y. now apply succ_eps_lt. }
    cbn [bind]. intros E. injection E as <-. set (n' := map _ _).
    assert (HG : forall i, get n' i = mkState (filter (fun _ => true) (trans (get n i))) (filter (fun e => not_start (snd e) || nth i r false) (eps (get n i)))).
    { intros i. rewrite filter_true. unfold n'.
      apply (get_enum_map n (fun i s => mkState (trans s) (filter (fun e => not_start (snd e) || nth i r false) (eps s)))).
      reflexivity. }
    assert (HL : length n' = length n) by (unfold n'; now rewrite map_length, enumerate_length).
    intros T K i r' Hi. eapply (drop_ev check T n n' K i).
    - exact (filter_alts n n' (fun _ _ => true) (fun i e => not_start (snd e) || nth i r false) HL HG).
    - intros u s j x w Hp Hrd Hin Hk Hrun. destruct x as [|t a|t e]; try discriminate. apply orb_false_iff in Hk as [H1 H2].
      cbn in H1, H2. destruct e; try discriminate. destruct Hrun as (v & Hon & _). cbn in Hon. apply Nat.eqb_eq in Hon. subst j.
      assert (Hm : marked r s); [|congruence]. apply Hr. eapply path_eps_star; [|exact Hp].
      apply reads_chars in Hrd as [Hrd _]. destruct (chars u); [reflexivity|]. cbn in Hrd. lia.
    - assumption.
  Qed.
  Lemma clean_end_keeps n n' : wf n -> 1 <= length n -> clean_end_anchors n = Ok n' -> keeps_all check n n'.
  Proof.
    intros Hw Hl. unfold clean_end_anchors.
    destruct (reach_from_spec (pred_eps n any_eps) (length n) (length n - 1)) as (r & -> & Hrl & Hr).
    { lia. } { intros x y. apply pred_eps_lt. }
    cbn [bind]. intros E. injection E as <-. set (n' := map _ _).
    assert (HG : forall i, get n' i = mkState (filter (fun _ => true) (trans (get n i))) (filter (fun e => not_end (snd e) || nth (fst e) r false) (eps (get n i)))).
    { intros i. rewrite filter_true. unfold n'.
      apply (get_map n (fun s => mkState (trans s) (filter (fun e => not_end (snd e) || nth (fst e) r false) (eps s)))).
      reflexivity. }
    assert (HL : length n' = length n) by (unfold n'; now rewrite map_length).
    intros T K i r' Hi. eapply (drop_ev check T n n' K i).
    - exact (filter_alts n n' (fun _ _ => true) (fun _ e => not_end (snd e) || nth (fst e) r false) HL HG).
    - intros u s j x w Hp Hrd Hin Hk Hrun. destruct x as [|t a|t e]; try discriminate. apply orb_false_iff in Hk as [H1 H2].
      cbn in H1, H2. destruct e; try discriminate. destruct Hrun as (v & Hon & _ & u2 & v2 & j' & _ & Hp2 & Hr2 & _).
      cbn in Hon. apply Nat.eqb_eq in Hon. subst j.
      assert (Hm : marked r t); [|congruence]. apply Hr.
      rewrite <- (star_rev (succ_eps n any_eps)) by (intros; symmetry; apply pred_eps_In).
      eapply path_eps_star; [|exact Hp2]. assert (Hle := reads_le _ _ _ _ Hr2). apply reads_chars in Hr2 as [Hr2 _].
      destruct (chars u2); [reflexivity|]. cbn in Hr2. lia.
    - assumption.
  Qed.
  Lemma reads_not_end T i u j : reads T i u j -> j < length T -> ~ In (IM EEnd) u.
  Proof.
    intros H Hj Hin. apply in_split in Hin as (x & y & ->). apply reads_app in H as (k & _ & H).
    apply reads_mark_inv in H as (_ & H & Hr). specialize (H eq_refl). apply reads_le in Hr. lia.
  Qed.
  Lemma reads_not_start T i u j : reads T i u j -> 0 < i -> ~ In (IM EStart) u.
  Proof.
    intros H Hj Hin. apply in_split in Hin as (x & y & ->). apply reads_app in H as (k & H0 & H).
    apply reads_mark_inv in H as (H & _ & Hr). specialize (H eq_refl). apply reads_le in H0. lia.
  Qed.
  Lemma zero_keeps n n' : wf n -> 1 <= length n -> zero_symbols n = Ok n' -> keeps check n n'.
  Proof.
    intros Hw Hl. unfold zero_symbols, nodes_after_end, nodes_before_start.
    destruct (reach_from_spec (fun s => succ_eps n not_end s ++ succ_trans n s) (length n) 0) as (a & -> & Hal & Ha).
    { lia. } { intros x y. now apply succ_all_lt. }
    destruct (reach_from_spec (pred_all n not_start) (length n) (length n - 1)) as (b & -> & Hbl & Hb).
    { lia. } { intros x y. apply pred_all_lt. }
    cbn [bind]. intros E. injection E as <-. set (n' := map _ _).
    assert (HN : forall (r : list bool) i, i < length r -> nth i (map negb r) false = negb (nth i r false)).
    { intros r i Hi. rewrite (nth_indep _ _ (negb false)) by now rewrite map_length. apply map_nth. }
    assert (HG : forall i, get n' i = mkState (filter (fun _ => negb (nth i (map negb a) false || nth i (map negb b) false)) (trans (get n i)))
      (filter (fun _ => true) (eps (get n i)))).
    { intros i. transitivity (if nth i (map negb a) false || nth i (map negb b) false then mkState [] (eps (get n i)) else get n i).
      - unfold n'. apply (get_enum_map n (fun i s => if nth i (map negb a) false || nth i (map negb b) false then mkState [] (eps s) else s)).
        destruct (_ || _); reflexivity.
      - rewrite filter_true. destruct (_ || _); cbn.
        + f_equal. clear. now induction (trans (get n i)).
        + rewrite filter_true. apply state_eta. }
    assert (HL : length n' = length n) by (unfold n'; now rewrite map_length, enumerate_length).
    intros T K i r' HK Hi. eapply (drop_ev check T n n' K i).
    - exact (filter_alts n n' (fun i _ => negb (nth i (map negb a) false || nth i (map negb b) false)) (fun _ _ => true) HL HG).
    - intros u s j x w Hp Hrd Hin Hk Hrun. destruct x as [|t x|t e]; try discriminate. apply negb_false_iff in Hk.
      apply alts_In in Hin as [[E _]|[(t' & a' & E & Hin)|(t' & e' & E & _)]]; try discriminate. injection E as <- <-.
      assert (Hs := trans_range _ _ _ Hin). rewrite !HN in Hk by lia.
      destruct Hrun as (c & v & Hc & _ & u2 & v2 & j' & _ & Hp2 & Hr2 & _). apply canb_iff in Hc as [Hc1 Hc2].
      assert (Hj : j < length T) by (apply nth_error_Some; congruence).
      apply orb_true_iff in Hk as [Hk|Hk]; apply negb_true_iff in Hk.
      + assert (Hm : marked a s); [|congruence]. apply Ha. eapply path_star; [reflexivity| |exact Hp].
        intros e He. assert (G := reads_not_end _ _ _ _ Hrd Hj). destruct e; try reflexivity. contradiction.
      + assert (Hm : marked b s); [|congruence]. apply Hb.
        rewrite <- (star_rev (fun s => succ_eps n not_start s ++ succ_trans n s)) by (intros; symmetry; apply pred_all_In).
        apply (path_star check n not_start s (IC c :: u2)); [reflexivity| |].
        * intros e [E|He]; [discriminate|]. assert (G := reads_not_start _ _ _ _ Hr2 ltac:(lia)). destruct e; try reflexivity. contradiction.
        * eapply p_sym; eauto.
    - assumption.
  Qed.

  (** *** Renumbering *)
  Lemma map_edges (f : nat -> nat) (st : state A) : edges (map_targets f st) = flat_map (ren f (fun a => a) [AAcc]) (edges st).
  Proof.
    unfold edges, map_targets. cbn. rewrite flat_map_app, !map_map. cbn. f_equal.
    - induction (trans st) as [|[t a] l IH]; cbn; congruence.
    - induction (eps st) as [|[t a] l IH]; cbn; congruence.
  Qed.
  Lemma rd_keeps n dead : length dead = length n -> closed n dead -> live dead 0 -> live dead (length n - 1) ->
    keeps check n (remove_dead_states dead n).
  Proof.
    intros HL HC H0 H1 T K i r HK Hi H. rewrite <- (new_zero n dead HL HC H0).
    apply (ren_ev check check T n _ K K (new n dead) (fun a => a) [AAcc] (fun s => live dead s)); auto.
    - intros s t Hs. split; intros x Hx; [eapply (proj2 (HC s t Hs))|eapply (proj1 (HC s t Hs))]; eauto.
    - intros s Hs. unfold alts. rewrite rd_get_live, rd_length, map_edges, flat_map_app by assumption. f_equal.
      destruct (new_last n dead HL HC H1) as [E _]. destruct (Nat.eqb_spec s (length n - 1)) as [->|Hn].
      + rewrite E, Nat.eqb_refl. reflexivity.
      + destruct (Nat.eqb_spec (new n dead s) (length (lives 0 dead) - 1)) as [E2|]; [|reflexivity].
        rewrite <- E in E2. apply (new_inj n dead) in E2; auto. congruence.
    - intros j r' Hj. apply ev_one. now apply e_acc.
  Qed.
  Lemma unreachable_keeps n n' : wf n -> 1 <= length n -> remove_unreachable n = Ok n' -> conn n 0 (length n - 1) -> keeps check n n'.
  Proof.
    intros Hw Hl. unfold remove_unreachable, reachable_start, reachable_end.
    destruct (reach_from_spec (succ_all n) (length n) 0) as (a & Ea & Hal & Ha); [lia|intros x y; now apply succ_all_lt|].
    destruct (reach_from_spec (pred_all n any_eps) (length n) (length n - 1)) as (b & Eb & Hbl & Hb); [lia|intros x y; apply pred_all_lt|].
    fold (succ_all n). change (fun s => succ_eps n any_eps s ++ succ_trans n s) with (succ_all n).
    rewrite Ea, Eb. cbn [bind]. intros E Hc. injection E as <-.
    set (dead := map _ (combine a b)). set (m := map _ n).
    assert (Hb' : forall s, marked b s <-> conn n s (length n - 1)).
    { intros s. rewrite Hb. symmetry. apply star_rev. intros. symmetry. apply pred_all_In. }
    assert (Hm : length m = length n) by (unfold m; apply map_length).
    assert (Hd : length dead = length m) by (rewrite Hm; unfold dead; rewrite map_length, combine_length; lia).
    assert (HG : forall s, get m s = mkState (filter (fun t => nth (fst t) a false && nth (fst t) b false) (trans (get n s)))
                                             (filter (fun t => nth (fst t) a false && nth (fst t) b false) (eps (get n s)))).
    { intros s. unfold m. apply (get_map n (fun s => mkState (filter (fun t => nth (fst t) a false && nth (fst t) b false) (trans s))
                                             (filter (fun t => nth (fst t) a false && nth (fst t) b false) (eps s)))). reflexivity. }
    assert (HLv : forall s, live dead s <-> conn n 0 s /\ conn n s (length n - 1)).
    { intros s. unfold live. destruct (Nat.lt_ge_cases s (length n)) as [Hs|Hs].
      - unfold dead. set (F := fun p : bool * bool => negb (fst p) || negb (snd p)).
        rewrite (nth_indep _ _ (F (false, false))) by (rewrite map_length, combine_length; lia).
        rewrite map_nth, combine_nth by lia. unfold F. cbn. rewrite orb_false_iff, !negb_false_iff, Hb'. unfold conn. now rewrite Ha.
      - rewrite nth_overflow by lia. split; [discriminate|]. intros [H _]. apply conn_lt in H; auto; lia. }
    assert (HC : closed m dead).
    { intros s t _. split; intros e H; rewrite HG in H; cbn in H; apply filter_In in H as [_ H]; cbn in H; rewrite HLv;
      rewrite andb_true_iff, Hb' in H; unfold conn in *; now rewrite Ha in H. }
    eapply keeps_trans; [|apply rd_keeps; auto; [apply HLv; split; [constructor|assumption]|rewrite Hm; apply HLv; split; [assumption|constructor]]].
    intros T K i r' HK Hi. eapply (drop_ev check T n m K i).
    - exact (filter_alts n m (fun _ t => nth (fst t) a false && nth (fst t) b false) (fun _ t => nth (fst t) a false && nth (fst t) b false) Hm HG).
    - intros u s j x w Hp Hrd Hin Hk Hrun. apply path_conn in Hp.
      assert (G : forall t, nth t a false && nth t b false = false -> In t (succ_all n s) -> conn n t (length n - 1) -> False).
      { intros t Ht Hs Hct. apply andb_false_iff in Ht as [Ht|Ht].
        - assert (Hma : marked a t) by (apply Ha; eapply star_snoc; eauto). congruence.
        - apply Hb' in Hct. congruence. }
      apply alts_In in Hin as [[E _]|[(t' & a' & E & Hin)|(t' & e' & E & Hin)]]; subst x; [discriminate| |]; cbn in Hk.
      + destruct Hrun as (c & v & _ & _ & u2 & v2 & j' & _ & Hp2 & _). apply path_conn in Hp2. eapply G; eauto. eapply succ_all_trans; eauto.
      + destruct Hrun as (v & _ & _ & u2 & v2 & j' & _ & Hp2 & _). apply path_conn in Hp2. eapply G; eauto. eapply succ_all_eps; eauto.
    - assumption.
  Qed.
End Passes.
