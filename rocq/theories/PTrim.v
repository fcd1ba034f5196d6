(** [optimize] keeps every state on a way from the first to the last one, and [remove_unreachable] then has nothing to do. *)
From Verif Require Export PReduced PPrioOpt.
From Coq Require Import ZifyBool ZifyNat.
Open Scope nat_scope.
Open Scope list_scope.
Set Default Proof Using "Type".

Section Trim.
  Context {A : Type}.
  Variable check : A -> N -> bool.
  Variable eqA : A -> A -> bool.
  Variable good : A -> Prop.
  Hypothesis eqA_sound : forall a b, good a -> good b -> eqA a b = true -> forall c, check a c = check b c.
  Implicit Types n m : nfa A.

  Lemma steps_on_way n l : incl l (seq 1 (length n - 2)) -> forall b, goods good n -> oinv check n b -> on_way (fst (fst b)) (snd (fst b)) ->
    exists acc, foldM (optimize_step eqA) l b = Ok acc /\ oinv check n acc /\ on_way (fst (fst acc)) (snd (fst acc)).
  Proof using eqA_sound.
    intros Hl b Hg Hb Hw.
    destruct (foldM_inv (optimize_step eqA) (fun acc => oinv check n acc /\ on_way (fst (fst acc)) (snd (fst acc))) l b) as (acc & E & H1 & H2); eauto.
    intros [[m dead] c] a [Ho Hm] Ha. destruct (step_spec check eqA good eqA_sound n (m, dead, c) a) as ([[m' dead'] c'] & E & Ho'); auto.
    exists (m', dead', c'). split; [exact E|]. split; [exact Ho'|]. cbn in *. destruct Ho as [S1 L1 _ _ _ _]. cbn in *. destruct S1 as [L2 _ _ _ _ _].
    apply Hl in Ha. apply in_seq in Ha. eapply (step_on_way eqA) in E; [apply E| | |]; [lia|lia|assumption].
  Qed.
  Lemma pass_trimmed n n' ch : goods good n -> ok n -> 2 <= length n -> trimmed n -> optimize_pass eqA n = Ok (n', ch) -> trimmed n'.
  Proof using eqA_sound.
    intros Hgd Hok Hl Ht. unfold optimize_pass. destruct (Nat.leb_spec 2 (length n)); [|lia]. cbn [guard bind].
    assert (Hr : forall d, d < length n -> live (repeat false (length n)) d).
    { intros d Hd. unfold live. rewrite (nth_indep _ _ false) by now rewrite repeat_length. apply nth_repeat_false. }
    assert (Hinv0 : oinv check n (n, repeat false (length n), false)).
    { split; cbn.
      + now apply stp_refl.
      + apply repeat_length.
      + apply Hr. lia.
      + apply Hr. lia.
      + intros d Hd Hn. destruct Hn. auto.
      + rewrite lsz_none. lia. }
    destruct (steps_on_way n (seq 1 (length n - 2)) (incl_refl _) _ Hgd Hinv0) as ([[m dead] chm] & E & Hinv & Hw).
    { cbn. intros s Hs. apply Ht. unfold live in Hs. destruct (Nat.lt_ge_cases s (length n)); [assumption|]. rewrite nth_overflow in Hs by (rewrite repeat_length; lia). discriminate Hs. }
    rewrite E. cbn [bind]. destruct Hinv as [H1 H2 H3 H4 H5 H6]. cbn in *. destruct H1 as [L1 O1 G1 I1 S1 M1]. 
    assert (Hd : length dead = length m) by lia. assert (HC : closed m dead).
    { intros s t _. split; intros e He; (destruct (live_dec dead t) as [|Hd']; [assumption|exfalso]).
      + apply H5 in Hd'; [|rewrite <- L1; eapply wf_eps; [apply O1|exact He]]. destruct Hd' as [_ Hd']. now apply Hd' in He.
      + apply H5 in Hd'; [|rewrite <- L1; eapply wf_trans; [apply O1|exact He]]. destruct Hd' as [_ Hd']. destruct (Hd' s ENone) as [_ Hd'']. now apply Hd'' in He. }
    destruct chm; intros E'.
    - assert (n' = remove_dead_states dead m) as -> by congruence. 
      assert (HS : forall s t, conn m s t -> live dead s -> conn (remove_dead_states dead m) (new m dead s) (new m dead t)).
      { intros s t Hc. induction Hc as [s|s t u Hs Hc IH]; intros Hv; [constructor|]. destruct (HC s t Hv) as [C1 C2].
        apply succ_all_inv in Hs as [(e & He)|(a & He)].
        - eapply Relation_Operators.rt1n_trans; [|apply IH; eauto]. eapply succ_all_eps. apply (rd_edge_eps m dead Hd HC); eauto.
        - eapply Relation_Operators.rt1n_trans; [|apply IH; eauto]. eapply succ_all_trans. apply (rd_edge_trans m dead Hd HC); eauto. }
      rewrite <- L1 in H4. assert (Hlast := new_last m dead Hd HC H4). assert (Hzero := new_zero m dead Hd HC H3).
      intros k Hk. rewrite rd_length in Hk by assumption. destruct (old_live m dead Hd k Hk) as [X1 X2]. destruct (Hw _ X1) as [W1 W2].
      rewrite rd_length by assumption. rewrite <- (proj1 Hlast). rewrite <- Hzero at 1. rewrite <- X2. auto.
    - assert (n' = m) as -> by congruence. apply (steps_settled eqA) in E as [-> _]. assumption.
  Qed.
  Lemma optimize_trimmed fuel : forall n n', goods good n -> ok n -> 2 <= length n -> trimmed n -> optimize eqA fuel n = Ok n' -> trimmed n'.
  Proof using eqA_sound.
    induction fuel as [|f IH]; intros n n' Hgd Hok Hl Ht; cbn [optimize]; [discriminate|]. destruct (wfb n); cbn [guard bind]; [|discriminate].
    destruct (pass_spec check eqA good eqA_sound n Hgd Hok Hl) as (m & ch & Ep & Om & Lm & Gm & Sm & Mm & Zm). rewrite Ep. cbn [bind].
    assert (K1 := pass_trimmed n m ch Hgd Hok Hl Ht Ep). destruct ch.
    - apply IH; eauto. exact (Sm good Hgd).
    - intros E. assert (n' = m) as -> by congruence. assumption.
  Qed.
End Trim.

Section Whole.
  Context {A : Type}.
  Implicit Types n m : nfa A.
  Lemma nth_repeat_lt {B} (x d : B) k j : k < j -> nth k (repeat x j) d = x.
  Proof. revert k; induction j as [|j IH]; intros k H; [lia|]. destruct k; cbn; [reflexivity|]. apply IH. lia. Qed.
  Lemma lives_all k d : lives k (repeat false d) = seq k d.
  Proof. revert k; induction d as [|d IH]; intros k; cbn; [reflexivity|]. now rewrite IH. Qed.
  Lemma filter_whole {B} (f : B -> bool) l : (forall x, In x l -> f x = true) -> filter f l = l.
  Proof. induction l as [|x l IH]; intros H; cbn; [reflexivity|]. rewrite (H x) by now left. f_equal. apply IH. intros y Hy. apply H. now right. Qed.
  Lemma rd_all n : wf n -> remove_dead_states (repeat false (length n)) n = n.
  Proof.
    intros Hw. assert (HL : length (repeat false (length n)) = length n) by apply repeat_length.
    assert (Hn : forall t, t < length n -> new n (repeat false (length n)) t = t).
    { intros t Ht. assert (H : nth_error (lives 0 (repeat false (length n))) t = Some t).
      { rewrite lives_all. rewrite (nth_error_nth' _ 0) by now rewrite seq_length. now rewrite seq_nth. }
      apply (state_map_iff 0 0 _ t t) in H. cbn in H. unfold new, remap. now rewrite H. }
    apply nth_ext with (d := empty_state) (d' := empty_state).
    - rewrite rd_length by assumption. now rewrite lives_all, seq_length.
    - intros k Hk. rewrite rd_length, lives_all, seq_length in Hk by assumption.
      change (get (remove_dead_states (repeat false (length n)) n) k = get n k). rewrite rd_get by (auto; now rewrite lives_all, seq_length).
      assert (Ho : old n (repeat false (length n)) k = k) by (unfold old; rewrite lives_all; now rewrite seq_nth). rewrite Ho.
      assert (H1 := wf_eps n k). assert (H2 := wf_trans n k). destruct (get n k) as [tr ep]. cbn in *. unfold map_targets. cbn. f_equal; rewrite <- map_id; apply map_ext_in; intros [t x] Hx; cbn; rewrite Hn; eauto.
  Qed.
  Lemma remove_unreachable_trimmed n : wf n -> 1 <= length n -> trimmed n -> remove_unreachable n = Ok n.
  Proof.
    intros Hw Hl Ht. unfold remove_unreachable, reachable_start, reachable_end.
    destruct (reach_from_spec (succ_all n) (length n) 0) as (a & Ea & Hal & Ha); [lia|intros x y; now apply succ_all_lt|].
    destruct (reach_from_spec (pred_all n any_eps) (length n) (length n - 1)) as (b & Eb & Hbl & Hb); [lia|intros x y; apply pred_all_lt|].
    change (fun s => succ_eps n any_eps s ++ succ_trans n s) with (succ_all n).
    rewrite Ea, Eb. cbn [bind].
    assert (Ha' : a = repeat true (length n)).
    { apply nth_ext with (d := false) (d' := false); [now rewrite repeat_length|]. intros k Hk. rewrite Hal in Hk. rewrite nth_repeat_lt by assumption. apply Ha. now apply Ht. }
    assert (Hb' : b = repeat true (length n)).
    { apply nth_ext with (d := false) (d' := false); [now rewrite repeat_length|]. intros k Hk. rewrite Hbl in Hk. rewrite nth_repeat_lt by assumption. apply Hb.
      apply (star_rev (succ_all n)); [intros; symmetry; apply pred_all_In|]. now apply Ht. }
    assert (HK : forall t, t < length n -> nth t a false && nth t b false = true).
    { intros t H. rewrite Ha', Hb'. rewrite !nth_repeat_lt by assumption. reflexivity. }
    f_equal. replace (map _ (combine a b)) with (repeat false (length n)).
    - replace (map _ n) with n; [now apply rd_all|]. rewrite <- (map_id n) at 1. apply map_ext_in. intros s Hs. apply (In_nth _ _ empty_state) in Hs as (k & Hk & Es).
      change (get n k = s) in Es. assert (H1 := wf_eps n k). assert (H2 := wf_trans n k). rewrite Es in H1, H2. destruct s as [tr ep]. cbn in *. f_equal; symmetry; apply filter_whole; intros [t x] Hx; apply HK; eauto.
    - rewrite Ha', Hb'. clear. induction (length n) as [|d IH]; cbn; [reflexivity|]. now rewrite <- IH.
  Qed.
  (** Removing states keeps the edges of the others distinct. *)
  Lemma remove_unreachable_NoDup n n' : wf n -> 1 <= length n -> remove_unreachable n = Ok n' -> (forall s, NoDup (eps (get n s))) -> forall s, NoDup (eps (get n' s)).
  Proof.
    intros Hw Hl. unfold remove_unreachable, reachable_start, reachable_end.
    destruct (reach_from_spec (succ_all n) (length n) 0) as (a & Ea & Hal & Ha); [lia|intros x y; now apply succ_all_lt|].
    destruct (reach_from_spec (pred_all n any_eps) (length n) (length n - 1)) as (b & Eb & Hbl & Hb); [lia|intros x y; apply pred_all_lt|].
    change (fun s => succ_eps n any_eps s ++ succ_trans n s) with (succ_all n).
    rewrite Ea, Eb. cbn [bind]. set (dead := map _ (combine a b)). set (m := map _ n). intros E HN s. injection E as <-.
    assert (Hm : length m = length n) by (unfold m; apply map_length).
    assert (Hd : length dead = length m) by (rewrite Hm; unfold dead; rewrite map_length, combine_length; lia).
    assert (HG : forall s, get m s = mkState (filter (fun t => nth (fst t) a false && nth (fst t) b false) (trans (get n s)))
                                             (filter (fun t => nth (fst t) a false && nth (fst t) b false) (eps (get n s)))).
    { intros s0. unfold m. apply (get_map n (fun s => mkState (filter (fun t => nth (fst t) a false && nth (fst t) b false) (trans s))
                                             (filter (fun t => nth (fst t) a false && nth (fst t) b false) (eps s)))). reflexivity. }
    assert (HV : forall t, t < length n -> nth t a false && nth t b false = true -> live dead t).
    { intros t Ht H. apply andb_true_iff in H as [H1 H2].
      unfold live, dead. set (F := fun p : bool * bool => negb (fst p) || negb (snd p)).
      rewrite (nth_indep _ _ (F (false, false))) by (rewrite map_length, combine_length; lia).
      rewrite map_nth, combine_nth by lia. unfold F. cbn. now rewrite H1, H2. }
    assert (HE : forall s t e, In (t, e) (eps (get m s)) -> live dead t).
    { intros s0 t e. rewrite HG. cbn. rewrite filter_In. cbn. intros [Ht H]. apply HV; auto. eapply wf_eps; eauto. }
    assert (HC : closed m dead).
    { intros s0 t _. split; [intros e He; eauto|]. intros e. rewrite HG. cbn. rewrite filter_In. cbn. intros [Ht H]. apply HV; auto. eapply wf_trans; eauto. }
    destruct (Nat.lt_ge_cases s (length (lives 0 dead))) as [Hs|Hs]; [|rewrite get_over by (rewrite rd_length; assumption); constructor].
    rewrite rd_get by assumption. cbn [map_targets eps]. set (o := old m dead s). specialize (HN o). assert (HE' := HE o). rewrite HG in *. cbn [eps] in *.
    apply (NoDup_filter (fun t => nth (fst t) a false && nth (fst t) b false)) in HN. revert HN HE'. generalize (filter (fun t : nat * epsk => nth (fst t) a false && nth (fst t) b false) (eps (get n o))). intros l.
    induction l as [|[t e] l IH]; intros HN HE'; [constructor|]. inversion HN as [|? ? N1 N2]; subst. cbn [map]. constructor; [|apply IH; auto; intros; eapply HE'; right; eauto].
    intros Hi. apply in_map_iff in Hi as ([t' e'] & E & Hi). cbn in E. injection E as E1 E2. subst e'. apply N1. apply (new_inj m dead Hd HC) in E1; [now subst t'| |]; eapply HE'; [right|left]; eauto.
  Qed.
End Whole.
