(** Minimisation of the untagged DFA. *)
From Verif Require Export PSplit.
From Coq Require Import ZifyBool ZifyNat ZifyN Sorted.
Open Scope nat_scope.
Open Scope list_scope.
Set Default Proof Using "Type".

Lemma remove_at_length {A} (l : list A) : forall i, i < length l -> length (remove_at i l) = length l - 1.
Proof. induction l as [|x l IH]; intros [|i] Hi; cbn in *; try lia. rewrite IH by lia. lia. Qed.
Lemma remove_at_nth {A} (d : A) l : forall i k, i < length l -> nth k (remove_at i l) d = nth (if k <? i then k else S k) l d.
Proof.
  induction l as [|x l IH]; intros [|i] k Hi; cbn [length] in Hi; try lia; [reflexivity|].
  cbn [remove_at]. destruct k as [|k]; [reflexivity|]. cbn [nth]. rewrite IH by lia.
  change (S k <? S i) with (k <? i). now destruct (k <? i).
Qed.
(** Every transition leads to a state. *)
Definition dvalid (d : dfa) : Prop := forall s t, In s (d_start d :: d_states d) -> In t (ds_trans s) -> fst t < length (d_states d).
Definition dlabel (d : dfa) (s : option nat) : Prop := match s with None => True | Some i => i < length (d_states d) end.
Lemma d_get_In d s : dlabel d s -> In (d_get d s) (d_start d :: d_states d).
Proof. destruct s as [i|]; cbn; [|auto]. intros H. right. now apply nth_In. Qed.
Definition dnone : dstate := mkDS DNone [].

Section Merge.
  Variable d : dfa.
  Variables k m : nat.
  Hypothesis Hk : k < m.
  Hypothesis Hm : m < length (d_states d).
  Hypothesis Hv : dvalid d.
  Hypothesis He : nth k (d_states d) dnone = nth m (d_states d) dnone.
  Let f := merge_target k m.
  Let d' := merge_states d k m.
  Lemma merge_length : length (d_states d') = length (d_states d) - 1.
  Proof using Hm. unfold d', merge_states. cbn [d_states]. rewrite map_length. now apply remove_at_length. Qed.
  Lemma map_none : map_dtrans f dnone = dnone.
  Proof. reflexivity. Qed.
  Lemma merge_nth i : i < m -> nth i (d_states d') dnone = map_dtrans f (nth i (d_states d) dnone).
  Proof using Hk Hm.
    intros Hi. unfold d', merge_states. cbn [d_states]. rewrite <- map_none at 1. rewrite map_nth. f_equal. rewrite remove_at_nth by assumption.
    destruct (Nat.ltb_spec i m); [reflexivity|lia].
  Qed.
  Lemma merge_get s : dlabel d s -> d_get d' (option_map f s) = map_dtrans f (d_get d s).
  Proof using Hk Hm He.
    destruct s as [i|]; [|reflexivity]. cbn [dlabel option_map d_get]. fold dnone. intros Hi. unfold f at 1, merge_target.
    destruct (Nat.eqb_spec i m) as [->|Hne]; [rewrite merge_nth by assumption; now rewrite He|].
    destruct (Nat.ltb_spec m i) as [Hlt|Hge]; [|apply merge_nth; lia].
    unfold d', merge_states. cbn [d_states]. rewrite <- map_none at 1. rewrite map_nth. f_equal. rewrite remove_at_nth by assumption.
    destruct (Nat.ltb_spec (i - 1) m); [lia|]. f_equal. lia.
  Qed.
  Lemma merge_valid : dvalid d'.
  Proof using Hk Hm Hv.
    intros s t Hs Ht. rewrite merge_length. unfold d', merge_states in Hs. cbn [d_start d_states] in Hs.
    assert (G : exists s0, In s0 (d_start d :: d_states d) /\ s = map_dtrans f s0).
    { destruct Hs as [<-|Hs]; [exists (d_start d); split; [now left|reflexivity]|]. apply in_map_iff in Hs as (s0 & <- & Hs).
      exists s0. split; [|reflexivity]. right. clear - Hs. revert Hs. generalize m. induction (d_states d) as [|x l IH]; intros i Hs; [destruct i; destruct Hs|].
      destruct i; cbn in *; [now right|]. destruct Hs as [->|Hs]; [now left|right; eauto]. }
    destruct G as (s0 & Hs0 & ->). cbn [map_dtrans ds_trans] in Ht. apply in_map_iff in Ht as (t0 & <- & Ht0). cbn [fst].
    specialize (Hv s0 t0 Hs0 Ht0). unfold f, merge_target. destruct (Nat.eqb_spec (fst t0) m); [lia|]. destruct (Nat.ltb_spec m (fst t0)); lia.
  Qed.
  Lemma find_map_trans g l : find (fun t : nat * range => in_range g (snd t)) (map (fun t => (f (fst t), snd t)) l) =
    option_map (fun t => (f (fst t), snd t)) (find (fun t => in_range g (snd t)) l).
  Proof. induction l as [|[t r] l IH]; [reflexivity|]. cbn [map find snd fst]. destruct (in_range g r); [reflexivity|exact IH]. Qed.
  Lemma merge_loop bytes : forall s, dlabel d s -> dfa_test_loop d' (option_map f s) bytes = dfa_test_loop d s bytes.
  Proof using Hk Hm Hv He.
    induction bytes as [|c bytes IH]; intros s Hs; cbn [dfa_test_loop]; rewrite merge_get by assumption; [reflexivity|].
    cbn [map_dtrans ds_acc ds_trans]. rewrite find_map_trans. destruct (find (fun t => in_range c (snd t)) (ds_trans (d_get d s))) as [[t r]|] eqn:Ef; cbn [option_map]; [|reflexivity].
    apply find_some in Ef as [Ef _]. assert (Ht := Hv _ _ (d_get_In d s Hs) Ef). cbn [fst snd] in *. specialize (IH (Some t) Ht). cbn [option_map] in IH. now rewrite IH.
  Qed.
  Lemma merge_run bytes : dfa_run_test d' bytes = dfa_run_test d bytes.
  Proof using Hk Hm Hv He. unfold dfa_run_test. rewrite (merge_loop bytes None I : dfa_test_loop d' None bytes = _). reflexivity. Qed.
End Merge.

(** The pairs to merge, highest first. *)
Definition mergeable (d : dfa) (ms : list (nat * nat)) : Prop :=
  StronglySorted (fun a b => fst b < fst a) ms /\
  Forall (fun p => snd p < fst p /\ fst p < length (d_states d) /\ nth (snd p) (d_states d) dnone = nth (fst p) (d_states d) dnone) ms.
Lemma remove_at_In {A} (l : list A) x : forall i, In x (remove_at i l) -> In x l.
Proof. induction l as [|y l IH]; intros [|i] H; cbn in *; auto. destruct H as [H|H]; eauto. Qed.
Lemma merge_pass ms : forall d, dvalid d -> mergeable d ms ->
  exists d', foldM merge_checked ms d = Ok d' /\ dvalid d' /\ (forall s, In s (d_start d' :: d_states d') -> exists s0, In s0 (d_start d :: d_states d) /\ map snd (ds_trans s) = map snd (ds_trans s0)) /\ length (d_states d') + length ms = length (d_states d) /\ forall bytes, dfa_run_test d' bytes = dfa_run_test d bytes.
Proof.
  induction ms as [|[m k] ms IH]; intros d Hv [Hs Hf]; cbn [foldM]; [exists d; split; [reflexivity|]; split; [assumption|]; split; [eauto|]; cbn; split; [lia|reflexivity]|].
  inversion Hs as [|a b Hs' Ha]; subst. inversion Hf as [|a b (Hk & Hm & He) Hf']; subst. cbn [fst snd] in *.
  unfold merge_checked at 1. cbn [fst snd]. rewrite (proj2 (Nat.ltb_lt _ _) Hk), (proj2 (Nat.ltb_lt _ _) Hm). cbn [andb guard bind].
  destruct (IH (merge_states d k m)) as (d' & I0 & I1 & I4 & I2 & I3).
  - now apply merge_valid.
  - split; [assumption|]. rewrite merge_length by assumption. rewrite Forall_forall in *. intros [m' k'] Hin. specialize (Hf' _ Hin). specialize (Ha _ Hin). cbn [fst snd] in *.
    destruct Hf' as (F1 & F2 & F3). split; [assumption|]. split; [lia|]. rewrite !merge_nth by lia. now rewrite F3.
  - exists d'. split; [exact I0|]. split; [assumption|]. split; [|split; [rewrite merge_length in I2 by assumption; cbn [length]; lia|intros bytes; rewrite I3; now apply merge_run]].
    intros s Hin. destruct (I4 s Hin) as (s0 & [<-|H0] & ->).
    + exists (d_start d). split; [now left|]. cbn. rewrite map_map. reflexivity.
    + cbn [merge_states d_states] in H0. apply in_map_iff in H0 as (s1 & <- & H1). exists s1. split; [right; eapply remove_at_In; eauto|]. cbn. rewrite map_map. reflexivity.
Qed.
Lemma dacc_eqb_iff a b : dacc_eqb a b = true <-> a = b.
Proof. destruct a, b; cbn; intuition congruence. Qed.
Lemma dtr_eqb_iff a b : dtr_eqb a b = true <-> a = b.
Proof.
  destruct a as [t [x y]], b as [t' [x' y']]. unfold dtr_eqb, range_eqb. cbn [fst snd]. split.
  - intros H. f_equal; [lia|]. f_equal; lia.
  - intros H. injection H as -> -> ->. lia.
Qed.
Lemma dstate_eqb_iff a b : dstate_eqb a b = true <-> a = b.
Proof.
  destruct a as [a la], b as [b lb]. unfold dstate_eqb. cbn [ds_acc ds_trans]. rewrite andb_true_iff, dacc_eqb_iff, (list_eqb_eq dtr_eqb dtr_eqb_iff). split.
  - intros [-> ->]. reflexivity.
  - intros H. now injection H as -> ->.
Qed.
Lemma index_of_some {A} (p : A -> bool) l : forall i, index_of p l = Some i -> exists x, nth_error l i = Some x /\ p x = true.
Proof.
  induction l as [|x l IH]; intros i H; [discriminate|]. cbn in H. destruct (p x) eqn:E; [injection H as <-; exists x; auto|].
  destruct (index_of p l) as [j|]; [|discriminate]. injection H as <-. now apply IH.
Qed.
Lemma index_of_first {A} (p : A -> bool) l : forall i, index_of p l = Some i -> forall j x, j < i -> nth_error l j = Some x -> p x = false.
Proof.
  induction l as [|x l IH]; intros i H j y Hj Hy; [discriminate|]. cbn in H. destruct (p x) eqn:E; [injection H as <-; lia|].
  destruct (index_of p l) as [i'|]; [|discriminate]. injection H as <-. destruct j; [cbn in Hy; congruence|]. eapply IH; [reflexivity| |exact Hy]. lia.
Qed.
Lemma index_of_none {A} (p : A -> bool) l : index_of p l = None <-> forall x, In x l -> p x = false.
Proof.
  induction l as [|x l IH]; cbn; [split; [intros _ y []|reflexivity]|]. destruct (p x) eqn:E.
  - split; [discriminate|]. intros H. specialize (H x (or_introl eq_refl)). congruence.
  - destruct (index_of p l) as [i|]; cbn.
    + split; [discriminate|]. intros H. assert (C : Some i = None) by (apply IH; intros y Hy; apply H; now right). discriminate.
    + split; [|reflexivity]. intros _ y [<-|Hy]; [assumption|]. now apply IH.
Qed.
Lemma SS_rev {A} (R S : A -> A -> Prop) l : (forall x y, R x y -> S y x) -> StronglySorted R l -> StronglySorted S (rev l).
Proof.
  intros H. induction 1 as [|x l Hs IH Hf]; cbn; [constructor|]. clear Hs.
  assert (G : Forall (fun y => S y x) (rev l)) by (apply Forall_rev; eapply Forall_impl; [|exact Hf]; auto).
  revert IH G. clear. induction (rev l) as [|y r IHr]; intros Hs Hg; cbn; [repeat constructor|].
  inversion Hs; subst. inversion Hg; subst. constructor; [auto|]. apply Forall_app. split; [assumption|]. constructor; auto.
Qed.
Lemma merges_mergeable d : mergeable d (rev (merges (d_states d))).
Proof.
  unfold mergeable, merges. set (l := d_states d). set (F := fun p : nat * dstate => let '(i, s) := p in _). split.
  - apply SS_rev with (R := fun a b => fst a < fst b); [auto|].
    assert (G : forall ps, StronglySorted (fun a b : nat * dstate => fst a < fst b) ps -> StronglySorted (fun a b => fst a < fst b) (flat_map F ps)).
    { induction 1 as [|[i s] ps Hs IH Hf]; cbn [flat_map]; [constructor|].
      assert (G : Forall (fun q => i < fst q) (flat_map F ps)).
      { apply Forall_forall. intros q Hq. apply in_flat_map in Hq as ([j s'] & Hj & Hq). rewrite Forall_forall in Hf. specialize (Hf _ Hj). cbn [fst] in Hf. unfold F in Hq.
        destruct (index_of (dstate_eqb s') l) as [h|]; [|destruct Hq]. destruct (h <? j); [|destruct Hq]. destruct Hq as [<-|[]]. cbn. assumption. }
      unfold F at 1. destruct (index_of (dstate_eqb s) l) as [h|]; [|assumption]. destruct (h <? i); [|assumption]. cbn. constructor; assumption. }
    apply G. unfold enumerate. clear. generalize 0. induction l as [|x l IH]; intros b; cbn; [constructor|]. constructor; [apply IH|].
    apply Forall_forall. intros [i y] Hi. apply in_combine_l in Hi. apply in_seq in Hi. cbn [fst]. lia.
  - apply Forall_rev, Forall_forall. intros [m k] Hin. apply in_flat_map in Hin as ([i s] & Hi & Hin). unfold F in Hin.
    destruct (index_of (dstate_eqb s) l) as [j|] eqn:Ej; [|destruct Hin]. destruct (Nat.ltb_spec j i); [|destruct Hin]. destruct Hin as [E|[]]. injection E as -> ->. cbn [fst snd].
    apply In_enumerate in Hi. split; [assumption|]. split; [apply nth_error_Some; congruence|].
    apply index_of_some in Ej as (x & Ex & Hx). apply dstate_eqb_iff in Hx. subst x.
    rewrite (nth_error_nth _ _ dnone Ex). symmetry. apply (nth_error_nth _ _ dnone Hi).
Qed.
Lemma merges_nil_NoDup l : merges l = [] <-> NoDup l.
Proof.
  unfold merges. set (F := fun p : nat * dstate => let '(i, s) := p in _). split.
  - intros H. apply NoDup_nth_error. intros i j Hi E. destruct (Nat.eq_dec i j) as [|Hne]; [assumption|]. exfalso.
    assert (G : forall i j, i < j -> j < length l -> nth_error l i = nth_error l j -> False).
    { clear - H. intros i j Hij Hj E. destruct (nth_error l j) as [s|] eqn:Es; [|apply nth_error_None in Es; lia].
      assert (Hin : In (j, s) (enumerate l)) by now apply In_enumerate.
      destruct (index_of (dstate_eqb s) l) as [h|] eqn:Eh.
      - assert (h <= i). { destruct (Nat.le_gt_cases h i); [assumption|]. assert (X := index_of_first _ _ _ Eh i s ltac:(lia) E). rewrite (proj2 (dstate_eqb_iff s s) eq_refl) in X. discriminate. }
        assert (X : In (j, h) (flat_map F (enumerate l))). { apply in_flat_map. exists (j, s). split; [assumption|]. unfold F. rewrite Eh. destruct (Nat.ltb_spec h j); [now left|lia]. }
        rewrite H in X. destruct X.
      - rewrite index_of_none in Eh. specialize (Eh s (nth_error_In _ _ E)). rewrite (proj2 (dstate_eqb_iff s s) eq_refl) in Eh. discriminate. }
    assert (Hj : j < length l) by (apply nth_error_Some; rewrite <- E; now apply nth_error_Some).
    destruct (Nat.lt_ge_cases i j); [eapply G; eauto|]. apply (G j i); auto. lia.
  - intros Hn. destruct (flat_map F (enumerate l)) as [|[m k] r] eqn:E; [reflexivity|]. exfalso.
    assert (X : In (m, k) (flat_map F (enumerate l))) by (rewrite E; now left). apply in_flat_map in X as ([i s] & Hi & X). unfold F in X.
    destruct (index_of (dstate_eqb s) l) as [h|] eqn:Eh; [|destruct X]. destruct (Nat.ltb_spec h i); [|destruct X]. destruct X as [X|[]]. injection X as -> ->.
    apply In_enumerate in Hi. apply index_of_some in Eh as (x & Ex & Hx). apply dstate_eqb_iff in Hx. subst x.
    rewrite NoDup_nth_error in Hn. assert (k = m); [|lia]. apply Hn; [apply nth_error_Some; congruence|congruence].
Qed.
Lemma sorted_pairs ms : StronglySorted (fun a b : nat * nat => fst b < fst a) (rev ms) -> pairs_sorted ms = true.
Proof.
  intros H. apply (SS_rev _ (fun a b => fst a < fst b)) in H; [|auto]. rewrite rev_involutive in H. induction H as [|x l Hs IH Hf]; [reflexivity|]. cbn [pairs_sorted].
  destruct l as [|y l]; [reflexivity|]. inversion Hf; subst. rewrite IH, (proj2 (Nat.ltb_lt _ _)) by assumption. reflexivity.
Qed.
Lemma minimise_full fuel : forall d, dvalid d -> length (d_states d) <= fuel ->
  exists d', minimise fuel d = Ok d' /\ dvalid d' /\ length (d_states d') <= length (d_states d) /\ NoDup (d_states d') /\
    (forall s, In s (d_start d' :: d_states d') -> exists s0, In s0 (d_start d :: d_states d) /\ map snd (ds_trans s) = map snd (ds_trans s0)) /\
    forall bytes, dfa_run_test d' bytes = dfa_run_test d bytes.
Proof.
  induction fuel as [|f IH]; intros d Hv Hf; cbn [minimise].
  - destruct (merges (d_states d)) as [|p ms] eqn:E.
    + exists d. split; [reflexivity|]. split; [assumption|]. split; [apply le_n|]. split; [now apply merges_nil_NoDup|]. split; [eauto|reflexivity].
    + exfalso. destruct (d_states d); [discriminate|cbn in Hf; lia].
  - destruct (merges (d_states d)) as [|p ms] eqn:E.
    + exists d. split; [reflexivity|]. split; [assumption|]. split; [apply le_n|]. split; [now apply merges_nil_NoDup|]. split; [eauto|reflexivity].
    + assert (Hm := merges_mergeable d). rewrite E in Hm. rewrite (sorted_pairs _ (proj1 Hm)). cbn [guard bind]. destruct (merge_pass _ d Hv Hm) as (d1 & P0 & P1 & P4 & P2 & P3). rewrite P0. cbn [bind].
      rewrite rev_length in P2. cbn [length] in P2.
      destruct (IH _ P1 ltac:(lia)) as (d' & -> & Q1 & Q2 & Q3 & Q5 & Q4). exists d'. split; [reflexivity|]. split; [assumption|]. split; [lia|]. split; [assumption|]. split.
      * intros s Hs. destruct (Q5 s Hs) as (s1 & H1 & ->). destruct (P4 s1 H1) as (s0 & H0 & ->). eauto.
      * intros bytes. now rewrite Q4.
Qed.
Lemma minimise_spec fuel : forall d, dvalid d -> length (d_states d) <= fuel ->
  exists d', minimise fuel d = Ok d' /\ dvalid d' /\ length (d_states d') <= length (d_states d) /\ NoDup (d_states d') /\
    forall bytes, dfa_run_test d' bytes = dfa_run_test d bytes.
Proof. intros d Hv Hf. destruct (minimise_full fuel d Hv Hf) as (d' & H1 & H2 & H3 & H4 & _ & H5). exists d'. auto. Qed.
(** Validation. *)
Definition trans_apart (a b : nat * range) : Prop := (snd (snd a) < fst (snd b))%N.
Lemma validate_trans_spec cnt l : forall prev,
  validate_trans cnt prev l = true -> Forall (fun t => fst t < cnt) l.
Proof.
  induction l as [|[t r] l IH]; intros prev H; cbn [validate_trans] in H; [constructor|]. apply andb_prop in H as [H1 H3]. apply andb_prop in H1 as [H1 H2].
  constructor; [cbn [fst]; lia|]. eapply IH; eauto.
Qed.
Lemma validate_valid d : dfa_validate d = true -> dvalid d.
Proof.
  intros H s t Hs Ht. unfold dfa_validate in H. rewrite forallb_forall in H. specialize (H s Hs). apply validate_trans_spec in H. rewrite Forall_forall in H. now apply H.
Qed.
Lemma validate_trans_intro cnt l : forall prev,
  Forall (fun t => fst t < cnt /\ (fst (snd t) <= snd (snd t))%N) l -> StronglySorted trans_apart l ->
  match prev with None => True | Some p => Forall (fun t : nat * range => (p < fst (snd t))%N) l end -> validate_trans cnt prev l = true.
Proof.
  induction l as [|[t [x y]] l IH]; intros prev Hf Hs Hp; cbn [validate_trans]; [reflexivity|].
  inversion Hf as [|? ? [H1 H2] Hf']; subst. inversion Hs as [|? ? Hs' Ha]; subst. cbn [fst snd] in *. apply andb_true_intro. split; [|apply IH; auto].
  apply andb_true_intro. split; [lia|]. destruct prev as [p|]; [|reflexivity]. inversion Hp; subst. cbn [fst snd] in *. lia.
Qed.
(** Minimising a valid DFA gives a valid one. *)
Lemma validate_same cnt l l' : forall prev, map snd l = map snd l' -> Forall (fun t => fst t < cnt) l -> forall cnt', validate_trans cnt' prev l' = true -> validate_trans cnt prev l = true.
Proof.
  revert l'. induction l as [|[t r] l IH]; intros [|[t' r'] l'] prev E Hf cnt' H; try discriminate; [reflexivity|]. cbn in E. injection E as <- E. inversion Hf as [|? ? F1 F2]; subst. cbn [fst] in *.
  cbn [validate_trans] in *. apply andb_prop in H as [H1 H2]. apply andb_prop in H1 as [_ H1]. rewrite H1, (proj2 (Nat.ltb_lt _ _) F1). cbn [andb]. eapply IH; eauto.
Qed.
Lemma minimise_valid d d' : dfa_validate d = true -> minimise (length (d_states d)) d = Ok d' -> dfa_validate d' = true.
Proof.
  intros Hv Hm. assert (V := validate_valid d Hv). destruct (minimise_full (length (d_states d)) d V (le_n _)) as (d2 & E & V2 & _ & _ & Hs & _). rewrite Hm in E. injection E as <-.
  unfold dfa_validate in *. rewrite forallb_forall in *. intros s Hin. destruct (Hs s Hin) as (s0 & H0 & E0). eapply validate_same; [exact E0| |exact (Hv s0 H0)].
  apply Forall_forall. intros t Ht. exact (V2 s t Hin Ht).
Qed.
Lemma from_tagged_spec d : let b := mkDfa (dstate_of (td_start d)) (map dstate_of (td_states d)) in dfa_validate b = true ->
  exists d', dfa_from_tagged d = Ok d' /\ minimise (length (d_states b)) b = Ok d' /\ dfa_validate d' = true.
Proof.
  intros b Hv. destruct (minimise_full (length (d_states b)) b (validate_valid b Hv) (le_n _)) as (d' & E & _). exists d'. assert (V := minimise_valid b d' Hv E). split; [|split; assumption].
  unfold dfa_from_tagged. fold b. rewrite Hv, E. cbn [bind]. rewrite V. reflexivity.
Qed.
