(** The lockstep engines: [test] decides and [exec] returns the bounds of a readable word. *)
From Verif Require Export PEps Flat.
From Coq Require Import ZifyBool ZifyNat.
Open Scope nat_scope.
Open Scope list_scope.
Set Default Proof Using "Type".

Lemma mapM_spec {A B} (f : A -> res B) (R : A -> B -> Prop) l : (forall x, In x l -> exists y, f x = Ok y /\ R x y) ->
  exists l', mapM f l = Ok l' /\ Forall2 R l l'.
Proof.
  induction l as [|x l IH]; intros H; cbn [mapM]; [exists []; auto|].
  destruct (H x (or_introl eq_refl)) as (y & -> & Hy). destruct IH as (l' & -> & HR); [intros; apply H; now right|].
  exists (y :: l'). split; [reflexivity|now constructor].
Qed.
Lemma Forall2_length {A B} (R : A -> B -> Prop) l m : Forall2 R l m -> length l = length m.
Proof. induction 1; cbn; auto. Qed.
Lemma Forall2_nth {A B} (R : A -> B -> Prop) l m i a b : Forall2 R l m -> i < length l -> R (nth i l a) (nth i m b).
Proof. intros H. revert i. induction H as [|x y l m Hx H IH]; intros [|i] Hi; cbn in *; try lia; auto. apply IH. lia. Qed.

Section Table.
  Context {A : Type}.
  Variable n : nfa A.
  Hypothesis Hwf : wf n.
  Hypothesis Hlen : 1 <= length n.
  (** States at which a thread can arrive by reading a symbol, or start. *)
  Definition entered (s : nat) : Prop := s = 0 \/ exists q a, In (s, a) (trans (get n q)).
  Lemma nth_upd_false l i s : nth s l true = false -> nth s (upd i false l) true = false.
  Proof. intros H. rewrite nth_upd. destruct (_ && _); auto. Qed.
  Lemma flat_excluded_length : length (flat_excluded n) = length n.
  Proof.
    unfold flat_excluded. rewrite fold_length; [now rewrite !upd_length, repeat_length|].
    intros l [i s]. apply fold_length. intros l' t. now rewrite !upd_length.
  Qed.
  Lemma flat_excluded_spec s : entered s -> s < length n -> nth s (flat_excluded n) true = false.
  Proof using Hlen.
    intros He Hs. unfold flat_excluded.
    set (F := fun out (p : nat * state A) => let '(from, s) := p in _).
    assert (HF : forall l p s, nth s l true = false -> nth s (F l p) true = false).
    { intros l [i st] x H. unfold F. revert l H. induction (trans st) as [|t ts IH]; intros l H; cbn; [assumption|].
      apply IH. now do 2 apply nth_upd_false. }
    assert (HFl : forall l p, length (F l p) = length l).
    { intros l [i st]. unfold F. apply fold_length. intros l' t. now rewrite !upd_length. }
    assert (HFF : forall ps l s, nth s l true = false -> nth s (fold_left F ps l) true = false).
    { induction ps as [|p ps IH]; intros l x H; cbn; auto. }
    destruct He as [->|(q & a & Ha)].
    - apply HFF, nth_upd_false. rewrite nth_upd, repeat_length. destruct (Nat.ltb_spec 0 (length n)); [reflexivity|lia].
    - assert (Hq := trans_range _ _ _ Ha). assert (Hi : In (q, get n q) (enumerate n)) by (apply In_get; auto).
      set (l0 := upd (length n - 1) _ _). assert (El : length l0 = length n) by (unfold l0; now rewrite !upd_length, repeat_length).
      clearbody l0. revert l0 El. induction (enumerate n) as [|p ps IH]; intros l0 El; [destruct Hi|]. cbn [fold_left].
      destruct Hi as [->|Hi]; [|apply IH; [assumption|now rewrite HFl]].
      apply HFF. unfold F. clear - Ha El Hs. revert l0 El. induction (trans (get n q)) as [|t ts IH]; intros l El; [destruct Ha|]. cbn [fold_left].
      destruct Ha as [->|Ha]; [|apply IH; [assumption|now rewrite !upd_length]].
      assert (G : forall ts l, nth s l true = false -> nth s (fold_left (fun out (t : nat * A) => upd (fst t) false (upd q false out)) ts l) true = false).
      { clear. induction ts as [|t ts IH]; intros l H; cbn; [assumption|]. apply IH. now do 2 apply nth_upd_false. }
      apply G. cbn [fst]. rewrite nth_upd, upd_length, Nat.eqb_refl. destruct (Nat.ltb_spec s (length l)); [reflexivity|lia].
  Qed.

  Lemma flat_table_spec : exists tbl, flat_table n = Ok tbl /\ length tbl = length n /\
    (forall s p, In p (nth s tbl []) -> retained n p = true /\ exists t w, zpath n s w t /\ p = ep_of t w) /\
    (forall s t w, s < length n -> entered s -> zpath n s w t -> retained n (ep_of t w) = true -> In (ep_of t w) (nth s tbl [])).
  Proof using Hwf Hlen.
    unfold flat_table. set (F := fun p : nat * bool => _).
    destruct (mapM_spec F (fun p l =>
       (forall q, In q l -> retained n q = true /\ exists t w, zpath n (fst p) w t /\ q = ep_of t w) /\
       (snd p = false -> forall t w, zpath n (fst p) w t -> retained n (ep_of t w) = true -> In (ep_of t w) l)) (enumerate (flat_excluded n))) as (tbl & Et & HR).
    - intros [s x] Hp. unfold F. cbn [fst snd]. destruct x.
      + exists []. split; [reflexivity|]. split; [intros q []|discriminate].
      + apply In_enumerate in Hp. assert (Hs : s < length n) by (rewrite <- flat_excluded_length; apply nth_error_Some; congruence).
        destruct (eps_props_spec n Hwf s Hs) as (l & -> & _ & Hl). cbn [bind]. eexists; split; [reflexivity|]. split.
        * intros q Hq. apply filter_In in Hq as [H1 H2]. split; [assumption|]. now apply Hl.
        * intros _ t w Hz Hr. apply filter_In. split; [|assumption]. apply Hl. eauto.
    - exists tbl. split; [exact Et|]. assert (El : length tbl = length n).
      { apply Forall2_length in HR. rewrite enumerate_length, flat_excluded_length in HR. congruence. }
      split; [assumption|].
      assert (HN : forall s, s < length n -> nth s (enumerate (flat_excluded n)) (0, true) = (s, nth s (flat_excluded n) true)).
      { intros s Hs. apply nth_enumerate. now rewrite flat_excluded_length. }
      assert (HRR : forall s, s < length n -> _) by (intros s Hs; exact (Forall2_nth _ _ _ s (0, true) [] HR ltac:(rewrite enumerate_length, flat_excluded_length; exact Hs))).
      split.
      + intros s p Hp. destruct (Nat.lt_ge_cases s (length n)) as [Hs|Hs]; [|rewrite nth_overflow in Hp by lia; destruct Hp].
        specialize (HRR s Hs). rewrite HN in HRR by assumption. cbn [fst snd] in HRR. apply HRR, Hp.
      + intros s t w Hs He Hz Hr. specialize (HRR s Hs). rewrite HN in HRR by assumption. cbn [fst snd] in HRR.
        apply HRR; auto. now apply flat_excluded_spec.
  Qed.
End Table.

Section Engine.
  Variable width : N -> nat.
  Hypothesis Hwidth : forall c, 1 <= width c.
  Variable T : list N.
  Lemma ordered_In j l p : j <= length T ->
    In p (ordered (pos width T j =? 0) (pos width T j =? total_width width T) l) <->
    In p l /\ (ep_start p = true -> j = 0) /\ (ep_end p = true -> j = length T).
  Proof using Hwidth.
    intros Hj. unfold ordered. rewrite at_start, at_end by assumption. rewrite !in_app_iff.
    destruct (Nat.eqb_spec j 0) as [E|E], (Nat.eqb_spec j (length T)) as [E'|E']; cbn [andb]; rewrite ?filter_In; cbn [In];
      destruct (ep_start p), (ep_end p); cbn; intuition (try discriminate; try lia; auto).
  Qed.
  Lemma zero_reads j w : chars w = [] -> j <= length T ->
    reads T j w j <-> (has EStart w = true -> j = 0) /\ (has EEnd w = true -> j = length T).
  Proof.
    intros Hc Hj. induction w as [|[c|e] w IH]; [|discriminate|].
    - split; [split; discriminate|]. intros _. now constructor.
    - specialize (IH Hc). split.
      + intros H. apply reads_mark_inv in H as (H1 & H2 & H3). apply IH in H3 as [H3 H4].
        unfold has in *. cbn [existsb is_item]. split; intros H; apply orb_prop in H as [H|H]; auto; apply epsk_eqb_iff in H; auto.
      + unfold has in *. cbn [existsb is_item]. intros [H1 H2]. constructor.
        * intros ->. apply H1. reflexivity.
        * intros ->. apply H2. reflexivity.
        * apply IH. split; intros H; [apply H1|apply H2]; rewrite H; apply orb_true_r.
  Qed.

  Context {A : Type}.
  Variable check : A -> N -> bool.
  Variable n : nfa A.
  Hypothesis Hlen : 1 <= length n.
  (** The rest of an accepting run which does not begin with a zero-width edge. *)
  Definition now (j s : nat) (w : word) : Prop :=
    (w = [] /\ s = length n - 1 /\ j = length T) \/
    (exists t a c w', w = IC c :: w' /\ nth_error T j = Some c /\ In (t, a) (trans (get n s)) /\ check a c = true /\ rest T check n (S j) t w').
  Lemma now_rest j s w : now j s w -> rest T check n j s w.
  Proof.
    intros [(-> & -> & ->)|(t & a & c & w' & -> & Hc & Ha & Hca & Hp & Hr)].
    - split; [constructor|]. constructor. apply le_n.
    - split; [econstructor; eauto|now constructor].
  Qed.
  Lemma now_retained j s w u : now j s w -> retained n (ep_of s u) = true.
  Proof using Hlen.
    intros [(_ & E & _)|(t & a & c & w' & _ & _ & Ha & _)]; unfold retained; cbn [ep_state ep_of].
    - destruct (trans (get n s)); [|reflexivity]. apply Nat.eqb_eq. lia.
    - destruct (trans (get n s)); [destruct Ha|reflexivity].
  Qed.
  Lemma rest_now j s w : rest T check n j s w -> exists u t v, w = u ++ v /\ zpath n s u t /\ reads T j u j /\ now j t v.
  Proof.
    intros [Hp Hr]. remember (length n - 1) as L eqn:EL.
    revert j Hr. induction Hp as [s|s t e w u He Hp IH|s t a c w u He Hc Hp IH]; intros j Hr.
    - apply reads_nil_inv in Hr as [-> Hr]. exists [], s, []. split; [reflexivity|]. split; [constructor|]. split; [now constructor|].
      left. auto.
    - apply reads_mark_split in Hr as [Hen Hr]. destruct (IH EL j Hr) as (x & t' & y & -> & Hz & Hr1 & Hn).
      exists (mark e ++ x), t', y. split; [now rewrite app_assoc|]. split; [eapply zpath_cons; eauto|]. split; [now apply reads_mark|assumption].
    - apply reads_char_inv in Hr as [H1 H2]. exists [], s, (IC c :: w). split; [reflexivity|]. split; [constructor|].
      assert (j <= length T) by (apply Nat.lt_le_incl, nth_error_Some; congruence). split; [now constructor|].
      right. subst u. exists t, a, c, w. repeat split; auto.
  Qed.
  Lemma zpath_rest j s u t v : zpath n s u t -> reads T j u j -> rest T check n j t v -> rest T check n j s (u ++ v).
  Proof.
    intros Hz Hr [Hp Hr']. split; [eapply path_app; [apply zpath_path; exact Hz|exact Hp]|]. apply reads_app. eauto.
  Qed.
  (** A propagation of the table may run at [j]. *)
  Definition live (j : nat) (p : eprop) : Prop := (ep_start p = true -> j = 0) /\ (ep_end p = true -> j = length T).
  Lemma live_reads j s w t : zpath n s w t -> j <= length T -> live j (ep_of t w) <-> reads T j w j.
  Proof. intros Hz Hj. symmetry. apply zero_reads; [eapply zpath_chars; eauto|assumption]. Qed.

  Hypothesis Hwf : wf n.
  Variable tbl : list (list eprop).
  Hypothesis Htl : length tbl = length n.
  Hypothesis Hts : forall s p, In p (nth s tbl []) -> retained n p = true /\ exists t w, zpath n s w t /\ p = ep_of t w.
  Hypothesis Htc : forall s t w, s < length n -> entered n s -> zpath n s w t -> retained n (ep_of t w) = true -> In (ep_of t w) (nth s tbl []).

  (** *** test *)
  Lemma flat_eps_inner ps : forall l, length (fold_left (fun l p => upd (ep_state p) true l) ps l) = length l /\
    forall x, marked (fold_left (fun l p => upd (ep_state p) true l) ps l) x <-> (x < length l /\ exists p, In p ps /\ ep_state p = x) \/ marked l x.
  Proof.
    induction ps as [|p ps IH]; intros l; cbn [fold_left].
    - split; [reflexivity|]. intros x. split; [auto|]. intros [[_ (p & [] & _)]|]; auto.
    - destruct (IH (upd (ep_state p) true l)) as [H1 H2]. rewrite upd_length in *. split; [assumption|]. intros x. rewrite H2, marked_upd. split.
      + intros [[Hx (q & Hq & Eq)]|[[-> Hx]|Hm]]; auto.
        * left. split; [assumption|]. exists q. split; [now right|assumption].
        * left. split; [assumption|]. exists p. split; [now left|reflexivity].
      + intros [[Hx (q & [->|Hq] & Eq)]|Hm]; [subst x; right; left; auto|left; split; eauto|auto].
  Qed.
  Lemma flat_eps_test_spec j l : j <= length T -> length l = length n -> (forall s, marked l s -> entered n s) ->
    let r := flat_eps_test tbl (pos width T j) (total_width width T) l in
    length r = length n /\
    (forall t, marked r t -> exists s w, marked l s /\ zpath n s w t /\ reads T j w j) /\
    (forall s w t, marked l s -> zpath n s w t -> reads T j w j -> retained n (ep_of t w) = true -> marked r t).
  Proof using Hwidth Hwf Hlen Htl Hts Htc.
    intros Hj Hl He r. unfold r, flat_eps_test. clear r.
    set (F := fun l (x : nat * list eprop) => let '(i, ps) := x in _).
    assert (HF : forall l x, length (F l x) = length l).
    { intros l0 [i ps]. unfold F. destruct (nth i l0 false); [apply flat_eps_inner|reflexivity]. }
    assert (HFF : forall xs l, length (fold_left F xs l) = length l) by (intros xs; apply fold_length; exact HF).
    assert (HM : forall xs l x, marked l x -> marked (fold_left F xs l) x).
    { induction xs as [|[i ps] xs IH]; intros l0 x Hm; cbn [fold_left]; [assumption|]. apply IH. unfold F. destruct (nth i l0 false); [|assumption].
      apply flat_eps_inner. now right. }
    split; [now rewrite HFF|]. split.
    - intros t. set (Q := fun t => exists s w, marked l s /\ zpath n s w t /\ reads T j w j). change (marked (fold_left F (enumerate tbl) l) t -> Q t).
      assert (G : forall xs l0, (forall x, In x xs -> In x (enumerate tbl)) -> length l0 = length n -> (forall x, marked l0 x -> Q x) -> forall x, marked (fold_left F xs l0) x -> Q x).
      { induction xs as [|[i ps] xs IH]; intros l0 Hi Hl0 H0 x Hx; cbn [fold_left] in Hx; [auto|]. revert x Hx. apply IH.
        - intros y Hy. apply Hi. now right.
        - now rewrite HF.
        - intros x Hx. unfold F in Hx. destruct (nth i l0 false) eqn:Ei; [|auto]. apply flat_eps_inner in Hx as [[Hlt (p & Hp & <-)]|Hx]; [|auto].
          apply ordered_In in Hp as [Hp Hlv]; [|assumption].
          assert (Hin : In (i, ps) (enumerate tbl)) by (apply Hi; now left).
          apply In_enumerate in Hin. apply nth_error_nth with (d := []) in Hin. subst ps.
          destruct (Hts i p Hp) as (_ & t' & w & Hz & ->). apply (live_reads j i w t' Hz Hj) in Hlv.
          destruct (H0 i Ei) as (s & v & Hs & Hz' & Hr). cbn [ep_state ep_of]. exists s, (v ++ w). split; [assumption|]. split.
          + eapply zpath_app; eauto.
          + apply reads_app. eauto. }
      apply G; auto. intros x Hx. exists x, []. split; [assumption|]. split; [constructor|now constructor].
    - intros s w t Hs Hz Hr Hret. assert (Hsl : s < length n) by (apply marked_lt in Hs; lia).
      assert (Hp : In (ep_of t w) (nth s tbl [])) by (apply Htc; auto).
      assert (Hin : In (s, nth s tbl []) (enumerate tbl)) by (apply In_enumerate, nth_error_nth'; lia).
      assert (Ht : t < length n).
      { clear - Hz Hwf Hsl. induction Hz; [assumption|]. eapply wf_eps; eauto. }
      assert (G : forall xs l0, In (s, nth s tbl []) xs -> length l0 = length n -> marked l0 s -> marked (fold_left F xs l0) t).
      { induction xs as [|x xs IH]; intros l0 Hin' Hl0 Hm; [destruct Hin'|]. cbn [fold_left]. destruct Hin' as [->|Hin'].
        - apply HM. unfold F. rewrite Hm. apply flat_eps_inner. left. split; [lia|]. exists (ep_of t w). split; [|reflexivity].
          apply ordered_In; [assumption|]. split; [assumption|]. now apply (live_reads j s w t Hz Hj).
        - apply IH; [assumption|now rewrite HF|]. apply (HM [x] l0). assumption. }
      apply G; auto.
  Qed.

  Lemma flat_test_loop_spec text : forall j l, j <= length T -> skipn j T = text -> length l = length n ->
    flat_test_loop check width n tbl (total_width width T) (pos width T j) l text = true <-> exists s w, marked l s /\ now j s w.
  Proof using Hwidth Hwf Hlen Htl Hts Htc.
    induction text as [|c text IH]; intros j l Hj Hs Hl; cbn [flat_test_loop].
    - apply skipn_nil_ge in Hs; [|assumption]. split.
      + intros H. exists (length n - 1), []. split; [assumption|]. left. auto.
      + intros (s & w & Hm & [(_ & -> & _)|(t & a & c & w' & _ & Hc & _)]); [assumption|].
        assert (nth_error T j <> None) by congruence. apply nth_error_Some in H. lia.
    - destruct (skipn_nth _ _ _ _ Hs) as [Hc Hs']. destruct (step_symbols_spec check n Hwf l c Hl) as [S1 S2].
      assert (Hj' : S j <= length T) by (apply nth_error_Some; congruence). unfold flat_sym_test.
      assert (HE : forall s, marked (step_symbols check n l c) s -> entered n s).
      { intros s Hm. apply S2 in Hm as (q & a & _ & Ha & _). right. eauto. }
      destruct (forallb negb (step_symbols check n l c)) eqn:E.
      + split; [discriminate|]. intros (s & w & Hm & [(_ & _ & ->)|(t & a & d & w' & _ & Hd & Ha & Hca & _)]); [lia|].
        assert (d = c) by congruence. subst d. assert (Ht : marked (step_symbols check n l c) t) by (apply S2; eauto).
        rewrite forallb_forall in E. assert (Hin := nth_In (step_symbols check n l c) false (marked_lt _ _ Ht)). apply E in Hin. rewrite Ht in Hin. discriminate.
      + cbn zeta. rewrite <- (pos_S width T j c Hc).
        destruct (flat_eps_test_spec (S j) (step_symbols check n l c) Hj' S1 HE) as (R1 & R2 & R3). rewrite IH by assumption. split.
        * intros (s & w & Hm & Hn). destruct (R2 s Hm) as (q & u & Hq & Hz & Hr). apply S2 in Hq as (p & a & Hp & Ha & Hca).
          exists p, (IC c :: u ++ w). split; [assumption|]. right. exists q, a, c, (u ++ w). repeat split; auto.
          -- apply (zpath_rest (S j) q u s w); auto. now apply now_rest.
          -- apply (zpath_rest (S j) q u s w); auto. now apply now_rest.
        * intros (s & w & Hm & [(_ & _ & ->)|(t & a & d & w' & _ & Hd & Ha & Hca & Hrest)]); [lia|].
          assert (d = c) by congruence. subst d. assert (Ht : marked (step_symbols check n l c) t) by (apply S2; eauto).
          destruct (rest_now _ _ _ Hrest) as (u & q & v & _ & Hz & Hr & Hn). exists q, v. split; [|assumption].
          eapply R3; eauto. eapply now_retained; eauto.
  Qed.
  Lemma flat_run_test_spec : flat_run_test check width n tbl T = true <-> exists W, lang check n W /\ reads T 0 W (length T).
  Proof using Hwidth Hwf Hlen Htl Hts Htc.
    unfold flat_run_test. cbn zeta.
    destruct (flat_eps_test_spec 0 (upd 0 true (repeat false (length n)))) as (R1 & R2 & R3); [lia|apply initial_length| |].
    { intros s Hs. apply initial_marked in Hs; [|assumption]. now left. }
    rewrite (flat_test_loop_spec T 0) by (auto; lia). split.
    - intros (s & w & Hm & Hn). destruct (R2 s Hm) as (q & u & Hq & Hz & Hr). apply initial_marked in Hq; [|assumption]. subst q.
      exists (u ++ w). apply (zpath_rest 0 0 u s w Hz Hr). now apply now_rest.
    - intros (W & HW). destruct (rest_now 0 0 W HW) as (u & q & v & _ & Hz & Hr & Hn). exists q, v. split; [|assumption].
      eapply (R3 0); eauto; [now apply initial_marked|]. eapply now_retained; eauto.
  Qed.

  (** *** exec *)
  Lemma flat_push_fold j b ps : forall occ out, length occ = length n -> (forall t, marked occ t <-> In t (map fst out)) ->
    (forall p, In p ps -> ep_state p < length n) ->
    let r := fold_left (flat_push (pos width T j) b) ps (occ, out) in
    length (fst r) = length n /\ (forall t, marked (fst r) t <-> In t (map fst (snd r))) /\
    (forall th, In th (snd r) -> In th out \/ exists p, In p ps /\ th = (ep_state p, apply_tags (pos width T j) (ep_tags p) b)) /\
    incl out (snd r) /\ (forall p, In p ps -> In (ep_state p) (map fst (snd r))).
  Proof.
    induction ps as [|p ps IH]; intros occ out Ho Hm Hp; cbn [fold_left].
    - cbn. repeat split; auto; try apply Hm. apply incl_refl. intros p [].
    - cbn zeta. change (flat_push (pos width T j) b (occ, out) p) with
        (if nth (ep_state p) occ false then (occ, out) else (upd (ep_state p) true occ, out ++ [(ep_state p, apply_tags (pos width T j) (ep_tags p) b)])). destruct (nth (ep_state p) occ false) eqn:E.
      + destruct (IH occ out Ho Hm) as (R1 & R2 & R3 & R4 & R5); [intros; apply Hp; now right|]. split; [assumption|]. split; [assumption|]. split; [|split].
        * intros th Hth. destruct (R3 th Hth) as [?|(q & Hq & ->)]; [auto|]. right. exists q. split; [now right|reflexivity].
        * assumption.
        * intros q [<-|Hq]; [|auto]. apply Hm in E. apply in_map_iff in E as (th & E1 & E2). rewrite <- E1. now apply in_map, R4.
      + destruct (IH (upd (ep_state p) true occ) (out ++ [(ep_state p, apply_tags (pos width T j) (ep_tags p) b)])) as (R1 & R2 & R3 & R4 & R5).
        * now rewrite upd_length.
        * intros t. rewrite marked_upd, map_app, in_app_iff, Hm, Ho. cbn. assert (Hpl := Hp p (or_introl eq_refl)). intuition.
        * intros; apply Hp; now right.
        * split; [assumption|]. split; [assumption|]. split; [|split].
          -- intros th Hth. destruct (R3 th Hth) as [H|(q & Hq & ->)].
             ++ apply in_app_or in H as [H|[<-|[]]]; [auto|]. right. exists p. split; [now left|reflexivity].
             ++ right. exists q. split; [now right|reflexivity].
          -- intros th Hth. apply R4, in_or_app. now left.
          -- intros q [<-|Hq]; [|auto]. apply (in_map fst _ (ep_state p, apply_tags (pos width T j) (ep_tags p) b)), R4, in_or_app. right. now left.
  Qed.
  Lemma flat_eps_exec_spec j ths : j <= length T -> (forall th, In th ths -> fst th < length n /\ entered n (fst th)) ->
    let out := flat_eps_exec n tbl (pos width T j) (total_width width T) ths in
    (forall t b, In (t, b) out -> t < length n /\ exists s b0 w, In (s, b0) ths /\ zpath n s w t /\ reads T j w j /\ b = run_marks width (pos width T j) w b0) /\
    (forall s b0 w t, In (s, b0) ths -> zpath n s w t -> reads T j w j -> retained n (ep_of t w) = true -> exists b, In (t, b) out).
  Proof using Hwf Hts Htc Hwidth.
    intros Hj Hths out. unfold out, flat_eps_exec. clear out.
    set (F := fun acc th => _).
    assert (Hz : forall s w t, s < length n -> zpath n s w t -> t < length n).
    { intros s w t Hs Hz. induction Hz; [assumption|]. eapply wf_eps; eauto. }
    assert (HO : forall s p, s < length n -> In p (ordered (pos width T j =? 0) (pos width T j =? total_width width T) (nth s tbl [])) ->
      exists t w, zpath n s w t /\ p = ep_of t w /\ reads T j w j /\ t < length n).
    { intros s p Hs Hp. apply ordered_In in Hp as [Hp Hlv]; [|assumption]. destruct (Hts s p Hp) as (_ & t & w & Hzp & ->).
      exists t, w. split; [assumption|]. split; [reflexivity|]. split; [now apply (live_reads j s w t Hzp Hj)|eauto]. }
    assert (G : forall xs occ out, length occ = length n -> (forall t, marked occ t <-> In t (map fst out)) -> (forall th, In th xs -> fst th < length n /\ entered n (fst th)) ->
      let r := fold_left F xs (occ, out) in
      (forall t, marked (fst r) t <-> In t (map fst (snd r))) /\ incl out (snd r) /\
      (forall t b, In (t, b) (snd r) -> In (t, b) out \/ (t < length n /\ exists s b0 w, In (s, b0) xs /\ zpath n s w t /\ reads T j w j /\ b = run_marks width (pos width T j) w b0)) /\
      (forall s b0 w t, In (s, b0) xs -> zpath n s w t -> reads T j w j -> retained n (ep_of t w) = true -> In t (map fst (snd r)))).
    { induction xs as [|[s b0] xs IH]; intros occ out Ho Hm Hx; cbn [fold_left].
      - cbn. split; [assumption|]. split; [apply incl_refl|]. split; [auto|]. intros ? ? ? ? [].
      - cbn zeta. destruct (Hx (s, b0) (or_introl eq_refl)) as [Hs Hent]. cbn [fst] in Hs, Hent.
        set (ps := ordered (pos width T j =? 0) (pos width T j =? total_width width T) (nth s tbl [])).
        change (F (occ, out) (s, b0)) with (fold_left (flat_push (pos width T j) b0) ps (occ, out)).
        destruct (flat_push_fold j b0 ps occ out Ho Hm) as (P1 & P2 & P3 & P4 & P5).
        { intros p Hp. destruct (HO s p Hs Hp) as (t & w & _ & -> & _ & Ht). exact Ht. }
        destruct (fold_left (flat_push (pos width T j) b0) ps (occ, out)) as [occ1 out1]. cbn [fst snd] in *.
        destruct (IH occ1 out1 P1 P2) as (R1 & R2 & R3 & R4); [intros; apply Hx; now right|].
        split; [assumption|]. split; [eapply incl_tran; eauto|]. split.
        + intros t b Hb. destruct (R3 t b Hb) as [H|(Ht & s' & b1 & w & H1 & H2)].
          * destruct (P3 _ H) as [?|(p & Hp & E)]; [auto|]. destruct (HO s p Hs Hp) as (t' & w & Hzp & -> & Hr & Ht').
            injection E as -> ->. right. split; [assumption|]. exists s, b0, w. split; [now left|]. split; [assumption|]. split; [assumption|].
            cbn [ep_tags ep_of]. apply apply_tags_of. eapply zpath_chars; eauto.
          * right. split; [assumption|]. exists s', b1, w. split; [now right|assumption].
        + intros s' b1 w t [E|Hin] Hzp Hr Hret; [|eauto]. injection E as <- <-.
          assert (Hp : In (ep_of t w) ps). { apply ordered_In; [assumption|]. split; [now apply Htc|]. now apply (live_reads j s w t Hzp Hj). }
          apply P5 in Hp. cbn [ep_state ep_of] in Hp. apply in_map_iff in Hp as (th & <- & Hth). now apply in_map, R2. }
    destruct (G ths (repeat false (length n)) []) as (R1 & R2 & R3 & R4); [apply repeat_length| |assumption|].
    { intros t. rewrite nth_repeat_false. cbn. split; [discriminate|tauto]. }
    split.
    - intros t b Hb. destruct (R3 t b Hb) as [[]|H]. exact H.
    - intros s b0 w t Hin Hzp Hr Hret. assert (H := R4 s b0 w t Hin Hzp Hr Hret). apply in_map_iff in H as ([t' b] & E & H). cbn in E. subst t'. eauto.
  Qed.

  Lemma flat_sym_exec_In ths c t b : In (t, b) (flat_sym_exec check n ths c) <-> exists s a, In (s, b) ths /\ In (t, a) (trans (get n s)) /\ check a c = true.
  Proof.
    unfold flat_sym_exec. rewrite in_flat_map. split.
    - intros ([s b'] & Hs & H). apply in_map_iff in H as ([t' a] & E & H). injection E as -> ->. apply filter_In in H as [H1 H2]. cbn in *. eauto.
    - intros (s & a & Hs & Ha & Hc). exists (s, b). split; [assumption|]. apply in_map_iff. exists (t, a). split; [reflexivity|]. apply filter_In. auto.
  Qed.

  Lemma flat_exec_loop_spec text : forall j ths, j <= length T -> skipn j T = text -> (forall th, In th ths -> fst th < length n) ->
    let r := find (fun th : thread => fst th + 1 =? length n) (flat_exec_loop check width n tbl (total_width width T) (pos width T j) ths text) in
    match r with
    | Some (_, b) => exists s b0 w, In (s, b0) ths /\ now j s w /\ b = run_marks width (pos width T j) w b0
    | None => forall s b0 w, In (s, b0) ths -> ~ now j s w
    end.
  Proof using Hwidth Hwf Hlen Htl Hts Htc.
    induction text as [|c text IH]; intros j ths Hj Hs Hth; cbn [flat_exec_loop]; cbn zeta.
    - apply skipn_nil_ge in Hs; [|assumption]. destruct (find (fun th : thread => fst th + 1 =? length n) ths) as [[t b]|] eqn:E.
      + apply find_some in E as [H1 H2]. cbn in H2. apply Nat.eqb_eq in H2. exists t, b, []. split; [assumption|]. split; [|reflexivity]. left. repeat split; auto. lia.
      + intros s b0 w Hin [(_ & -> & _)|(t & a & c & w' & _ & Hc & _)].
        * apply (find_none _ _ E) in Hin. cbn in Hin. apply Nat.eqb_neq in Hin. lia.
        * assert (nth_error T j <> None) by congruence. apply nth_error_Some in H. lia.
    - destruct (skipn_nth _ _ _ _ Hs) as [Hc Hs']. assert (Hj' : S j <= length T) by (apply nth_error_Some; congruence).
      rewrite <- (pos_S width T j c Hc).
      destruct (flat_eps_exec_spec (S j) (flat_sym_exec check n ths c) Hj') as [R1 R2].
      { intros [t b] H. apply flat_sym_exec_In in H as (s & a & _ & Ha & _). cbn. split; [eapply wf_trans; eauto|right; eauto]. }
      set (out := flat_eps_exec n tbl (pos width T (S j)) (total_width width T) (flat_sym_exec check n ths c)) in *.
      assert (HN : forall s b0 w, In (s, b0) ths -> now j s w -> exists t b v, In (t, b) out /\ now (S j) t v).
      { intros s b0 w Hin [(_ & _ & ->)|(t & a & d & w' & _ & Hd & Ha & Hca & Hrest)]; [lia|]. assert (d = c) by congruence. subst d.
        destruct (rest_now _ _ _ Hrest) as (u & q & v & _ & Hz & Hr & Hn). destruct (R2 t b0 u q) as (b & Hb); auto.
        - apply flat_sym_exec_In. eauto.
        - eapply now_retained; eauto.
        - eauto. }
      assert (HE : (match out with [] => [] | _ :: _ => flat_exec_loop check width n tbl (total_width width T) (pos width T (S j)) out text end)
        = match out with [] => [] | _ => flat_exec_loop check width n tbl (total_width width T) (pos width T (S j)) out text end) by reflexivity.
      destruct out as [|th0 out0] eqn:Eo.
      + cbn. intros s b0 w Hin Hn. destruct (HN s b0 w Hin Hn) as (? & ? & ? & [] & _).
      + rewrite <- Eo in *. clear HE. specialize (IH (S j) out Hj' Hs').
        assert (HI : forall th, In th out -> fst th < length n) by (intros [t b] H; exact (proj1 (R1 t b H))).
        specialize (IH HI). cbn zeta in IH. destruct (find _ _) as [[t b]|].
        * destruct IH as (s & b1 & w & Hin & Hn & ->). destruct (R1 s b1 Hin) as (_ & q & b0 & u & Hq & Hz & Hr & ->).
          apply flat_sym_exec_In in Hq as (p & a & Hp & Ha & Hca). exists p, b0, (IC c :: u ++ w). split; [assumption|]. split.
          -- right. exists q, a, c, (u ++ w). split; [reflexivity|]. split; [assumption|]. split; [assumption|]. split; [assumption|].
             apply (zpath_rest (S j) q u s w); auto. now apply now_rest.
          -- cbn [run_marks]. rewrite <- (pos_S width T j c Hc), run_marks_app. f_equal. unfold wwidth. rewrite (zpath_chars _ _ _ _ Hz). cbn. lia.
        * intros s b0 w Hin Hn. destruct (HN s b0 w Hin Hn) as (t & b & v & H1 & H2). exact (IH t b v H1 H2).
  Qed.
  Lemma flat_run_exec_spec : match flat_run_exec check width n tbl T with
    | Some b => exists W, lang check n W /\ reads T 0 W (length T) /\ b = run_marks width 0 W (no_bounds (num_capture_groups n))
    | None => forall W, lang check n W -> ~ reads T 0 W (length T)
    end.
  Proof using Hwidth Hwf Hlen Htl Hts Htc.
    unfold flat_run_exec. cbn zeta. set (b0 := no_bounds (num_capture_groups n)).
    destruct (flat_eps_exec_spec 0 [(0, b0)]) as [R1 R2]; [lia| |].
    { intros th [<-|[]]. cbn. split; [lia|now left]. }
    change (pos width T 0) with 0 in *.
    assert (H := flat_exec_loop_spec T 0 (flat_eps_exec n tbl 0 (total_width width T) [(0, b0)]) ltac:(lia) eq_refl).
    cbn zeta in H. specialize (H (fun th => match th with (t, b) => fun Hin => proj1 (R1 t b Hin) end)).
    change (pos width T 0) with 0 in H. destruct (find _ _) as [[t b]|]; cbn [option_map snd].
    - destruct H as (s & b1 & w & Hin & Hn & ->). destruct (R1 s b1 Hin) as (_ & q & b2 & u & [E|[]] & Hz & Hr & ->). injection E as <- <-.
      exists (u ++ w). destruct (zpath_rest 0 0 u s w Hz Hr (now_rest _ _ _ Hn)) as [H1 H2]. split; [exact H1|]. split; [exact H2|].
      rewrite run_marks_app. f_equal. unfold wwidth. rewrite (zpath_chars _ _ _ _ Hz). reflexivity.
    - intros W HW Hr. destruct (rest_now 0 0 W (conj HW Hr)) as (u & q & v & _ & Hz & Hru & Hn).
      destruct (R2 0 b0 u q) as (b & Hb); auto; [now left|eapply now_retained; eauto|]. exact (H q b v Hb Hn).
  Qed.
End Engine.

(** ** Construction *)
Section Make.
  Context {A : Type}.
  Variable n : nfa A.
  Hypothesis Hwf : wf n.
  Hypothesis Hlen : 1 <= length n.
  (** Capture indices fit the [captures] array. *)
  Definition groups_ok : Prop := forall s t k, In (t, ESC k) (eps (get n s)) \/ In (t, EEC k) (eps (get n s)) -> k < num_capture_groups n.
  Lemma zpath_items s w t : zpath n s w t -> forall m, In (IM m) w -> exists q u, In (u, m) (eps (get n q)).
  Proof.
    induction 1 as [|w t e u Hz IH He]; intros m Hm; [destruct Hm|]. apply in_app_or in Hm as [Hm|Hm]; [auto|].
    destruct e; cbn in Hm; try tauto; destruct Hm as [E|[]]; injection E as <-; eauto.
  Qed.
  Lemma tags_of_In w : forall ts t, In t (fold_left add_item w ts) <-> In t ts \/ exists i, In i w /\ In t (tag_of i).
  Proof.
    induction w as [|i w IH]; intros ts t; cbn [fold_left].
    - split; [auto|]. intros [?|(i & [] & _)]; assumption.
    - rewrite IH. assert (E : In t (add_item ts i) <-> In t ts \/ In t (tag_of i)).
      { unfold add_item. destruct i as [c|[]]; cbn [tag_of fold_left]; rewrite ?In_add_tag; cbn; intuition. }
      rewrite E. split.
      + intros [[H|H]|(x & H1 & H2)]; auto; right; [exists i|exists x]; split; auto; [now left|now right].
      + intros [H|(x & [->|H1] & H2)]; auto. right. eauto.
  Qed.
  Lemma flat_make_spec : groups_ok -> exists tbl, flat_make n = Ok tbl /\ length tbl = length n /\
    (forall s p, In p (nth s tbl []) -> retained n p = true /\ exists t w, zpath n s w t /\ p = ep_of t w) /\
    (forall s t w, s < length n -> entered n s -> zpath n s w t -> retained n (ep_of t w) = true -> In (ep_of t w) (nth s tbl [])).
  Proof using Hwf Hlen.
    intros Hg. unfold flat_make. rewrite wfb_guard by assumption. cbn [guard bind].
    destruct (flat_table_spec n Hwf Hlen) as (tbl & -> & H1 & H2 & H3). cbn [bind].
    assert (E : forallb (tags_in_range (num_capture_groups n)) tbl = true).
    { apply forallb_forall. intros ps Hps. apply (In_nth _ _ []) in Hps as (s & Hs & <-). apply forallb_forall. intros p Hp.
      apply forallb_forall. intros t Ht. apply Nat.ltb_lt. destruct (H2 s p Hp) as (_ & u & w & Hz & ->). cbn [ep_of ep_tags] in Ht.
      apply tags_of_In in Ht as [[]|(i & Hi & Ht)]. destruct i as [c|e]; [destruct Ht|].
      destruct (zpath_items _ _ _ Hz e Hi) as (q & v & He). destruct e; cbn in Ht; try tauto; destruct Ht as [<-|[]]; cbn; eauto. }
    rewrite E. exists tbl. auto.
  Qed.
End Make.
Section Run.
  Variable width : N -> nat.
  Hypothesis Hwidth : forall c, 1 <= width c.
  Context {A : Type}.
  Variable check : A -> N -> bool.
  Variable n : nfa A.
  Hypothesis Hwf : wf n.
  Hypothesis Hlen : 1 <= length n.
  Hypothesis Hgr : groups_ok n.
  Theorem flat_spec : exists tbl, flat_make n = Ok tbl /\ forall T,
    (flat_run_test check width n tbl T = true <-> exists W, lang check n W /\ reads T 0 W (length T)) /\
    match flat_run_exec check width n tbl T with
    | Some b => exists W, lang check n W /\ reads T 0 W (length T) /\ b = run_marks width 0 W (no_bounds (num_capture_groups n))
    | None => forall W, lang check n W -> ~ reads T 0 W (length T)
    end.
  Proof using Hwf Hlen Hgr Hwidth.
    destruct (flat_make_spec n Hwf Hlen Hgr) as (tbl & Em & H1 & H2 & H3). exists tbl. split; [assumption|]. intros T. split.
    - now apply flat_run_test_spec.
    - now apply flat_run_exec_spec.
  Qed.
End Run.
