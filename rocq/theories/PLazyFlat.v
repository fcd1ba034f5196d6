(** The lockstep engines report the match that starts first. *)
From Verif Require Export PLazyThreads PPrioFlat.
From Coq Require Import ZifyBool ZifyNat.
Open Scope nat_scope.
Open Scope list_scope.

Notation same_st := (fun a b : nat * bounds => fst a =? fst b).

(** Pushing threads keeps the first of each state. *)
Lemma push_dedup {A} (n : nfa A) idx (L : list (bounds * eprop)) : (forall b p, In (b, p) L -> ep_state p < length n) ->
  forall occ out seen, length occ = length n -> (forall t, t < length n -> nth t occ false = existsb (fun y : nat * bounds => t =? fst y) seen) ->
  exists occ', fold_left (fun acc x => flat_push idx (fst x) acc (snd x)) L (occ, out) = (occ', out ++ dedup_by same_st seen (map (fun x => adv idx (fst x) (snd x)) L)).
Proof.
  induction L as [|[b p] L IH]; intros HL occ out seen Ho Hs.
  - exists occ. cbn. now rewrite app_nil_r.
  - assert (Hp := HL b p (or_introl eq_refl)). assert (HL' : forall b p, In (b, p) L -> ep_state p < length n) by (intros; eapply HL; right; eauto).
    cbn [fold_left map dedup_by fst snd adv]. unfold flat_push at 2. rewrite (Hs _ Hp). cbn [fst snd]. destruct (existsb (fun y => ep_state p =? fst y) seen) eqn:Ex.
    + destruct (IH HL' occ out seen Ho Hs) as (occ' & E). exists occ'. exact E.
    + destruct (IH HL' (upd (ep_state p) true occ) (out ++ [adv idx b p]) (adv idx b p :: seen)) as (occ' & E).
      * now rewrite upd_length.
      * intros t Ht. rewrite nth_upd, Ho. cbn [existsb adv fst]. destruct (Nat.eqb_spec (ep_state p) t) as [<-|Hne].
        -- rewrite (proj2 (Nat.eqb_eq _ _) eq_refl). destruct (Nat.ltb_spec (ep_state p) (length n)); [reflexivity|lia].
        -- cbn [andb]. destruct (Nat.eqb_spec t (ep_state p)); [congruence|]. cbn [orb]. now apply Hs.
      * exists occ'. unfold adv in E at 1. rewrite E, <- app_assoc. reflexivity.
Qed.
Lemma fold_flat {X Y S} (f : S -> Y -> S) (h : X -> list Y) l : forall s, fold_left (fun s x => fold_left f (h x) s) l s = fold_left f (flat_map h l) s.
Proof. induction l as [|x l IH]; intros s; cbn; [reflexivity|]. now rewrite fold_left_app, IH. Qed.

Set Default Proof Using "All".
Section Lead.
  Context {A B : Type}.
  Variable key : A -> B.
  Variable D : B -> B -> Prop.
  Variable P : B -> Prop.
  Variable check : A -> N -> bool.
  Hypothesis HD : forall a b c, D (key a) (key b) -> check a c = true -> check b c = true -> False.
  Variable width : N -> nat.
  Hypothesis Hwidth : forall c, 1 <= width c.
  Variable T : list N.
  Variable n : nfa A.
  Hypothesis Hwf : wf n.
  Hypothesis Hlen : 1 <= length n.
  Hypothesis Hg : 1 <= num_capture_groups n.
  Hypothesis Hone : forall W, lang check n W -> opens0 W = 1.
  Hypothesis Hmost : forall u s, s < length n -> path check n 0 u s -> opens0 u <= 1.
  Hypothesis Hlazy : lazyq key D P n.
  Variable tbl : list (list eprop).
  Hypothesis Htbl : flat_table n = Ok tbl.
  Notation g := (num_capture_groups n).

  Lemma eps_raw j ths : (forall th, In th ths -> fst th < length n /\ entered n (fst th)) ->
    let idx := pos width T j in
    flat_eps_exec n tbl idx (total_width width T) ths = dedup_by same_st [] (raw n (ordered (idx =? 0) (idx =? total_width width T)) idx ths).
  Proof.
    intros Hths idx. unfold flat_eps_exec, raw. set (o := ordered _ _).
    assert (E1 : forall l acc, (forall th, In th l -> fst th < length n /\ entered n (fst th)) ->
      fold_left (fun acc (th : nat * bounds) => fold_left (flat_push idx (snd th)) (o (nth (fst th) tbl [])) acc) l acc
      = fold_left (fun acc x => flat_push idx (fst x) acc (snd x)) (flat_map (fun th : nat * bounds => map (pair (snd th)) (o (filter (retained n) (gprops n (fst th))))) l) acc).
    { induction l as [|th l IH]; intros acc Hl; [reflexivity|]. cbn [fold_left flat_map]. rewrite fold_left_app, IH by (intros; apply Hl; now right). f_equal.
      destruct (Hl th (or_introl eq_refl)) as [L1 L2]. destruct (flat_table_nth n tbl (fst th) Hlen Htbl L1 L2) as (ps & Ep & ->). unfold gprops. rewrite Ep. clear.
      revert acc. induction (o (filter (retained n) ps)) as [|p q IH]; intros acc; [reflexivity|]. cbn. apply IH. }
    rewrite E1 by assumption. set (L := flat_map _ ths).
    destruct (push_dedup n idx L) with (occ := repeat false (length n)) (out := @nil (nat * bounds)) (seen := @nil (nat * bounds)) as (occ' & E).
    - intros b p Hp. apply in_flat_map in Hp as (th & Hth & Hp). apply in_map_iff in Hp as (p' & Ep & Hp). injection Ep as <- <-.
      assert (Hin : In p' (gprops n (fst th))).
      { unfold o, ordered in Hp. rewrite !in_app_iff in Hp. assert (X : In p' (filter (retained n) (gprops n (fst th)))); [|now apply filter_In in X].
        destruct (idx =? 0), (idx =? total_width width T), Hp as [Hp|[Hp|[Hp|Hp]]]; cbn [andb] in Hp; try (destruct Hp; fail); now apply filter_In in Hp. }
      apply Hths in Hth as [Hth _]. unfold gprops in Hin. destruct (eps_props_spec n Hwf (fst th) Hth) as (l & El & _ & Hl). rewrite El in Hin. apply Hl in Hin as (t & w & Hz & ->).
      cbn. clear - Hz Hwf Hth. induction Hz; [assumption|]. eapply wf_eps; eauto.
    - apply repeat_length.
    - intros t Ht. cbn. apply nth_repeat.
    - etransitivity; [exact (f_equal snd E)|]. cbn [snd app]. f_equal. unfold L. clear. induction ths as [|th l IH]; [reflexivity|]. cbn [flat_map]. rewrite map_app, IH, map_map. reflexivity.
  Qed.

  Theorem flat_lead b : flat_run_exec check width n tbl T = Some b -> forall W, lang check n W -> reads T 0 W (length T) -> kle (key0 b) (keyw width g W).
  Proof.
    destruct Hlazy as (E & E0 & HE). unfold flat_run_exec. cbn zeta. set (b0 := no_bounds g).
    assert (HP : pos width T (length T) = total_width width T) by (unfold pos; now rewrite firstn_all).
    assert (ST : forall j ths, j <= length T -> (forall th, In th ths -> fst th < length n /\ entered n (fst th)) ->
      pre_inv check width n g E (pos width T j) ths -> pre_dom check width T n g j ths ->
      let out := flat_eps_exec n tbl (pos width T j) (total_width width T) ths in
      post_inv key D check width n g E (pos width T j) out /\ post_dom check width T n g j out).
    { intros j ths Hj Hths I1 I2. cbn zeta. rewrite eps_raw by assumption. set (sel := ordered _ _).
      assert (R1 : post_inv key D check width n g E (pos width T j) (raw n sel (pos width T j) ths)).
      { eapply raw_inv with (P := P); eauto. eapply sel_ordered with (P := P); eauto. }
      split; [eapply dedup_post with (P := P); eauto|]. eapply dedup_dom_post with (P := P); eauto. eapply raw_dom with (P := P); eauto; [eapply sel_ordered with (P := P); eauto|].
      intros l p Hp Hl. unfold sel. apply (ordered_In width Hwidth); auto. }
    assert (LP : forall text j ths, j <= length T -> skipn j T = text -> post_inv key D check width n g E (pos width T j) ths -> post_dom check width T n g j ths ->
      option_map snd (find (fun th : nat * bounds => fst th + 1 =? length n) (flat_exec_loop check width n tbl (total_width width T) (pos width T j) ths text)) = Some b ->
      forall W, lang check n W -> reads T 0 W (length T) -> kle (key0 b) (keyw width g W)).
    { induction text as [|c text IH]; intros j ths Hj Hs I1 I2; cbn [flat_exec_loop]; cbn zeta.
      - assert (j = length T) as -> by (assert (X := skipn_length j T); rewrite Hs in X; cbn in X; lia).
        intros Hf. eapply end_dom with (P := P); eauto.
      - assert (Hc : nth_error T j = Some c) by (rewrite <- (firstn_skipn j T), Hs, nth_error_app2; rewrite firstn_length, Nat.min_l by lia; [now rewrite Nat.sub_diag|lia]).
        assert (Hj' : S j <= length T) by (apply nth_error_Some; congruence).
        assert (Ep : pos width T j + width c = pos width T (S j)) by (symmetry; now apply pos_S).
        rewrite Ep. set (ths1 := flat_sym_exec check n ths c).
        destruct (ST (S j) ths1 Hj') as [J1 J2].
        + intros [t b'] Hin. apply flat_sym_exec_In in Hin as (s & a & Hin & Ha & Hca). cbn [fst]. split; [eapply wf_trans; eauto|]. right; eauto.
        + rewrite <- Ep. eapply sym_inv with (P := P); eauto.
        + eapply sym_dom with (P := P); eauto.
        + destruct (flat_eps_exec n tbl (pos width T (S j)) (total_width width T) ths1) as [|t0 l0] eqn:Eo; [discriminate|].
          apply (IH (S j)); auto. clear - Hs Hc Hj'. apply (f_equal (skipn 1)) in Hs. cbn [skipn] in Hs. rewrite <- Hs. clear.
          revert j. induction T as [|x l IH]; intros [|j]; try reflexivity. cbn. apply IH. }
    intros Hf. change 0 with (pos width T 0) in Hf. revert Hf.
    destruct (init_inv key D P check HD width T n Hwf Hlen g Hg Hone Hmost E HE E0) as [I1 I2].
    destruct (ST 0 [(0, b0)]) as [J1 J2]; [lia| |exact I1|exact I2|].
    - intros th [<-|[]]. cbn. split; [lia|now left].
    - apply LP; auto. lia.
  Qed.
End Lead.
