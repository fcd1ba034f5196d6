(** Topological ordering. *)
From Verif Require Export PRun.
From Coq Require Import ZifyBool ZifyNat Relation_Operators Permutation.
Open Scope nat_scope.
Open Scope list_scope.
Set Default Proof Using "Type".

Section Topo.
  Variable n : nfa range.
  Hypothesis Hwf : wf n.
  Hypothesis Hlen : 1 <= length n.
  Definition succs (s : nat) : list nat := map fst (eps (get n s)) ++ map fst (trans (get n s)).
  Definition edge1 (x y : nat) : Prop := In y (succs x).
  Notation plus := (clos_trans_1n nat edge1).
  Lemma succs_iff x y : edge1 x y <-> (exists e, In (y, e) (eps (get n x))) \/ (exists a, In (y, a) (trans (get n x))).
  Proof.
    unfold edge1, succs. rewrite in_app_iff, !in_map_iff. split.
    - intros [([t e] & <- & H)|([t e] & <- & H)]; eauto.
    - intros [(e & H)|(a & H)]; [left|right]; eexists; (split; [|exact H]); reflexivity.
  Qed.
  Lemma edge1_lt x y : edge1 x y -> y < length n.
  Proof using Hwf. intros H. apply succs_iff in H as [(e & H)|(a & H)]; [eapply wf_eps|eapply wf_trans]; eauto. Qed.
  Definition node (i : topo_item) : nat := match i with PreVisit s | PostVisit s => s end.
  Definition pushes (s : nat) : list topo_item :=
    rev (map (fun e => PreVisit (fst e)) (eps (get n s))) ++ rev (map (fun t => PreVisit (fst t)) (trans (get n s))).
  Lemma pushes_In s i : In i (pushes s) <-> exists y, i = PreVisit y /\ edge1 s y.
  Proof.
    unfold pushes, edge1, succs. rewrite in_app_iff, <- !in_rev, !in_map_iff. split.
    - intros [([t e] & <- & H)|([t e] & <- & H)]; eexists; (split; [reflexivity|]); apply in_or_app; [left|right]; apply in_map_iff; eexists; (split; [|exact H]); reflexivity.
    - intros (y & -> & H). apply in_app_or in H as [H|H]; apply in_map_iff in H as ([t e] & <- & H); [left|right]; eexists; (split; [|exact H]); reflexivity.
  Qed.
  Definition outdeg (s : nat) : nat := length (trans (get n s)) + length (eps (get n s)).
  Lemma pushes_length s : length (pushes s) = outdeg s.
  Proof. unfold pushes, outdeg. rewrite app_length, !rev_length, !map_length. apply Nat.add_comm. Qed.
  Definition posts (st : list topo_item) : list nat := flat_map (fun i => match i with PostVisit s => [s] | _ => [] end) st.
  Lemma posts_In st x : In x (posts st) <-> In (PostVisit x) st.
  Proof.
    unfold posts. rewrite in_flat_map. split.
    - intros ([s|s] & H & Hx); [destruct Hx|]. destruct Hx as [<-|[]]. exact H.
    - intros H. exists (PostVisit x). split; [exact H|now left].
  Qed.
  Lemma posts_pushes s st : posts (pushes s ++ st) = posts st.
  Proof.
    unfold posts. rewrite flat_map_app. assert (E : forall l, (forall i, In i l -> exists y, i = PreVisit y) -> flat_map (fun i => match i with PostVisit s => [s] | _ => [] end) l = []).
    { induction l as [|i l IH]; intros H; [reflexivity|]. cbn. destruct (H i (or_introl eq_refl)) as (y & ->). apply IH. intros j Hj. apply H. now right. }
    rewrite E; [reflexivity|]. intros i Hi. apply pushes_In in Hi as (y & -> & _). eauto.
  Qed.
  Lemma pushes_split s st st1 x st2 : pushes s ++ PostVisit s :: st = st1 ++ PostVisit x :: st2 ->
    (st1 = pushes s /\ x = s /\ st2 = st) \/ (exists st1', st1 = pushes s ++ PostVisit s :: st1' /\ st = st1' ++ PostVisit x :: st2).
  Proof.
    assert (G : forall p st1, (forall i, In i p -> exists y, i = PreVisit y) -> p ++ PostVisit s :: st = st1 ++ PostVisit x :: st2 ->
      (st1 = p /\ x = s /\ st2 = st) \/ (exists st1', st1 = p ++ PostVisit s :: st1' /\ st = st1' ++ PostVisit x :: st2)).
    { induction p as [|i p IH]; intros s1 Hp E; cbn in E.
      - destruct s1 as [|j s1]; cbn in E; injection E as E1 E2; [left; subst; auto|]. right. exists s1. subst. auto.
      - destruct s1 as [|j s1]; cbn in E; injection E as E1 E2.
        + destruct (Hp i (or_introl eq_refl)) as (y & ->). discriminate.
        + destruct (IH s1) as [(-> & -> & ->)|(s1' & -> & ->)]; [intros k Hk; apply Hp; now right|assumption| |].
          * left. subst. auto.
          * right. exists s1'. subst. auto. }
    apply G. intros i Hi. apply pushes_In in Hi as (y & -> & _). eauto.
  Qed.
  Definition idle (active : list bool) : nat :=
    list_sum (map (fun x => if nth x active false then 0 else S (outdeg x)) (seq 0 (length n))).
  Lemma idle_step active s : length active = length n -> s < length n -> nth s active false = false -> idle active = S (outdeg s) + idle (upd s true active).
  Proof.
    intros Hl Hs Ha. unfold idle. assert (E : seq 0 (length n) = seq 0 s ++ s :: seq (S s) (length n - S s)).
    { rewrite <- (firstn_skipn s (seq 0 (length n))) at 1. replace (length n) with (s + S (length n - S s)) by (clear - Hs; lia). rewrite seq_app. cbn [seq Nat.add].
      rewrite firstn_app, seq_length, Nat.sub_diag, firstn_O, app_nil_r, firstn_all2 by (now rewrite seq_length). f_equal.
      rewrite skipn_app, seq_length, Nat.sub_diag, skipn_all2 by (now rewrite seq_length). cbn. do 2 f_equal. clear - Hs. lia. }
    assert (HE : forall l, ~ In s l -> map (fun x => if nth x (upd s true active) false then 0 else S (outdeg x)) l = map (fun x => if nth x active false then 0 else S (outdeg x)) l).
    { intros l Hn. apply map_ext_in. intros x Hx. rewrite nth_upd. destruct (Nat.eqb_spec x s); [subst; contradiction|]. reflexivity. }
    assert (LS : forall a b, list_sum (a :: b) = a + list_sum b) by reflexivity.
    rewrite E, !map_app, !list_sum_app. cbn [map]. rewrite !LS. rewrite !HE by (rewrite in_seq; clear; lia). rewrite Ha, nth_upd, Nat.eqb_refl, Hl.
    destruct (Nat.ltb_spec s (length n)) as [_|X]; [|exfalso; clear - Hs X; lia]. cbn [andb]. clear. lia.
  Qed.
  Lemma idle_start : idle (repeat false (length n)) = edge_count n + length n.
  Proof.
    unfold idle. rewrite (map_ext_in _ (fun x => S (outdeg x))) by (intros x _; now rewrite nth_repeat_false).
    unfold outdeg, edge_count, get. clear. induction n as [|s l IH]; [reflexivity|]. cbn [length seq map nth].
    rewrite <- seq_shift, map_map. cbn [nth fold_right].
    match goal with |- list_sum (?a :: ?b) = _ => change (list_sum (a :: b)) with (a + list_sum b) end. cbn beta. rewrite IH. lia.
  Qed.

  Record tinv (done active : list bool) (order : list nat) (stack : list topo_item) : Prop := {
    i_done_len : length done = length n;
    i_act_len : length active = length n;
    i_done : forall x, nth x done false = true <-> In x order;
    i_nodup : NoDup order;
    i_posts : NoDup (posts stack);
    i_act : forall x, nth x active false = true <-> In x order \/ In x (posts stack);
    i_sep : forall x, In x order -> ~ In x (posts stack);
    i_topo : forall l1 x l2, order = l1 ++ x :: l2 -> forall y, edge1 x y -> In y l2;
    i_stack : forall st1 x st2, stack = st1 ++ PostVisit x :: st2 ->
                (forall i, In i st1 -> plus x (node i)) /\ (forall y, edge1 x y -> In y order \/ In y (map node st1));
    i_from : forall x, In x order \/ In x (map node stack) -> x < length n /\ (x = 0 \/ plus 0 x);
    i_zero : In 0 order \/ In 0 (map node stack) }.

  (** A cycle reached from the start. *)
  Definition cyclic : Prop := exists x, (x = 0 \/ plus 0 x) /\ plus x x.
  Definition topo_post (o : option (list nat)) : Prop :=
    match o with
    | Some l => NoDup l /\ length l = length n /\ (forall l1 x l2, l = l1 ++ x :: l2 -> forall y, edge1 x y -> In y l2) /\
                (forall x, In x l -> x < length n /\ (x = 0 \/ plus 0 x))
    | None => cyclic \/ exists x, x < length n /\ ~ (x = 0 \/ plus 0 x)
    end.
  Lemma topo_end done active order : tinv done active order [] ->
    topo_post (if length order =? length n then Some order else None).
  Proof.
    intros HI. destruct HI. destruct (Nat.eqb_spec (length order) (length n)) as [E|E].
    + repeat split; auto; try (apply i_from0; auto).
    + right. assert (Hl : length order < length n).
      { assert (X : length order <= length (seq 0 (length n))) by (apply NoDup_incl_length; [assumption|]; intros x Hx; apply in_seq; split; [apply Nat.le_0_l|]; apply i_from0; auto). rewrite seq_length in X. clear - X E. lia. }
      assert (D : exists x, x < length n /\ ~ In x order).
      { destruct (existsb (fun x => negb (existsb (Nat.eqb x) order)) (seq 0 (length n))) eqn:Ex.
        - apply existsb_exists in Ex as (x & Hx & Hn). exists x. apply in_seq in Hx. split; [apply Hx|]. intros Hi. apply negb_true_iff in Hn.
          apply not_true_iff_false in Hn. apply Hn. apply existsb_exists. exists x. split; [assumption|apply Nat.eqb_refl].
        - exfalso. assert (X : length (seq 0 (length n)) <= length order); [|rewrite seq_length in X; clear - X Hl; lia]. apply NoDup_incl_length; [apply seq_NoDup|].
          intros x Hx. destruct (existsb (Nat.eqb x) order) eqn:E2; [apply existsb_exists in E2 as (y & Hy & E2); apply Nat.eqb_eq in E2; now subst|].
          apply not_true_iff_false in Ex. exfalso. apply Ex. apply existsb_exists. exists x. split; [assumption|]. now rewrite E2. }
      destruct D as (x & Hx & Hn). exists x. split; [assumption|].
      assert (Hz : In 0 order) by (destruct i_zero0 as [?|[]]; assumption).
      assert (Cl : forall a b, In a order -> edge1 a b -> In b order).
      { intros a b Ha Hab. apply in_split in Ha as (l1 & l2 & ->). apply (i_topo0 l1 a l2 eq_refl) in Hab. apply in_or_app. right. now right. }
      assert (G : forall a b, plus a b -> In a order -> In b order) by (intros a b Hp; induction Hp; intros Ha; eauto).
      intros [->|Hp]; [contradiction|]. apply Hn. eapply G; eauto.
  Qed.
  Lemma plus_app a b c : plus a b -> plus b c -> plus a c.
  Proof. intros H1 H2. induction H1; eapply t1n_trans; eauto. Qed.
  Lemma nth_upd_true l s x : s < length l -> (nth x (upd s true l) false = true <-> x = s \/ nth x l false = true).
  Proof.
    intros Hs. rewrite nth_upd. destruct (Nat.eqb_spec x s) as [->|N]; cbn [andb].
    - destruct (Nat.ltb_spec s (length l)) as [_|X]; [tauto|exfalso; clear - Hs X; lia].
    - tauto.
  Qed.
  Lemma tinv_skip done active order s st : tinv done active order (PreVisit s :: st) -> nth s done false = true -> tinv done active order st.
  Proof.
    intros H Hd. destruct H. apply i_done0 in Hd. split; auto.
    - intros st1 x st2 E. destruct (i_stack0 (PreVisit s :: st1) x st2) as (A & B); [now rewrite E|]. split.
      + intros i Hi. apply A. now right.
      + intros y Hy. destruct (B y Hy) as [?|[<-|?]]; auto.
    - intros x Hx. apply i_from0. destruct Hx as [Hx|Hx]; [now left|]. right. now right.
    - destruct i_zero0 as [?|[<-|?]]; auto.
  Qed.
  Lemma tinv_open done active order s st : tinv done active order (PreVisit s :: st) -> nth s done false = false -> nth s active false = false ->
    tinv done (upd s true active) order (pushes s ++ PostVisit s :: st).
  Proof using Hwf.
    intros H Hd Ha. destruct H. 
    assert (Hs : s < length n /\ (s = 0 \/ plus 0 s)) by (apply i_from0; right; now left). destruct Hs as (Hs & Hr).
    assert (No : ~ In s order) by (intros X; apply i_done0 in X; congruence).
    assert (Np : ~ In s (posts st)) by (intros X; assert (Y : nth s active false = true) by (apply i_act0; now right); congruence).
    assert (Pp : posts (pushes s ++ PostVisit s :: st) = s :: posts st) by (rewrite posts_pushes; reflexivity).
    split; auto.
    - now rewrite upd_length.
    - rewrite Pp. constructor; assumption.
    - intros x. rewrite nth_upd_true by (now rewrite i_act_len0). rewrite i_act0, Pp. cbn [In posts flat_map app]. split.
      + intros [->|[?|?]]; tauto.
      + intros [?|[<-|?]]; tauto.
    - intros x Hx. rewrite Pp. intros [<-|Hi]; [contradiction|]. exact (i_sep0 x Hx Hi).
    - intros st1 x st2 E. apply pushes_split in E as [(-> & -> & ->)|(st1' & -> & ->)].
      + split.
        * intros i Hi. apply pushes_In in Hi as (y & -> & Hy). apply t1n_step. exact Hy.
        * intros y Hy. right. apply in_map_iff. exists (PreVisit y). split; [reflexivity|]. apply pushes_In. eauto.
      + destruct (i_stack0 (PreVisit s :: st1') x st2) as (A & B); [reflexivity|].
        assert (X : plus x s) by (apply (A (PreVisit s)); now left). split.
        * intros i Hi. apply in_app_or in Hi as [Hi|[<-|Hi]].
          -- apply pushes_In in Hi as (y & -> & Hy). eapply plus_app; [exact X|]. apply t1n_step. exact Hy.
          -- exact X.
          -- apply A. now right.
        * intros y Hy. rewrite map_app. destruct (B y Hy) as [?|[<-|?]]; [now left| |]; right; apply in_or_app; right; [now left|now right].
    - intros x [Hx|Hx]; [apply i_from0; now left|]. rewrite map_app in Hx. apply in_app_or in Hx as [Hx|[<-|Hx]].
      + apply in_map_iff in Hx as (i & <- & Hi). apply pushes_In in Hi as (y & -> & Hy). split; [eapply edge1_lt; exact Hy|].
        right. destruct Hr as [->|Hr]; [apply t1n_step; exact Hy|]. eapply plus_app; [exact Hr|apply t1n_step; exact Hy].
      + auto.
      + apply i_from0. right. now right.
    - destruct i_zero0 as [?|[E|?]]; [now left| |]; right; rewrite map_app; apply in_or_app; right; [left; exact E|now right].
  Qed.
  Lemma tinv_close done active order s st : tinv done active order (PostVisit s :: st) -> tinv (upd s true done) active (s :: order) st.
  Proof.
    intros H. destruct H. cbn [posts flat_map app] in *. fold (posts st) in *.
    assert (Hs : s < length n) by (apply i_from0; right; now left).
    assert (No : ~ In s order) by (intros X; apply (i_sep0 s X); now left).
    inversion i_posts0 as [|? ? Np Nd]; subst.
    split; auto.
    - now rewrite upd_length.
    - intros x. rewrite nth_upd_true by (now rewrite i_done_len0). rewrite i_done0. cbn. split; intros [?|?]; auto.
    - now constructor.
    - intros x. rewrite i_act0. cbn. tauto.
    - intros x [<-|Hx]; [exact Np|]. intros Hi. apply (i_sep0 x Hx). now right.
    - intros l1 x l2 E y Hy. destruct l1 as [|a l1]; cbn in E; injection E as E1 E2.
      + subst. destruct (i_stack0 [] x st eq_refl) as (_ & B). destruct (B y Hy) as [?|[]]. assumption.
      + eapply i_topo0; eauto.
    - intros st1 x st2 E. destruct (i_stack0 (PostVisit s :: st1) x st2) as (A & B); [now rewrite E|]. split.
      + intros i Hi. apply A. now right.
      + intros y Hy. destruct (B y Hy) as [?|[<-|?]]; [left; now right|left; now left|now right].
    - intros x [[<-|Hx]|Hx]; apply i_from0; [right; now left|now left|right; now right].
    - destruct i_zero0 as [?|[E|?]]; [left; now right|left; now left|now right].
  Qed.
  Lemma topo_loop_spec fuel : forall done active order stack, tinv done active order stack -> length stack + idle active <= fuel ->
    exists o, topo_loop fuel n done active order stack = Ok o /\ topo_post o.
  Proof using Hwf.
    induction fuel as [|f IH]; intros done active order stack HI Hf.
    - destruct stack as [|i st]; [|cbn in Hf; clear - Hf; lia]. cbn [topo_loop]. eexists. split; [reflexivity|]. eapply topo_end; eauto.
    - destruct stack as [|i st]; cbn [topo_loop]; [eexists; split; [reflexivity|]; eapply topo_end; eauto|].
      cbn [length] in Hf. destruct i as [s|s].
      + destruct (nth s done false) eqn:Ed; [|destruct (nth s active false) eqn:Ea].
        * apply IH; [eapply tinv_skip; eauto|clear - Hf; lia].
        * eexists. split; [reflexivity|]. left. destruct HI. apply i_act0 in Ea as [Ea|Ea]; [apply i_done0 in Ea; congruence|].
          exists s. split; [apply i_from0; right; now left|]. apply (posts_In (PreVisit s :: st)) in Ea. destruct Ea as [Ea|Ea]; [discriminate|].
          apply in_split in Ea as (a & b & ->). destruct (i_stack0 (PreVisit s :: a) s b eq_refl) as (A & _). apply (A (PreVisit s)). now left.
        * rewrite app_assoc. fold (pushes s). apply IH; [apply tinv_open; assumption|].
          rewrite (idle_step active s) in Hf; [|apply (i_act_len _ _ _ _ HI)|apply (i_from _ _ _ _ HI s); right; now left|assumption].
          rewrite app_length, pushes_length. cbn [length]. clear - Hf. lia.
      + apply IH; [eapply tinv_close; eauto|clear - Hf; lia].
  Qed.
  Lemma tinv_start : tinv (repeat false (length n)) (repeat false (length n)) [] [PreVisit 0].
  Proof using Hlen.
    split.
    - apply repeat_length.
    - apply repeat_length.
    - intros x. rewrite nth_repeat_false. cbn. split; [discriminate|tauto].
    - constructor.
    - constructor.
    - intros x. rewrite nth_repeat_false. cbn. split; [discriminate|tauto].
    - intros x [].
    - intros l1 x l2 E. destruct l1; discriminate.
    - intros st1 x st2 E. destruct st1 as [|? [|? ?]]; discriminate.
    - intros x [[]|[<-|[]]]. split; [exact Hlen|now left].
    - right. now left.
  Qed.
  Lemma topological_ordering_run : exists o, topological_ordering n = Ok o /\ topo_post o.
  Proof using Hwf Hlen.
    unfold topological_ordering. assert (G : wfb n && (1 <=? length n) = true).
    { apply andb_true_iff. split; [apply wfb_iff; exact Hwf|apply Nat.leb_le; exact Hlen]. }
    rewrite G. cbn [guard bind]. apply topo_loop_spec; [apply tinv_start|]. rewrite idle_start. cbn [length]. clear. lia.
  Qed.
End Topo.

Section TopoSpec.
  Variable n : nfa range.
  Notation plus := (clos_trans_1n nat (edge1 n)).
  Lemma arrow_edge x y : arrow n x y <-> edge1 n x y.
  Proof. symmetry. apply succs_iff. Qed.
  Lemma plus_linked x y : x = y \/ plus x y <-> linked n x y.
  Proof.
    split.
    - intros [->|H]; [constructor|]. induction H as [x y H|x y z H Hp IH]; apply arrow_edge in H as [(e & H)|(a & H)]; [eapply lk_eps|eapply lk_sym|eapply lk_eps|eapply lk_sym]; eauto; constructor.
    - assert (G : forall a b c, edge1 n a b -> b = c \/ plus b c -> a = c \/ plus a c).
      { intros a b c Hab [->|Hbc]; right; [now apply t1n_step|]. eapply t1n_trans; eauto. }
      induction 1 as [s|s t u e H Hp IH|s t u a H Hp IH]; [now left| |]; (eapply G; [|exact IH]); apply arrow_edge; [left|right]; eauto.
  Qed.
  Lemma plus_arrow x y : plus x y <-> exists z, arrow n x z /\ linked n z y.
  Proof.
    split.
    - intros H. inversion H; subst; eexists; (split; [apply arrow_edge; eassumption|]); apply plus_linked; auto.
    - intros (z & H1 & H2). apply arrow_edge in H1. apply plus_linked in H2 as [->|H2]; [now apply t1n_step|]. eapply t1n_trans; eauto.
  Qed.
  Lemma topo_acyclic l : NoDup l -> (forall l1 x l2, l = l1 ++ x :: l2 -> forall y, arrow n x y -> In y l2) -> forall x, In x l -> ~ plus x x.
  Proof.
    intros Hn Ht x Hx Hp. apply in_split in Hx as (l1 & l2 & ->).
    assert (C : forall a b, In a l2 -> edge1 n a b -> In b l2).
    { intros a b Ha Hab. apply in_split in Ha as (m1 & m2 & ->). apply arrow_edge in Hab. apply in_or_app. right. right.
      apply (Ht (l1 ++ x :: m1) a m2); [now rewrite <- app_assoc|assumption]. }
    assert (G : forall a b, plus a b -> In a l2 -> In b l2) by (intros a b H; induction H; eauto).
    assert (X : In x l2).
    { inversion Hp as [y H|y z H Hp']; subst; [eapply Ht; [reflexivity|now apply arrow_edge]|]. eapply G; [exact Hp'|]. eapply Ht; [reflexivity|now apply arrow_edge]. }
    apply NoDup_remove_2 in Hn. apply Hn. apply in_or_app. now right.
  Qed.
  (** C26 *)
  Lemma topological_spec : closed n -> 1 <= length n ->
    exists o, topological_ordering n = Ok o /\
      match o with
      | Some l => Permutation l (seq 0 (length n)) /\ (forall l1 x l2, l = l1 ++ x :: l2 -> forall y, arrow n x y -> In y l2) /\
                  (forall x, x < length n -> linked n 0 x) /\ no_cycle n
      | None => (exists s t, linked n 0 s /\ arrow n s t /\ linked n t s) \/ (exists x, x < length n /\ ~ linked n 0 x)
      end.
  Proof.
    intros Hw Hl. assert (Hc := Hw). apply closed_wf in Hw. destruct (topological_ordering_run n Hw Hl) as (o & Eo & Ho). exists o. split; [assumption|].
    destruct o as [l|].
    - destruct Ho as (Hn & Hlen & Ht & Hf).
      assert (Ht' : forall l1 x l2, l = l1 ++ x :: l2 -> forall y, arrow n x y -> In y l2) by (intros l1 x l2 E y Hy; eapply Ht; eauto; now apply arrow_edge).
      assert (P : Permutation l (seq 0 (length n))).
      { apply NoDup_Permutation_bis; [assumption|rewrite seq_length; lia|]. intros x Hx. apply in_seq. split; [lia|]. apply Hf. assumption. }
      assert (A : forall x, x < length n -> In x l) by (intros x Hx; apply (Permutation_in _ (Permutation_sym P)); apply in_seq; lia).
      split; [assumption|]. split; [assumption|]. split.
      + intros x Hx. apply plus_linked. destruct (Hf x (A x Hx)) as [_ [->|H]]; auto.
      + intros s t H1 H2. apply (topo_acyclic l Hn Ht' t).
        * apply A. apply (Hc s t). exact H1.
        * apply plus_linked in H2 as [->|H2]; [apply t1n_step; now apply arrow_edge|]. eapply plus_app; [exact H2|]. apply t1n_step. now apply arrow_edge.
    - destruct Ho as [(x & H1 & H2)|(x & H1 & H2)].
      + left. apply plus_arrow in H2 as (t & H2 & H3). exists x, t. split; [|auto]. apply plus_linked. destruct H1 as [->|H1]; auto.
      + right. exists x. split; [assumption|]. intros H. apply H2. apply plus_linked in H as [<-|H]; auto.
  Qed.
End TopoSpec.
