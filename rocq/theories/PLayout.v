(** Layout of drawings. *)
From Coq Require Import String ZArith.
From Verif Require Export PTopo SpecDraw.
From Coq Require Import ZifyBool ZifyNat Relation_Operators Permutation.
Open Scope nat_scope.
Open Scope list_scope.
Set Default Proof Using "Type".

(** ** The cycle check is the topological sort without loops *)
Definition proper (g : graph) (x : nat) : list gtrans := filter (fun tr => negb (fst tr =? x)) (gsucc g x).
Definition plain (g : graph) : nfa range :=
  map (fun x => mkState [] (map (fun tr => (fst tr, ENone)) (proper g x))) (seq 0 (length g)).
Lemma plain_length g : length (plain g) = length g.
Proof. unfold plain. now rewrite map_length, seq_length. Qed.
Lemma gsucc_out g x : length g <= x -> gsucc g x = [].
Proof. intros H. unfold gsucc. now rewrite (proj2 (nth_error_None g x) H). Qed.
Lemma plain_get g x : get (plain g) x = mkState [] (map (fun tr => (fst tr, ENone)) (proper g x)).
Proof.
  unfold get, plain. destruct (Nat.lt_ge_cases x (length g)) as [H|H].
  - match goal with |- nth _ (map ?f _) _ = _ => rewrite (nth_indep (map f (seq 0 (length g))) empty_state (f 0)) by (now rewrite map_length, seq_length); rewrite (map_nth f) end.
    now rewrite seq_nth.
  - rewrite nth_overflow by (now rewrite map_length, seq_length). unfold proper. now rewrite gsucc_out.
Qed.
Lemma arc_proper g x y : arc g x y <-> exists l, In (y, l) (proper g x).
Proof.
  unfold arc, proper, gsucc. split.
  - intros (N & s & l & E & H). exists l. rewrite E. apply filter_In. split; [assumption|]. cbn [fst]. destruct (Nat.eqb_spec y x) as [->|_]; [now elim N|reflexivity].
  - intros (l & H). destruct (nth_error g x) as [s|] eqn:E; [|destruct H]. apply filter_In in H as (H & N). cbn in N. split; [|eauto].
    destruct (Nat.eqb_spec y x); [discriminate|congruence].
Qed.
Lemma arc_edge g x y : edge1 (plain g) x y <-> arc g x y.
Proof.
  rewrite arc_proper. unfold edge1, succs. rewrite plain_get. cbn [eps trans map]. rewrite app_nil_r, map_map. rewrite in_map_iff. split.
  - intros ([t l] & <- & H). eauto.
  - intros (l & H). eexists. split; [|exact H]. reflexivity.
Qed.
Lemma trail_app g x k y l z : trail g x k y -> trail g y l z -> trail g x (k + l) z.
Proof. induction 1 as [|x y z' k A Hp IH]; intros H; [exact H|]. cbn. econstructor; eauto. Qed.
Lemma trail_snoc g x k y z : trail g x k y -> arc g y z -> trail g x (S k) z.
Proof. intros H A. rewrite <- Nat.add_1_r. eapply trail_app; [exact H|]. econstructor; [exact A|constructor]. Qed.
Lemma trail_plus g x y : clos_trans_1n nat (edge1 (plain g)) x y <-> exists k, trail g x (S k) y.
Proof.
  split.
  - induction 1 as [x y H|x y z H Hp (k & IH)]; apply arc_edge in H.
    + exists 0. econstructor; [exact H|constructor].
    + exists (S k). econstructor; eauto.
  - intros (k & H). revert x H. induction k as [|k IH]; intros x H; inversion H as [|? ? ? ? A Hp]; subst; apply arc_edge in A.
    + inversion Hp; subst. now apply t1n_step.
    + eapply t1n_trans; [exact A|]. apply IH. exact Hp.
Qed.
Lemma trail_from g x y : x = y \/ clos_trans_1n nat (edge1 (plain g)) x y <-> exists k, trail g x k y.
Proof.
  rewrite trail_plus. split.
  - intros [->|(k & H)]; [exists 0; constructor|eauto].
  - intros ([|k] & H); [inversion H; now left|right; eauto].
Qed.
Lemma ok_arc g x y : graph_ok g -> arc g x y -> x < length g /\ y < length g.
Proof.
  intros Hg (_ & s & l & E & H). split; [apply nth_error_Some; congruence|]. apply nth_error_In in E. eapply Hg; eauto.
Qed.
Lemma plain_wf g : graph_ok g -> wf (plain g).
Proof.
  intros Hg. apply closed_wf. intros s t H. apply (arrow_edge (plain g)) in H. apply arc_edge in H. rewrite plain_length. now apply (ok_arc g s t).
Qed.

Definition undag (i : dag_item) : topo_item := match i with DPre x _ => PreVisit x | DPost x => PostVisit x end.
Definition verdict {A} (r : res (option A)) : res bool :=
  match r with Ok (Some _) => Ok true | Ok None => Ok false | Panic => Panic | NoCompile => NoCompile | Fuel => Fuel end.
Lemma forallb_id_order (done : list bool) order n : length done = n -> (forall x, nth x done false = true <-> In x order) -> NoDup order ->
  (forall x, In x order -> x < n) -> forallb (fun b => b) done = (length order =? n).
Proof.
  intros Hl Hd Hn Hlt. apply eq_true_iff_eq. rewrite forallb_forall, Nat.eqb_eq. split.
  - intros H. apply Nat.le_antisymm.
    + rewrite <- (seq_length n 0). apply NoDup_incl_length; [assumption|]. intros x Hx. apply in_seq. split; [lia|]. now apply Hlt.
    + rewrite <- (seq_length n 0) at 1. apply NoDup_incl_length; [apply seq_NoDup|]. intros x Hx. apply in_seq in Hx. apply Hd. apply H. apply nth_In. lia.
  - intros E b Hb. apply (In_nth _ _ false) in Hb as (x & Hx & <-). apply Hd.
    assert (I : incl (seq 0 n) order).
    { apply NoDup_length_incl; [assumption|rewrite seq_length; lia|]. intros y Hy. apply in_seq. split; [lia|]. now apply Hlt. }
    apply I. apply in_seq. lia.
Qed.
Lemma nth_error_bool (l : list bool) x : x < length l -> nth_error l x = Some (nth x l false).
Proof. intros H. now apply nth_error_nth'. Qed.
Lemma check_loop_topo g (Hg : graph_ok g) fuel : forall done active order stack, tinv (plain g) done active order (map undag stack) ->
  check_loop fuel g done active stack = verdict (topo_loop fuel (plain g) done active order (map undag stack)).
Proof.
  induction fuel as [|f IH]; intros done active order stack HI; destruct stack as [|i st]; cbn [check_loop topo_loop map]; try reflexivity.
  1,2: destruct HI; rewrite (forallb_id_order done order (length (plain g))); auto; [destruct (length order =? length (plain g)); reflexivity|intros x Hx; apply i_from; now left].
  destruct i as [x d|x]; cbn [undag].
  - assert (Hx : x < length done).
    { destruct HI. rewrite i_done_len. apply i_from. right. now left. }
    rewrite (nth_error_bool done x Hx). destruct (nth x done false) eqn:Ed.
    + apply IH. eapply tinv_skip; eauto.
    + destruct (nth x active false) eqn:Ea; [reflexivity|].
      assert (E : map undag (rev (map (fun tr => DPre (fst tr) (S d)) (filter (fun tr => negb (fst tr =? x)) (gsucc g x))) ++ DPost x :: st)
                  = pushes (plain g) x ++ PostVisit x :: map undag st).
      { rewrite map_app. cbn [map undag]. f_equal. unfold pushes. rewrite plain_get. cbn [eps trans map rev]. rewrite app_nil_r, map_rev, !map_map. reflexivity. }
      rewrite (IH done (upd x true active) order).
      * rewrite E. unfold pushes. rewrite <- app_assoc. reflexivity.
      * rewrite E. apply tinv_open; auto. now apply plain_wf.
  - apply IH. eapply tinv_close; eauto.
Qed.
Lemma plain_edges g : edge_count (plain g) <= arc_count g.
Proof.
  assert (G : forall l k, (forall i, i < length l -> nth_error g (k + i) = nth_error l i) ->
    fold_right (fun s c => length (trans s) + length (eps s) + c) 0 (map (fun x => mkState (A := range) [] (map (fun tr => (fst tr, ENone)) (proper g x))) (seq k (length l))) <= arc_count l).
  { induction l as [|s l IH]; intros k H; [reflexivity|]. cbn [length seq map fold_right arc_count trans eps].
    rewrite map_length. fold (arc_count l).
    assert (X : length (proper g k) <= length (g_trans s)).
    { unfold proper, gsucc. specialize (H 0). cbn in H. rewrite Nat.add_0_r in H. rewrite H by lia. clear. generalize (g_trans s). intros t. induction t as [|a t IHt]; [reflexivity|]. cbn. destruct (negb (fst a =? k)); cbn; lia. }
    assert (Y := IH (S k)). 
    assert (Z : forall i, i < length l -> nth_error g (S k + i) = nth_error l i) by (intros i Hi; replace (S k + i) with (k + S i) by lia; apply (H (S i)); cbn; lia).
    specialize (Y Z). apply Nat.add_le_mono; [exact X|exact Y]. }
  unfold edge_count, plain. apply (G g 0). intros i _. reflexivity.
Qed.
Lemma check_dag_run g : graph_ok g -> g <> [] ->
  exists o, check_dag g = verdict (Ok o) /\ topo_post (plain g) o.
Proof.
  intros Hg Hn. destruct (topo_loop_spec (plain g) (plain_wf g Hg) (arc_count g + length g + 2) (repeat false (length g)) (repeat false (length g)) [] [PreVisit 0]) as (o & E & Ho).
  - rewrite <- plain_length. apply tinv_start. rewrite plain_length. destruct g; [congruence|cbn; lia].
  - assert (I := idle_start (plain g)). rewrite plain_length in I. rewrite I. cbn [length]. assert (X := plain_edges g). lia.
  - exists o. split; [|exact Ho]. rewrite <- E. unfold check_dag. destruct g as [|s g]; [congruence|].
    rewrite (check_loop_topo _ Hg _ _ _ []); [reflexivity|]. cbn [map undag]. rewrite <- (plain_length (s :: g)). apply tinv_start. rewrite plain_length. cbn. lia.
Qed.
(** A trail never goes on for longer than an order of the nodes. *)
Lemma order_trail g l : (forall l1 x l2, l = l1 ++ x :: l2 -> forall y, edge1 (plain g) x y -> In y l2) ->
  forall k x y, trail g x k y -> forall l1 l2, l = l1 ++ x :: l2 -> k <= length l2.
Proof.
  intros Ht. induction k as [|k IH]; intros x y H l1 l2 E; [lia|]. inversion H as [|? z ? ? A Hp]; subst. apply arc_edge in A.
  assert (I := Ht l1 x l2 eq_refl z A). apply in_split in I as (m1 & m2 & ->).
  assert (X := IH z y Hp (l1 ++ x :: m1) m2). rewrite <- app_assoc in X. specialize (X eq_refl). rewrite app_length. cbn. lia.
Qed.
(** C40 *)
Lemma check_dag_spec g : graph_ok g -> exists b, check_dag g = Ok b /\ (b = true <-> layered g).
Proof.
  intros Hg. destruct g as [|s0 g0] eqn:Eg; [exists false; split; [reflexivity|]; split; [discriminate|intros (H & _); congruence]|]. rewrite <- Eg in *.
  destruct (check_dag_run g Hg) as (o & E & Ho); [rewrite Eg; discriminate|]. destruct o as [l|]; cbn [verdict] in E.
  - exists true. split; [assumption|]. split; [intros _|reflexivity]. destruct Ho as (Hn & Hl & Ht & Hf). split; [rewrite Eg; discriminate|].
    rewrite plain_length in *. assert (I : incl (seq 0 (length g)) l).
    { apply NoDup_length_incl; [assumption|rewrite seq_length; lia|]. intros y Hy. apply in_seq. split; [lia|]. now apply Hf. }
    split.
    + intros x Hx. apply trail_from. destruct (Hf x) as (_ & [->|H]); [apply I, in_seq; lia|now left|now right].
    + intros x k H. assert (R : forall m, trail g x (m * S k) x).
      { induction m as [|m IHm]; [constructor|]. cbn [Nat.mul]. eapply trail_app; eauto. }
      assert (Hx : x < length g) by (clear Eg; inversion H as [|? z ? ? A Hp]; subst; now apply (ok_arc g x z Hg A)).
      assert (Hin : In x l) by (apply I, in_seq; lia). apply in_split in Hin as (l1 & l2 & El).
      assert (X := order_trail g l Ht _ x x (R (S (length l2))) l1 l2 El). lia.
  - exists false. split; [assumption|]. split; [discriminate|]. intros (_ & Hr & Hc). exfalso. destruct Ho as [(x & _ & Hp)|(x & Hx & Hp)].
    + apply trail_plus in Hp as (k & Hp). exact (Hc x k Hp).
    + rewrite plain_length in Hx. apply Hp. destruct (Hr x Hx) as (k & H). assert (F := proj2 (trail_from g 0 x) (ex_intro _ k H)). destruct F as [<-|F]; auto.
Qed.
Lemma layered_bound g : graph_ok g -> layered g -> forall x k y, x < length g -> trail g x k y -> k < length g.
Proof.
  intros Hg HL x k y Hx H. destruct (check_dag_run g Hg (proj1 HL)) as (o & E & Ho). destruct (check_dag_spec g Hg) as (b & Eb & Hb).
  rewrite (proj2 Hb HL) in Eb. rewrite Eb in E. destruct o as [l|]; [|discriminate]. destruct Ho as (Hn & Hl & Ht & Hf). rewrite plain_length in *.
  assert (I : incl (seq 0 (length g)) l).
  { apply NoDup_length_incl; [assumption|rewrite seq_length; lia|]. intros z Hz. apply in_seq. split; [lia|]. now apply Hf. }
  assert (Hin : In x l) by (apply I, in_seq; lia). apply in_split in Hin as (l1 & l2 & El).
  assert (X := order_trail g l Ht k x y H l1 l2 El). rewrite <- Hl, El, app_length. cbn. lia.
Qed.

(** ** Depths *)
Lemma list_sum_cons a l : list_sum (a :: l) = a + list_sum l.
Proof. reflexivity. Qed.
Lemma sum_point (f f' : nat -> nat) x n : x < n -> (forall y, y <> x -> f y = f' y) ->
  list_sum (map f (seq 0 n)) + f' x = list_sum (map f' (seq 0 n)) + f x.
Proof.
  intros Hx He. induction n as [|n IH]; [lia|]. rewrite seq_S, !map_app, !list_sum_app. cbn [map Nat.add]. rewrite !list_sum_cons. cbn [list_sum fold_right].
  destruct (Nat.eq_dec x n) as [->|N].
  - rewrite (map_ext_in f f') by (intros y Hy; apply in_seq in Hy; apply He; lia). lia.
  - rewrite (He n) by auto. assert (X : x < n) by lia. specialize (IH X). lia.
Qed.
Section Depth.
  Variable g : graph.
  Hypothesis Hg : graph_ok g.
  Hypothesis HL : layered g.
  Definition at_depth (depths : list (option nat)) (x d : nat) : Prop := nth_error depths x = Some (Some d).
  Record dinv (depths : list (option nat)) (m : nat) (stack : list (nat * nat)) : Prop := {
    v_len : length depths = length g;
    v_stack : forall x d, In (x, d) stack -> trail g 0 d x;
    v_at : forall x d, at_depth depths x d -> trail g 0 d x /\ d <= m;
    v_arc : forall x d y, at_depth depths x d -> arc g x y ->
              exists d', d < d' /\ (at_depth depths y d' \/ In (y, d') stack);
    v_zero : exists d, at_depth depths 0 d \/ In (0, d) stack;
    v_max : m = 0 \/ exists x d, at_depth depths x d /\ m <= d }.
  Definition spare (depths : list (option nat)) (x : nat) : nat :=
    match nth x depths None with None => length g | Some d => length g - 1 - d end.
  Definition left_over (depths : list (option nat)) : nat := list_sum (map (fun x => spare depths x * length (proper g x)) (seq 0 (length g))).
  Lemma trail_lt x d : trail g 0 d x -> x < length g /\ d < length g.
  Proof using Hg HL.
    intros H. assert (Hz : 0 < length g) by (destruct HL as (Hn & _); destruct g; [congruence|cbn; lia]). split.
    - destruct d as [|d]; [inversion H; subst; exact Hz|].
      assert (G : forall k a b, trail g a k b -> a < length g -> b < length g) by (induction 1 as [|a b c k A Hp IH]; intros Ha; [exact Ha|]; apply IH; now apply (ok_arc g a b)).
      eapply G; eauto.
    - eapply layered_bound; eauto.
  Qed.
  Lemma at_upd depths x d y e : x < length depths -> (at_depth (upd x (Some d) depths) y e <-> (y = x /\ e = d) \/ (y <> x /\ at_depth depths y e)).
  Proof.
    intros Hx. unfold at_depth. assert (E : nth_error (upd x (Some d) depths) y = if y =? x then Some (Some d) else nth_error depths y).
    { clear - Hx. revert x y Hx. induction depths as [|o l IH]; intros [|x] [|y] Hx; cbn in *; try lia; try reflexivity. apply IH. lia. }
    rewrite E. destruct (Nat.eqb_spec y x) as [->|N].
    - split; [intros H; injection H as ->; auto|intros [(_ & ->)|(H & _)]; [reflexivity|congruence]].
    - split; [auto|intros [(H & _)|(_ & H)]; [congruence|exact H]].
  Qed.
  Lemma left_step depths x d : x < length g -> length depths = length g -> d < length g -> (forall e, at_depth depths x e -> e < d) ->
    left_over (upd x (Some d) depths) + length (proper g x) <= left_over depths.
  Proof.
    intros Hx Hl Hd He. unfold left_over.
    assert (P := sum_point (fun x => spare depths x * length (proper g x)) (fun x0 => spare (upd x (Some d) depths) x0 * length (proper g x0)) x (length g) Hx).
    cbn beta in P.
    assert (E : nth x (upd x (Some d) depths) None = Some d).
    { clear - Hx Hl. assert (H : x < length depths) by lia. clear Hx Hl. revert x H. induction depths as [|o l IH]; intros [|x] H; cbn in *; try lia; auto. apply IH. lia. }
    assert (F : forall y, y <> x -> nth y (upd x (Some d) depths) None = nth y depths None).
    { intros y N. clear - N. revert x y N. induction depths as [|o l IH]; intros [|x] [|y] N; cbn in *; try lia; auto. }
    assert (P' := P (fun y N => eq_sym (f_equal (fun o => match o with None => length g | Some d => length g - 1 - d end * length (proper g y)) (F y N)))).
    clear P. unfold spare at 2 4 in P'. rewrite E in P'.
    assert (G : length g - 1 - d + 1 <= match nth x depths None with None => length g | Some e => length g - 1 - e end).
    { destruct (nth x depths None) as [e|] eqn:En; [|lia]. assert (X : e < d).
      { apply He. unfold at_depth. rewrite <- En. apply nth_error_nth'. lia. } lia. }
    assert (M := Nat.mul_le_mono_r _ _ (length (proper g x)) G). rewrite Nat.mul_add_distr_r in M. lia.
  Qed.
  Lemma depth_loop_spec fuel : forall depths m stack, dinv depths m stack -> length stack + left_over depths <= fuel ->
    exists l, depth_loop fuel g depths m stack = Ok l /\ dinv (dl_depths l) (dl_max l) [].
  Proof using Hg HL.
    induction fuel as [|f IH]; intros depths m stack HI Hf; destruct stack as [|(x, d) st]; cbn [depth_loop]; try (eexists; split; [reflexivity|exact HI]).
    { cbn in Hf. lia. }
    cbn [length] in Hf.
    assert (Hd := v_stack _ _ _ HI x d (or_introl eq_refl)). destruct (trail_lt x d Hd) as (Hx & Hdl).
    assert (Hx' : x < length depths) by (rewrite (v_len _ _ _ HI); exact Hx).
    destruct (nth_error depths x) as [o|] eqn:Eo; [|apply nth_error_None in Eo; lia].
    destruct (match o with Some e => e <? d | None => true end) eqn:Eb.
    - assert (He : forall e, at_depth depths x e -> e < d).
      { intros e H. unfold at_depth in H. rewrite Eo in H. injection H as ->. now apply Nat.ltb_lt. }
      apply IH.
      + destruct HI. split.
        * now rewrite upd_length.
        * intros y e H. apply in_app_or in H as [H|H]; [|apply v_stack0; now right]. apply in_rev, in_map_iff in H as ([z l] & E & H). injection E as <- <-.
          eapply trail_snoc; [exact Hd|]. apply arc_proper. exists l. exact H.
        * intros y e H. apply at_upd in H as [(-> & ->)|(N & H)]; [split; [exact Hd|lia]| |exact Hx']. apply v_at0 in H as (H1 & H2). split; [exact H1|lia].
        * intros y e z H A. apply at_upd in H as [(-> & ->)|(N & H)]; [| |exact Hx'].
          -- exists (S d). split; [lia|]. right. apply in_or_app. left. apply -> in_rev. apply arc_proper in A as (l & A). apply in_map_iff. exists (z, l). split; [reflexivity|exact A].
          -- destruct (v_arc0 y e z H A) as (e' & L & [Ha|[Ha|Ha]]).
             ++ destruct (Nat.eq_dec z x) as [->|Nz]; [exists d; specialize (He _ Ha); split; [lia|]; left; apply at_upd; auto|].
                exists e'. split; [exact L|]. left. apply at_upd; auto.
             ++ injection Ha as -> ->. exists e'. split; [exact L|]. left. apply at_upd; auto.
             ++ exists e'. split; [exact L|]. right. apply in_or_app. now right.
        * destruct v_zero0 as (e & [Ha|[Ha|Ha]]).
          -- destruct (Nat.eq_dec 0 x) as [<-|Nz]; [exists d; left; apply at_upd; auto|]. exists e. left. apply at_upd; auto.
          -- injection Ha as -> ->. exists e. left. apply at_upd; auto.
          -- exists e. right. apply in_or_app. now right.
        * right. destruct v_max0 as [->|(y & e & H & L)].
          -- exists x, d. split; [apply at_upd; auto|lia].
          -- destruct (Nat.max_spec m d) as [(_ & ->)|(_ & ->)]; [exists x, d; split; [apply at_upd; auto|lia]|].
             destruct (Nat.eq_dec y x) as [->|Ny]; [exists x, d; specialize (He _ H); split; [apply at_upd; auto|lia]|]. exists y, e. split; [apply at_upd; auto|exact L].
      + rewrite app_length, rev_length, map_length. change (length (filter (fun tr : nat * list N => negb (fst tr =? x)) (gsucc g x))) with (length (proper g x)). assert (X := left_step depths x d Hx (v_len _ _ _ HI) Hdl He). lia.
    - apply IH; [|lia]. destruct o as [e|]; [|discriminate]. apply Nat.ltb_ge in Eb. destruct HI. split; auto.
      + intros y k H. apply v_stack0. now right.
      + intros y k z H A. destruct (v_arc0 y k z H A) as (k' & L & [Ha|[Ha|Ha]]); [eauto| |eauto].
        injection Ha as -> ->. exists e. split; [lia|]. left. exact Eo.
      + destruct v_zero0 as (k & [Ha|[Ha|Ha]]); [eauto| |eauto]. injection Ha as -> ->. exists e. left. exact Eo.
  Qed.
  Lemma dinv_start : dinv (repeat None (length g)) 0 [(0, 0)].
  Proof.
    assert (N : forall x d, ~ at_depth (repeat None (length g)) x d).
    { intros x d H. apply nth_error_In, repeat_spec in H. discriminate. }
    split.
    - apply repeat_length.
    - intros x d [H|[]]. injection H as <- <-. constructor.
    - intros x d H. now apply N in H.
    - intros x d y H. now apply N in H.
    - exists 0. right. now left.
    - now left.
  Qed.
  Lemma left_start : left_over (repeat None (length g)) <= length g * arc_count g.
  Proof.
    unfold left_over. rewrite (map_ext_in _ (fun x => length g * length (proper g x))).
    2:{ intros x Hx. unfold spare. replace (nth x (repeat None (length g)) None) with (@None nat); [reflexivity|]. generalize (length g). intros k. clear. revert x. induction k as [|k IH]; intros [|x]; cbn; auto. }
    assert (E : forall l k, list_sum (map (fun x => k * length (proper g x)) l) = k * list_sum (map (fun x => length (proper g x)) l)).
    { induction l as [|a l IH]; intros k; cbn [map]; [cbn; lia|]. rewrite !list_sum_cons, IH. lia. }
    rewrite E. apply Nat.mul_le_mono_l.
    assert (P := plain_edges g). unfold edge_count, plain in P. etransitivity; [|exact P]. clear. induction (seq 0 (length g)) as [|a l IH]; [reflexivity|].
    cbn [map fold_right trans eps]. rewrite list_sum_cons, map_length. cbn [length]. apply Nat.add_le_mono; [reflexivity|exact IH].
  Qed.
  (** What a layout is *)
  Definition layout_right (l : dag_layout) : Prop :=
    length (dl_depths l) = length g /\
    (forall x, x < length g -> exists d, at_depth (dl_depths l) x d /\ longest g 0 x d) /\
    (forall x d, at_depth (dl_depths l) x d -> d <= dl_max l) /\
    (exists x, at_depth (dl_depths l) x (dl_max l)).
  Lemma dinv_end l : dinv (dl_depths l) (dl_max l) [] -> layout_right l.
  Proof using Hg HL.
    intros HI. destruct HI. assert (R : forall k x, trail g 0 k x -> exists d, at_depth (dl_depths l) x d /\ k <= d).
    { assert (G : forall k x y, trail g x k y -> forall d, at_depth (dl_depths l) x d -> exists e, at_depth (dl_depths l) y e /\ d + k <= e).
      { induction 1 as [x|x y z k A Hp IH]; intros d H; [exists d; split; [exact H|lia]|]. destruct (v_arc0 x d y H A) as (d' & L & [Ha|[]]).
        destruct (IH d' Ha) as (e & He & Le). exists e. split; [exact He|lia]. }
      intros k x H. destruct v_zero0 as (d & [Ha|[]]). destruct (G k 0 x H d Ha) as (e & He & Le). exists e. split; [exact He|lia]. }
    split; [assumption|]. split; [|split].
    - intros x Hx. destruct HL as (_ & Hr & _). destruct (Hr x Hx) as (k & Hk). destruct (R k x Hk) as (d & Hd & _). exists d. split; [exact Hd|]. split; [now apply v_at0|].
      intros k' Hk'. destruct (R k' x Hk') as (e & He & Le). unfold at_depth in *. congruence.
    - intros x d H. now apply (v_at0 x d H).
    - destruct v_max0 as [E|(x & d & H & L)].
      + destruct v_zero0 as (d & [Ha|[]]). exists 0. assert (X := proj2 (v_at0 0 d Ha)). replace (dl_max l) with d by lia. exact Ha.
      + exists x. assert (X := proj2 (v_at0 x d H)). replace (dl_max l) with d by lia. exact H.
  Qed.
  Lemma dag_new_layered : exists l, dag_new g = Ok (Some l) /\ layout_right l.
  Proof using Hg HL.
    unfold dag_new. destruct (check_dag_spec g Hg) as (b & E & Hb). rewrite E, (proj2 Hb HL). cbn [bind].
    destruct (depth_loop_spec (length g * arc_count g + length g + 1) _ _ _ dinv_start) as (l & El & Hl).
    - assert (X := left_start). cbn [length]. lia.
    - rewrite El. cbn [bind]. exists l. split; [reflexivity|]. now apply dinv_end.
  Qed.
End Depth.
Lemma dag_new_not g : graph_ok g -> ~ layered g -> dag_new g = Ok None.
Proof.
  intros Hg Hn. unfold dag_new. destruct (check_dag_spec g Hg) as ([|] & E & Hb); rewrite E; cbn [bind]; [|reflexivity]. exfalso. apply Hn, Hb. reflexivity.
Qed.

(** ** Positions *)
Lemma nth_modify_S v d e : nth e (modify d S v) 0 = if (e =? d) && (d <? length v) then S (nth e v 0) else nth e v 0.
Proof.
  revert d e. induction v as [|a v IH]; intros d e.
  - destruct d, e; cbn; rewrite ?andb_false_r; reflexivity.
  - destruct d as [|d], e as [|e]; cbn [modify nth]; try reflexivity. rewrite IH. reflexivity.
Qed.
Lemma modify_length {A} d (f : A -> A) v : length (modify d f v) = length v.
Proof. revert d. induction v as [|a v IH]; intros [|d]; cbn; auto. Qed.
Fixpoint places (sz v : list nat) (ds : list nat) : list (nat * Z) :=
  match ds with
  | [] => []
  | d :: r => (d, (2 * Z.of_nat (nth d v O) - Z.of_nat (nth d sz O))%Z) :: places sz (modify d S v) r
  end.
Lemma places_low sz ds : forall v d y, In (d, y) (places sz v ds) -> (2 * Z.of_nat (nth d v O) - Z.of_nat (nth d sz O) <= y)%Z.
Proof.
  induction ds as [|e ds IH]; intros v d y; [intros []|]. cbn [places]. intros [H|H].
  - injection H as E1 E2. rewrite <- E2, E1. apply Z.le_refl.
  - apply IH in H. rewrite nth_modify_S in H. destruct (_ && _); lia.
Qed.
Lemma places_NoDup sz ds : forall v, (forall d, In d ds -> d < length v) -> NoDup (places sz v ds).
Proof.
  induction ds as [|d ds IH]; intros v Hv; cbn [places]; [constructor|]. constructor.
  - intros H. apply places_low in H. rewrite nth_modify_S, Nat.eqb_refl in H. destruct (Nat.ltb_spec d (length v)) as [_|X]; [cbn [andb] in H; lia|].
    specialize (Hv d (or_introl eq_refl)). lia.
  - apply IH. intros e He. rewrite modify_length. apply Hv. now right.
Qed.
Lemma places_nth sz ds : forall v x, option_map fst (nth_error (places sz v ds) x) = nth_error ds x.
Proof. induction ds as [|d ds IH]; intros v [|x]; cbn; auto. Qed.
Lemma dag_place_spec l ds : dl_depths l = map Some ds -> (forall d, In d ds -> d <= dl_max l) ->
  exists ps, dag_place l = Ok ps /\ NoDup ps /\ map fst ps = ds.
Proof.
  intros Ed Hd. unfold dag_place. rewrite Ed.
  assert (S1 : forall r v, (forall d, In d r -> d <= dl_max l) -> foldM (fun sizes o => match o with Some d => if d <? dl_max l + 2 then Ok (modify d S sizes) else Panic | None => Panic end) (map Some r) v
     = Ok (fold_left (fun v d => modify d S v) r v)).
  { induction r as [|d r IH]; intros v Hr; [reflexivity|]. cbn [map foldM fold_left]. specialize (Hr d (or_introl eq_refl)) as X. destruct (Nat.ltb_spec d (dl_max l + 2)); [|lia]. cbn [bind]. apply IH. intros e He. apply Hr. now right. }
  rewrite (S1 ds _ Hd). cbn [bind]. set (sz := fold_left _ _ _).
  assert (S2 : forall r v out, (forall d, In d r -> d <= dl_max l) ->
     foldM (fun acc o => let '(used, out) := acc in match o with Some d => if d <? dl_max l + 2 then Ok (modify d S used, out ++ [(d, (2 * Z.of_nat (nth d used O) - Z.of_nat (nth d sz O))%Z)]) else Panic | None => Panic end) (map Some r) (v, out)
     = Ok (fold_left (fun v d => modify d S v) r v, out ++ places sz v r)).
  { induction r as [|d r IH]; intros v out Hr; [cbn; now rewrite app_nil_r|]. cbn [map foldM fold_left places]. specialize (Hr d (or_introl eq_refl)) as X. destruct (Nat.ltb_spec d (dl_max l + 2)); [|lia]. cbn [bind]. rewrite IH by (intros e He; apply Hr; now right). now rewrite <- app_assoc. }
  rewrite (S2 ds _ [] Hd). cbn [bind snd app]. exists (places sz (repeat O (dl_max l + 2)) ds). split; [reflexivity|]. split.
  - apply places_NoDup. intros d Hi. rewrite repeat_length. specialize (Hd d Hi). lia.
  - generalize (repeat O (dl_max l + 2)). generalize sz. clear. intros sz. induction ds as [|d ds IH]; intros v; [reflexivity|]. cbn [places map fst]. f_equal. apply IH.
Qed.
(** C41 *)
Lemma placed g : graph_ok g -> layered g -> exists l ps, dag_new g = Ok (Some l) /\ dag_place l = Ok ps /\
  length ps = length g /\ NoDup ps /\ (forall x p, nth_error ps x = Some p -> longest g 0 x (fst p)) /\
  (forall x y p q, arc g x y -> nth_error ps x = Some p -> nth_error ps y = Some q -> fst p < fst q).
Proof.
  intros Hg HL. destruct (dag_new_layered g Hg HL) as (l & El & Hlen & Ha & Hm & _).
  assert (X : exists ds, dl_depths l = map Some ds).
  { assert (G : forall r : list (option nat), (forall x, x < length r -> exists d, nth_error r x = Some (Some d)) -> exists ds, r = map Some ds).
    { induction r as [|o r IH]; intros H; [exists []; reflexivity|]. destruct (H 0) as (d & E); [cbn; lia|]. injection E as ->.
      destruct IH as (ds & ->); [intros x Hx; destruct (H (S x)) as (e & E); [cbn; lia|]; exists e; exact E|]. exists (d :: ds). reflexivity. }
    apply G. intros x Hx. rewrite Hlen in Hx. destruct (Ha x Hx) as (d & Hd & _). exists d. exact Hd. }
  destruct X as (ds & Eds).
  assert (Hds : forall x d, nth_error ds x = Some d <-> at_depth (dl_depths l) x d).
  { intros x d. unfold at_depth. rewrite Eds, nth_error_map. destruct (nth_error ds x) as [e|]; cbn; split; congruence. }
  destruct (dag_place_spec l ds Eds) as (ps & Eps & Hn & Hf).
  { intros d Hd. apply In_nth_error in Hd as (x & Hx). apply Hds in Hx. eapply Hm; eauto. }
  assert (Hp : forall x p, nth_error ps x = Some p -> longest g 0 x (fst p)).
  { intros x p E. assert (F : nth_error ds x = Some (fst p)) by (rewrite <- Hf, nth_error_map, E; reflexivity). apply Hds in F.
    assert (Hx : x < length g) by (rewrite <- Hlen; unfold at_depth in F; apply nth_error_Some; congruence).
    destruct (Ha x Hx) as (d & Hd & HLo). unfold at_depth in *. rewrite F in Hd. injection Hd as ->. exact HLo. }
  exists l, ps. split; [exact El|]. split; [exact Eps|]. split; [|split; [exact Hn|split; [exact Hp|]]].
  - rewrite <- Hlen, Eds, map_length, <- Hf, map_length. reflexivity.
  - intros x y p q A E1 E2. destruct (Hp x p E1) as (T1 & _). destruct (Hp y q E2) as (_ & T2). apply T2. eapply trail_snoc; eauto.
Qed.
