(** Construction of the tagged DFA. *)
From Verif Require Export PMin.
From Coq Require Import ZifyBool ZifyNat ZifyN Sorted.
Open Scope nat_scope.
Open Scope list_scope.
Set Default Proof Using "Type".

(** ** Candidates per byte *)
Lemma dedup_In {A} (f : A -> A -> bool) l : forall seen x, In x (dedup_by f seen l) -> In x l /\ existsb (f x) seen = false.
Proof.
  induction l as [|y l IH]; intros seen x H; [destruct H|]. cbn in H. destruct (existsb (f y) seen) eqn:E.
  - apply IH in H as [H1 H2]. split; [now right|assumption].
  - destruct H as [<-|H]; [split; [now left|assumption]|]. apply IH in H as [H1 H2]. split; [now right|]. cbn in H2. apply orb_false_iff in H2. apply H2.
Qed.
Lemma dedup_nodup {A B} (g : A -> B) (f : A -> A -> bool) l : (forall x y, f x y = true <-> g x = g y) ->
  forall seen, NoDup (map g (dedup_by f seen l)).
Proof.
  intros Hf. induction l as [|y l IH]; intros seen; cbn; [constructor|]. destruct (existsb (f y) seen); [apply IH|]. cbn. constructor; [|apply IH].
  intros H. apply in_map_iff in H as (x & Hx & H). apply dedup_In in H as [_ H]. cbn in H. apply orb_false_iff in H as [H _]. apply Hf in Hx. congruence.
Qed.
Lemma dedup_complete {A B} (g : A -> B) (f : A -> A -> bool) l : (forall x y, f x y = true <-> g x = g y) ->
  forall seen x, In x l -> (exists y, In y (dedup_by f seen l) /\ g y = g x) \/ (exists y, In y seen /\ g y = g x).
Proof.
  intros Hf. induction l as [|y l IH]; intros seen x H; [destruct H|]. cbn. destruct (existsb (f y) seen) eqn:E.
  - destruct H as [->|H]; [|now apply IH]. right. apply existsb_exists in E as (z & Hz & E). exists z. split; [assumption|]. apply Hf in E. congruence.
  - destruct H as [->|H]; [left; exists x; split; [now left|reflexivity]|]. destruct (IH (y :: seen) x H) as [(z & Hz & E')|(z & [<-|Hz] & E')].
    + left. exists z. split; [now right|assumption].
    + left. exists y. split; [now left|assumption].
    + right. eauto.
Qed.
Definition cdef : range * cand := ((0, 0)%N, mkCand 0 [] 0).
Definition byte_cands (cs : list (range * cand)) (b : N) : list cand := map snd (filter (fun x => in_range b (fst x)) cs).
Lemma items_cands cs b : map (fun i => snd (nth i cs cdef)) (items_at (map fst cs) b) = byte_cands cs b.
Proof.
  unfold items_at, byte_cands, enumerate. rewrite map_length.
  assert (G : forall k pre, length pre = k -> map (fun i => snd (nth i (pre ++ cs) cdef)) (map fst (filter (fun p => in_range b (snd p)) (combine (seq k (length cs)) (map fst cs)))) = map snd (filter (fun x => in_range b (fst x)) cs)); [|exact (G 0 [] eq_refl)].
  induction cs as [|[r c] cs IH]; intros k pre Hk; [reflexivity|]. cbn [length seq map fst combine filter snd].
  assert (E : forall i, nth i (pre ++ (r, c) :: cs) cdef = nth i ((pre ++ [(r, c)]) ++ cs) cdef) by (intros i; now rewrite <- app_assoc).
  specialize (IH (S k) (pre ++ [(r, c)])). rewrite app_length in IH. cbn [length] in IH. specialize (IH ltac:(lia)).
  rewrite <- (map_ext _ _ (fun i => f_equal snd (E i))) in IH. destruct (in_range b r); cbn [map fst snd]; [|exact IH]. f_equal; [|exact IH].
  rewrite app_nth2 by lia. replace (k - length pre) with 0 by lia. reflexivity.
Qed.
Lemma ceqb_iff (x y : cand) : (c_to x =? c_to y) = true <-> c_to x = c_to y.
Proof. apply Nat.eqb_eq. Qed.
Definition capart (x y : range * list cand) : Prop := (snd (fst x) < fst (fst y))%N.
Record cands_ok (cs : list (range * cand)) (out : list (range * list cand)) : Prop := {
  co_in : Forall (fun x => (fst (fst x) <= snd (fst x))%N /\ (snd (fst x) <= 255)%N) out;
  co_sorted : StronglySorted capart out;
  co_val : forall r cl b, In (r, cl) out -> in_range b r = true -> cl = dedup_cands (byte_cands cs b);
  co_all : forall b, (b <= 255)%N -> byte_cands cs b <> [] -> exists r cl, In (r, cl) out /\ in_range b r = true }.
Lemma SS_map {A B} (R : B -> B -> Prop) (f : A -> B) l : StronglySorted (fun x y => R (f x) (f y)) l -> StronglySorted R (map f l).
Proof. induction 1 as [|x l Hs IH Hf]; cbn; constructor; [assumption|]. now apply Forall_map. Qed.
Lemma cand_ranges_ok cs : cands_ok cs (cand_ranges cs).
Proof.
  destruct (split_ranges_spec (map fst cs)) as [P1 P2 P3 P4 P5]. unfold cand_ranges. fold cdef.
  set (f := fun '(r, is) => (r, dedup_cands (map (fun i => snd (nth i cs cdef)) is)) : range * list cand).
  assert (Ef : forall x, fst (f x) = fst x) by (intros [r is]; reflexivity).
  split.
  - apply Forall_map. eapply Forall_impl; [|exact P1]. cbv beta. intros x. rewrite Ef. intuition.
  - apply SS_map. unfold capart. 
    assert (G : forall l, StronglySorted apart l -> StronglySorted (fun x y => (snd (fst (f x)) < fst (fst (f y)))%N) l).
    { induction 1; constructor; [assumption|]. eapply Forall_impl; [|eassumption]. intros y. rewrite !Ef. auto. }
    now apply G.
  - intros r cl b Hin Hb. apply in_map_iff in Hin as ([r' is] & E & Hin). injection E as -> <-. rewrite (P3 r is b Hin Hb). now rewrite items_cands.
  - intros b Hb Hne. destruct (P5 b) as (r & is & Hin & Hr).
    + lia.
    + intros E. apply Hne. rewrite <- items_cands, E. reflexivity.
    + exists r, (snd (f (r, is))). split; [|assumption]. apply in_map_iff. exists (r, is). split; [reflexivity|assumption].
Qed.
Lemma byte_cands_In cs b c : In c (byte_cands cs b) <-> exists r, In (r, c) cs /\ in_range b r = true.
Proof.
  unfold byte_cands. rewrite in_map_iff. split.
  - intros ([r c'] & <- & H). apply filter_In in H as [H1 H2]. exists r. auto.
  - intros (r & H1 & H2). exists (r, c). split; [reflexivity|]. apply filter_In. auto.
Qed.

(** ** Expanding a state *)
Lemma Forall2_impl {A B} (R S : A -> B -> Prop) l m : (forall x y, R x y -> S x y) -> Forall2 R l m -> Forall2 S l m.
Proof. induction 2; constructor; auto. Qed.
Definition names (l : list tstate) : list (list nat) := map ts_nfa l.
Definition adds (cs : list cand) : list (nat * tag) := concat (map (fun '(i, c) => map (fun t => (i, t)) (c_tags c)) (enumerate cs)).
Definition edge_of (ns : list (list nat)) (x : range * list cand) (t : ttrans) : Prop :=
  tt_sym t = fst x /\ tt_copy t = map c_from (snd x) /\ tt_add t = adds (snd x) /\ nth_error ns (tt_to t) = Some (map c_to (snd x)).
Lemma edge_of_app ns ms x t : edge_of ns x t -> edge_of (ns ++ ms) x t.
Proof. intros (H1 & H2 & H3 & H4). repeat split; auto. rewrite nth_error_app1; [assumption|]. apply nth_error_Some. congruence. Qed.
Lemma nats_eqb_iff a b : nats_eqb a b = true <-> a = b.
Proof. apply nats_dec. Qed.
Lemma nth_error_names l i x : nth_error l i = Some x -> nth_error (names l) i = Some (ts_nfa x).
Proof. intros H. unfold names. now apply map_nth_error. Qed.
Lemma add_range_fold curr xs : forall new trs done_, NoDup (names curr ++ names new) -> Forall2 (edge_of (names curr ++ names new)) done_ trs ->
  exists more trs', fold_left (add_range curr) xs (new, trs) = (new ++ more, trs') /\
    NoDup (names curr ++ names (new ++ more)) /\ Forall2 (edge_of (names curr ++ names (new ++ more))) (done_ ++ xs) trs' /\
    Forall (fun s => exists x, In x xs /\ s = stub (map c_to (snd x))) more.
Proof.
  induction xs as [|[r cs] xs IH]; intros new trs done_ Hn Hf; cbn [fold_left].
  - exists [], trs. rewrite !app_nil_r. repeat split; auto.
  - set (st := add_range curr (new, trs) (r, cs)).
    assert (G : exists add trs1, st = (new ++ add, trs1) /\ NoDup (names curr ++ names (new ++ add)) /\
       Forall2 (edge_of (names curr ++ names (new ++ add))) (done_ ++ [(r, cs)]) trs1 /\ Forall (fun s => s = stub (map c_to cs)) add).
    { unfold st, add_range. fold (adds cs). set (same := fun s => nats_eqb (ts_nfa s) (map c_to cs)).
      destruct (index_of same curr) as [i|] eqn:E1; [|destruct (index_of same new) as [i|] eqn:E2].
      - exists [], (trs ++ [mkTT i r (map c_from cs) (adds cs)]). rewrite app_nil_r. split; [reflexivity|]. split; [assumption|]. split; [|constructor].
        apply Forall2_app; [assumption|]. constructor; [|constructor]. repeat split. cbn [tt_to snd].
        apply index_of_some in E1 as (x & Ex & Hx). apply nats_eqb_iff in Hx. apply nth_error_names in Ex.
        rewrite nth_error_app1; [congruence|]. apply nth_error_Some. congruence.
      - exists [], (trs ++ [mkTT (i + length curr) r (map c_from cs) (adds cs)]). rewrite app_nil_r. split; [reflexivity|]. split; [assumption|]. split; [|constructor].
        apply Forall2_app; [assumption|]. constructor; [|constructor]. repeat split. cbn [tt_to snd].
        apply index_of_some in E2 as (x & Ex & Hx). apply nats_eqb_iff in Hx. apply nth_error_names in Ex.
        assert (El : length (names curr) = length curr) by apply map_length. rewrite nth_error_app2 by lia. rewrite El. replace (i + length curr - length curr) with i by lia. congruence.
      - exists [stub (map c_to cs)], (trs ++ [mkTT (length curr + length new) r (map c_from cs) (adds cs)]).
        assert (El : length (names curr) = length curr) by apply map_length. assert (El' : length (names new) = length new) by apply map_length.
        assert (En : names (new ++ [stub (map c_to cs)]) = names new ++ [map c_to cs]) by (unfold names; now rewrite map_app).
        split; [reflexivity|]. rewrite En, app_assoc. split; [|split].
        + rewrite <- (rev_involutive (_ ++ [_])). apply NoDup_rev. rewrite rev_app_distr. cbn. constructor; [|now apply NoDup_rev].
          rewrite <- in_rev. intros H. apply in_app_or in H as [H|H]; apply in_map_iff in H as (x & Ex & Hx); [rewrite index_of_none in E1; specialize (E1 x Hx); rename E1 into E|rewrite index_of_none in E2; specialize (E2 x Hx); rename E2 into E];
            unfold same in E; rewrite (proj2 (nats_eqb_iff _ _) Ex) in E; discriminate.
        + apply Forall2_app; [eapply Forall2_impl; [|exact Hf]; intros; now apply edge_of_app|]. constructor; [|constructor]. repeat split. cbn [tt_to snd].
          rewrite nth_error_app2 by (rewrite app_length; lia). rewrite app_length, El, El', Nat.sub_diag. reflexivity.
        + constructor; [reflexivity|constructor]. }
    destruct G as (add & trs1 & E & G1 & G2 & G3). rewrite E. destruct (IH (new ++ add) trs1 (done_ ++ [(r, cs)]) G1 G2) as (more & trs' & -> & H1 & H2 & H3).
    exists (add ++ more), trs'. rewrite (app_assoc new add more). split; [reflexivity|]. split; [assumption|]. split; [now rewrite <- (app_assoc done_ [(r, cs)] xs) in H2|].
    apply Forall_app. split.
    + eapply Forall_impl; [|exact G3]. cbv beta. intros s ->. exists (r, cs). split; [now left|reflexivity].
    + eapply Forall_impl; [|exact H3]. cbv beta. intros s (x & Hx & ->). exists x. split; [now right|reflexivity].
Qed.
Lemma tdfa_add_spec max new : forall states stack, NoDup (names states ++ names new) ->
  tdfa_add max states stack new =
    if (length new =? 0) || (length states + length new <=? max) then Some (states ++ new, rev (seq (length states) (length new)) ++ stack) else None.
Proof.
  induction new as [|s new IH]; intros states stack Hn; cbn [tdfa_add length Nat.eqb orb].
  - now rewrite app_nil_r.
  - assert (E : existsb (fun x => nats_eqb (ts_nfa x) (ts_nfa s)) states = false).
    { destruct (existsb _ states) eqn:E; [|reflexivity]. exfalso. apply existsb_exists in E as (x & Hx & E). apply nats_eqb_iff in E.
      apply NoDup_remove_2 in Hn. apply Hn. apply in_or_app. left. rewrite <- E. unfold names. now apply in_map. }
    rewrite E. rewrite app_length. cbn [length]. rewrite IH.
    + rewrite app_length. cbn [length]. destruct (Nat.ltb_spec max (length states + 1)) as [H1|H1].
      * destruct (Nat.leb_spec (length states + S (length new)) max); [lia|reflexivity].
      * rewrite <- app_assoc. replace (length states + 1 + length new) with (length states + S (length new)) by lia. cbn [app].
        assert (Ex : rev (seq (length states + 1) (length new)) ++ length states :: stack = rev (seq (length states) (S (length new))) ++ stack).
        { cbn [seq rev]. rewrite <- app_assoc. cbn. now rewrite Nat.add_1_r. }
        rewrite Ex. destruct (length new =? 0) eqn:E0; [|reflexivity]. cbn [orb]. destruct (Nat.leb_spec (length states + S (length new)) max); [reflexivity|lia].
    + unfold names in *. rewrite map_app, <- app_assoc. exact Hn.
Qed.

Section Build.
  Variable n : nfa range.
  Hypothesis Hwf : wf n.
  Hypothesis Hlen : 1 <= length n.
  Definition props (k : nat) : list eprop := match eps_props n k with Ok l => l | _ => [] end.
  Lemma props_ok k : k < length n -> eps_props n k = Ok (props k).
  Proof using Hwf. intros Hk. unfold props. destruct (eps_props_spec n Hwf k Hk) as (l & -> & _). reflexivity. Qed.
  Lemma props_spec k p : k < length n -> In p (props k) <-> exists t w, zpath n k w t /\ p = ep_of t w.
  Proof using Hwf. intros Hk. unfold props. destruct (eps_props_spec n Hwf k Hk) as (l & -> & _ & H). apply H. Qed.
  Definition keep_start (p : eprop) : bool := negb (ep_end p).
  Definition keep_later (p : eprop) : bool := negb (ep_start p || ep_end p).
  Definition all_cands (keep : eprop -> bool) (nfas : list nat) : list (range * cand) :=
    flat_map (fun x : nat * nat => cands_of n keep (fst x) (props (snd x))) (enumerate nfas).
  Definition all_acc (nfas : list nat) : tacc :=
    fold_left (fun a (x : nat * nat) => acc_update a (acc_from_props (fst x) (props (snd x)) (length n - 1))) (enumerate nfas) ANone.
  Definition expanded (ns : list (list nat)) (keep : eprop -> bool) (st : tstate) : Prop :=
    ts_acc st = all_acc (ts_nfa st) /\ Forall2 (edge_of ns) (cand_ranges (all_cands keep (ts_nfa st))) (ts_trans st).
  Definition in_n (l : list nat) : Prop := Forall (fun k => k < length n) l /\ NoDup l.
  (** The sets of states that reading leads to. *)
  Inductive reached : list nat -> Prop :=
  | reached_start r cl : In (r, cl) (cand_ranges (all_cands keep_start [0])) -> reached (map c_to cl)
  | reached_later nfas r cl : reached nfas -> In (r, cl) (cand_ranges (all_cands keep_later nfas)) -> reached (map c_to cl).
  Definition in_r (l : list nat) : Prop := in_n l /\ reached l.
  (** More of them than [max]. *)
  Definition too_many (max : nat) : Prop := exists ls, NoDup ls /\ Forall in_r ls /\ max < length ls.
  Lemma all_cands_In keep nfas r c : in_n nfas ->
    In (r, c) (all_cands keep nfas) <-> exists k t w, nth_error nfas (c_from c) = Some k /\ zpath n k w t /\ keep (ep_of t w) = true /\ c_tags c = tags_of w /\ In (c_to c, r) (trans (get n t)).
  Proof using Hwf.
    intros Hin. unfold all_cands. rewrite in_flat_map. split.
    - intros ([i k] & Hi & H). apply In_enumerate in Hi. cbn [fst snd] in H. unfold cands_of in H. apply in_flat_map in H as (p & Hp & H).
      apply filter_In in Hp as [Hp Hk]. assert (Hkn : k < length n) by (destruct Hin as [Hin _]; rewrite Forall_forall in Hin; apply Hin; eapply nth_error_In; eauto).
      apply props_spec in Hp as (t & w & Hz & ->); [|assumption]. apply in_map_iff in H as ([u s] & E & Ht). injection E as -> <-. cbn [c_from c_tags c_to ep_of ep_state ep_tags] in *.
      exists k, t, w. repeat split; auto.
    - intros (k & t & w & Hk & Hz & Hkeep & Htg & Ht). assert (Hkn : k < length n) by (destruct Hin as [Hin _]; rewrite Forall_forall in Hin; apply Hin; eapply nth_error_In; eauto).
      exists (c_from c, k). split; [now apply In_enumerate|]. cbn [fst snd]. unfold cands_of. apply in_flat_map. exists (ep_of t w). split.
      + apply filter_In. split; [|assumption]. apply props_spec; [assumption|]. eauto.
      + apply in_map_iff. exists (c_to c, r). split; [|exact Ht]. cbn [fst snd ep_tags ep_of]. rewrite <- Htg. now destruct c.
  Qed.
  Lemma cands_targets keep nfas r cl : in_n nfas -> In (r, cl) (cand_ranges (all_cands keep nfas)) -> in_n (map c_to cl).
  Proof using Hwf Hlen.
    intros Hin H. destruct (cand_ranges_ok (all_cands keep nfas)) as [O1 O2 O3 O4]. rewrite Forall_forall in O1. specialize (O1 _ H). cbn [fst] in O1.
    assert (Hr : in_range (fst r) r = true) by (apply in_range_iff; lia). rewrite (O3 r cl (fst r) H Hr). split; [|apply dedup_nodup; apply ceqb_iff]. apply Forall_map, Forall_forall. intros c Hc.
    apply dedup_In in Hc as [Hc _]. apply byte_cands_In in Hc as (r0 & Hc & _). apply all_cands_In in Hc as (k & t & w & _ & _ & _ & _ & Ht); [|assumption].
    eapply wf_trans; eauto.
  Qed.
  Lemma expand_fold keep nfas : in_n nfas -> forall acc cs, foldM (fun '(acc, cs) (x : nat * nat) =>
                   do ps <- eps_props n (snd x);
                   Ok (acc_update acc (acc_from_props (fst x) ps (length n - 1)),
                       cs ++ cands_of n keep (fst x) ps)) (enumerate nfas) (acc, cs) =
     Ok (fold_left (fun a (x : nat * nat) => acc_update a (acc_from_props (fst x) (props (snd x)) (length n - 1))) (enumerate nfas) acc, cs ++ all_cands keep nfas).
  Proof using Hwf Hlen.
    intros Hin. unfold all_cands.
    assert (G : Forall (fun x : nat * nat => snd x < length n) (enumerate nfas)).
    { apply Forall_forall. intros [i k] H. apply In_enumerate in H. destruct Hin as [Hin _]. rewrite Forall_forall in Hin. apply Hin. eapply nth_error_In; eauto. }
    induction (enumerate nfas) as [|x l IH]; intros acc cs; cbn [foldM fold_left flat_map]; [now rewrite app_nil_r|].
    inversion G; subst. rewrite props_ok by assumption. cbn [bind]. rewrite IH by assumption. now rewrite <- app_assoc.
  Qed.
  Lemma fold_expanded curr keep nfas : NoDup (names curr) -> in_n nfas -> (forall r cl, In (r, cl) (cand_ranges (all_cands keep nfas)) -> reached (map c_to cl)) ->
    exists new trs, fold_left (add_range curr) (cand_ranges (all_cands keep nfas)) ([], []) = (new, trs) /\
      NoDup (names curr ++ names new) /\ Forall in_r (names new) /\ expanded (names curr ++ names new) keep (mkTS nfas trs (all_acc nfas)).
  Proof using Hwf Hlen.
    intros Hn Hin Hr. destruct (add_range_fold curr (cand_ranges (all_cands keep nfas)) [] [] []) as (more & trs & E & H1 & H2 & H3); [cbn; now rewrite app_nil_r|constructor|].
    rewrite !app_nil_l in *. exists more, trs. split; [exact E|]. split; [exact H1|]. split; [|split; cbn [ts_acc ts_nfa ts_trans]; [reflexivity|exact H2]].
    apply Forall_map. eapply Forall_impl; [|exact H3]. cbv beta. intros s ([r cl] & Hx & ->). cbn [ts_nfa stub snd]. split; [eapply cands_targets; eauto|eapply Hr; eauto].
  Qed.
  Lemma tdfa_expand_spec nfas curr : NoDup (names curr) -> in_r nfas ->
    exists new trs, tdfa_expand n nfas curr = Ok (mkTS nfas trs (all_acc nfas), new) /\ NoDup (names curr ++ names new) /\ Forall in_r (names new) /\
      expanded (names curr ++ names new) keep_later (mkTS nfas trs (all_acc nfas)).
  Proof using Hwf Hlen.
    intros Hn [Hin Hr]. destruct (fold_expanded curr keep_later nfas Hn Hin (fun r cl => reached_later nfas r cl Hr)) as (new & trs & E & H).
    exists new, trs. split; [|exact H]. unfold tdfa_expand.
    assert (F := expand_fold keep_later nfas Hin ANone []). unfold keep_later in F at 1. rewrite F. cbn [bind app]. now rewrite E.
  Qed.
  Lemma tdfa_start_spec : exists new trs, tdfa_start n = Ok (mkTS [0] trs (all_acc [0]), new) /\ NoDup (names new) /\ Forall in_r (names new) /\
      expanded (names new) keep_start (mkTS [0] trs (all_acc [0])).
  Proof using Hwf Hlen.
    assert (Hin : in_n [0]) by (split; [constructor; [lia|constructor]|constructor; [intros []|constructor]]).
    destruct (fold_expanded [] keep_start [0] ltac:(constructor) Hin reached_start) as (new & trs & E & H).
    exists new, trs. split; [|exact H]. unfold tdfa_start. rewrite props_ok by lia. cbn [bind].
    unfold all_cands in E. cbn [enumerate seq length combine flat_map fst snd] in E. rewrite app_nil_r in E. unfold keep_start in E. rewrite E.
    unfold all_acc. cbn. reflexivity.
  Qed.
  (** What is built. *)
  Definition later_ok (ns : list (list nat)) (todo : list nat) (states : list tstate) : Prop :=
    forall i s, nth_error states i = Some s -> ~ In i todo -> expanded ns keep_later s.
  Lemma expanded_app ns ms keep s : expanded ns keep s -> expanded (ns ++ ms) keep s.
  Proof. intros [H1 H2]. split; [assumption|]. eapply Forall2_impl; [|exact H2]. intros. now apply edge_of_app. Qed.
  Lemma nth_error_upd {A} (i : nat) (x : A) l j : nth_error (upd i x l) j = if (i =? j) && (j <? length l) then Some x else nth_error l j.
  Proof.
    revert i j. induction l as [|y l IH]; intros [|i] [|j]; cbn [upd nth_error length]; try reflexivity.
    - now rewrite andb_false_r.
    - rewrite IH. reflexivity.
  Qed.
  Lemma names_upd i s states : nth_error (names states) i = Some (ts_nfa s) -> names (upd i s states) = names states.
  Proof.
    unfold names. revert i. induction states as [|x l IH]; intros [|i] H; cbn in *; try discriminate; [congruence|]. f_equal. now apply IH.
  Qed.
  Lemma NoDup_app_intro {X} (a b : list X) : NoDup a -> NoDup b -> (forall x, In x a -> ~ In x b) -> NoDup (a ++ b).
  Proof.
    induction 1 as [|x a Hx Ha IH]; intros Hb Hd; cbn; [assumption|]. constructor.
    - intros Hi. apply in_app_or in Hi as [Hi|Hi]; [contradiction|]. apply (Hd x); [now left|assumption].
    - apply IH; [assumption|]. intros y Hy. apply Hd. now right.
  Qed.
  Definition blank (states : list tstate) (stack : list nat) : Prop :=
    NoDup stack /\ forall i, In i stack -> is_stub (nth i states (stub [])) = true.
  Lemma ranges_blank curr xs : forall acc, Forall (fun s => is_stub s = true) (fst acc) -> Forall (fun s => is_stub s = true) (fst (fold_left (add_range curr) xs acc)).
  Proof.
    induction xs as [|[r cs] xs IH]; intros [new trs] H; cbn [fold_left]; [assumption|]. apply IH. cbn [add_range]. destruct (index_of _ curr); [exact H|]. destruct (index_of _ new); [exact H|].
    cbn [fst] in *. apply Forall_app. split; [exact H|]. repeat constructor.
  Qed.
  Lemma expand_blank nfas curr s new : tdfa_expand n nfas curr = Ok (s, new) -> Forall (fun s => is_stub s = true) new.
  Proof.
    unfold tdfa_expand. destruct (foldM _ _ _) as [[a cs]| | |]; try discriminate. cbn [bind]. assert (H := ranges_blank curr (cand_ranges cs) ([], []) (Forall_nil _)).
    destruct (fold_left _ _ _) as [nw trs]. intros [= _ <-]. exact H.
  Qed.
  Lemma start_blank s new : tdfa_start n = Ok (s, new) -> Forall (fun s => is_stub s = true) new.
  Proof.
    unfold tdfa_start. destruct (eps_props n 0) as [ps| | |]; try discriminate. cbn [bind]. assert (H := ranges_blank [] (cand_ranges (cands_of n (fun p => negb (ep_end p)) 0 ps)) ([], []) (Forall_nil _)).
    destruct (fold_left _ _ _) as [nw trs]. intros [= _ <-]. exact H.
  Qed.
  Lemma tdfa_loop_spec fuel max : forall states stack, blank states stack -> NoDup (names states) -> Forall in_r (names states) -> length states <= max ->
    Forall (fun i => i < length states) stack -> later_ok (names states) stack states -> length stack + (max - length states) <= fuel ->
    exists o, tdfa_loop fuel n max states stack = Ok o /\
      match o with
      | None => too_many max
      | Some states' => NoDup (names states') /\ Forall in_r (names states') /\ length states' <= max /\ later_ok (names states') [] states' /\ exists ms, names states' = names states ++ ms
      end.
  Proof using Hwf Hlen.
    induction fuel as [|f IH]; intros states stack Hb Hn Hi Hm Hs Hl Hf.
    - destruct stack; [|cbn in Hf; lia]. cbn [tdfa_loop]. eexists. split; [reflexivity|]. do 4 (split; [assumption|]). exists []. now rewrite app_nil_r.
    - destruct stack as [|i stack]; cbn [tdfa_loop].
      + eexists. split; [reflexivity|]. do 4 (split; [assumption|]). exists []. now rewrite app_nil_r.
      + inversion Hs as [|? ? Hi0 Hs']; subst. set (nfas := ts_nfa (nth i states (stub []))).
        assert (Hni : nth_error (names states) i = Some nfas) by (apply nth_error_names, nth_error_nth'; assumption).
        assert (Hnn : in_r nfas) by (rewrite Forall_forall in Hi; apply Hi; eapply nth_error_In; eauto).
        destruct Hb as [Hb1 Hb2]. rewrite (Hb2 i (or_introl eq_refl)), (proj2 (Nat.ltb_lt _ _) Hi0). cbn [andb guard bind].
        destruct (tdfa_expand_spec nfas states Hn Hnn) as (new & trs & Ee & E1 & E2 & E3). assert (Hbn := expand_blank _ _ _ _ Ee). rewrite Ee. cbn [bind]. clear Ee.
        set (s := mkTS nfas trs (all_acc nfas)) in *. assert (Hnu : names (upd i s states) = names states) by (apply names_upd; exact Hni).
        rewrite tdfa_add_spec by (rewrite Hnu; exact E1). rewrite upd_length.
        destruct ((length new =? 0) || (length states + length new <=? max)) eqn:Eb.
        2: { eexists. split; [reflexivity|]. exists (names states ++ names new). split; [exact E1|]. split; [apply Forall_app; auto|].
             apply orb_false_iff in Eb as [_ Eb]. apply Nat.leb_gt in Eb. unfold names. rewrite app_length, !map_length. exact Eb. }
        assert (Hnn' : names (upd i s states ++ new) = names states ++ names new) by (unfold names in *; now rewrite map_app, Hnu).
        destruct (IH (upd i s states ++ new) (rev (seq (length states) (length new)) ++ stack)) as (o & Eo & Ho).
        * inversion Hb1 as [|? ? Hb3 Hb4]; subst. split.
          -- apply NoDup_app_intro; [apply NoDup_rev, seq_NoDup|assumption|]. intros x Hx Hx'. rewrite <- in_rev in Hx. apply in_seq in Hx. rewrite Forall_forall in Hs'. specialize (Hs' x Hx'). lia.
          -- intros x Hx. apply in_app_or in Hx as [Hx|Hx].
             ++ rewrite <- in_rev in Hx. apply in_seq in Hx. rewrite app_nth2 by (rewrite upd_length; lia). rewrite upd_length. rewrite Forall_forall in Hbn. apply Hbn, nth_In. lia.
             ++ rewrite Forall_forall in Hs'. rewrite app_nth1 by (rewrite upd_length; now apply Hs'). rewrite nth_upd. destruct (Nat.eqb_spec x i) as [->|]; [contradiction|]. cbn [andb]. apply Hb2. now right.
        * now rewrite Hnn'.
        * rewrite Hnn'. apply Forall_app. auto.
        * rewrite app_length, upd_length. lia.
        * apply Forall_app. split; [|eapply Forall_impl; [|exact Hs']; cbv beta; intros; rewrite app_length, upd_length; lia].
          apply Forall_rev, Forall_forall. intros x Hx. apply in_seq in Hx. rewrite app_length, upd_length. lia.
        * rewrite Hnn'. intros j x Hj Hnj. destruct (Nat.lt_ge_cases j (length states)) as [Hlt|Hge].
          -- rewrite nth_error_app1 in Hj by (now rewrite upd_length). rewrite nth_error_upd in Hj. destruct (Nat.eqb_spec i j) as [->|Hij].
             ++ destruct (Nat.ltb_spec j (length states)); [|lia]. cbn in Hj. injection Hj as <-. exact E3.
             ++ cbn in Hj. apply expanded_app. apply (Hl j x Hj). intros [->|Hin]; [congruence|]. apply Hnj. apply in_or_app. now right.
          -- exfalso. apply Hnj. apply in_or_app. left. rewrite <- in_rev. apply in_seq. split; [assumption|].
             assert (j < length (upd i s states ++ new)) by (apply nth_error_Some; congruence). rewrite app_length, upd_length in H. assumption.
        * rewrite !app_length, rev_length, seq_length, upd_length. cbn [length] in Hf. lia.
        * exists o. split; [assumption|]. destruct o as [st'|]; [|exact Ho]. destruct Ho as (O1 & O2 & O3 & O4 & (ms & O5)). do 4 (split; [assumption|]).
          exists (names new ++ ms). rewrite O5, Hnn'. now rewrite app_assoc.
  Qed.
  Record built (max : nat) (d : tdfa) : Prop := {
    b_start : ts_nfa (td_start d) = [0];
    b_start_ex : expanded (names (td_states d)) keep_start (td_start d);
    b_states : forall s, In s (td_states d) -> expanded (names (td_states d)) keep_later s;
    b_nodup : NoDup (names (td_states d));
    b_in : Forall in_n (names (td_states d));
    b_reached : Forall reached (names (td_states d));
    b_max : length (td_states d) <= max }.
  Lemma tdfa_from_nfa_spec max : exists o, tdfa_from_nfa n max = Ok o /\ match o with Some d => built max d | None => too_many max end.
  Proof using Hwf Hlen.
    unfold tdfa_from_nfa. rewrite wfb_guard by assumption. destruct (Nat.leb_spec 1 (length n)); [|lia]. cbn [andb guard bind].
    destruct tdfa_start_spec as (new & trs & Es & S1 & S2 & S3). assert (Hbn := start_blank _ _ Es). rewrite Es. cbn [bind]. clear Es. destruct (Nat.ltb_spec max (length new)).
    { eexists. split; [reflexivity|]. exists (names new). split; [exact S1|]. split; [exact S2|]. unfold names. now rewrite map_length. }
    destruct (tdfa_loop_spec (S max) max new (rev (seq 0 (length new)))) as (o & -> & Ho); auto.
    - split; [apply NoDup_rev, seq_NoDup|]. intros i Hi. rewrite <- in_rev in Hi. apply in_seq in Hi. rewrite Forall_forall in Hbn. apply Hbn, nth_In. lia.
    - apply Forall_rev, Forall_forall. intros x Hx. apply in_seq in Hx. lia.
    - intros i s Hi Hn. exfalso. apply Hn. rewrite <- in_rev. apply in_seq. split; [lia|]. apply nth_error_Some. congruence.
    - rewrite rev_length, seq_length. lia.
    - cbn [bind]. eexists. split; [reflexivity|]. destruct o as [l|]; [|exact Ho]. cbn [option_map]. destruct Ho as (O1 & O2 & O3 & O4 & (ms & O5)). split; cbn [td_start td_states]; auto.
      + rewrite O5. now apply expanded_app.
      + intros s Hs. apply In_nth_error in Hs as (i & Hi). eapply O4; eauto.
      + eapply Forall_impl; [|exact O2]. now intros x [].
      + eapply Forall_impl; [|exact O2]. now intros x [].
  Qed.
End Build.

(** ** The bound only decides between answering and giving up *)
Section Bound.
  Variable n : nfa range.
  Lemma tdfa_add_mono max1 max2 new : max1 <= max2 -> forall states stack,
    match tdfa_add max1 states stack new with
    | Some x => tdfa_add max2 states stack new = Some x
    | None => forall x, tdfa_add max2 states stack new = Some x -> max1 < length (fst x)
    end.
  Proof.
    intros Hm. induction new as [|s new IH]; intros states stack; cbn [tdfa_add]; [reflexivity|].
    destruct (existsb _ states); [apply IH|]. rewrite app_length. cbn [length].
    destruct (Nat.ltb_spec max1 (length states + 1)) as [H1|H1].
    - destruct (Nat.ltb_spec max2 (length states + 1)) as [H2|H2]; [discriminate|]. intros [st' sk'] E. cbn [fst].
      assert (G : forall new states stack, tdfa_add max2 states stack new = Some (st', sk') -> length states <= length st').
      { clear. induction new as [|s new IH]; intros states stack E; cbn [tdfa_add] in E; [injection E as <- _; apply le_n|].
        destruct (existsb _ states); [eapply IH; eauto|]. destruct (max2 <? length (states ++ [s])); [discriminate|]. apply IH in E. rewrite app_length in E. cbn [length] in E. lia. }
      apply G in E. rewrite app_length in E. cbn [length] in E. lia.
    - destruct (Nat.ltb_spec max2 (length states + 1)) as [H2|H2]; [lia|]. apply IH.
  Qed.
  Lemma tdfa_add_grows max new : forall states stack st' sk', tdfa_add max states stack new = Some (st', sk') -> length states <= length st'.
  Proof.
    induction new as [|s new IH]; intros states stack st' sk' E; cbn [tdfa_add] in E; [injection E as <- _; apply le_n|].
    destruct (existsb _ states); [eapply IH; eauto|]. destruct (max <? length (states ++ [s])); [discriminate|]. apply IH in E. rewrite app_length in E. cbn [length] in E. lia.
  Qed.
  Lemma tdfa_loop_grows f max : forall states stack l, tdfa_loop f n max states stack = Ok (Some l) -> length states <= length l.
  Proof.
    induction f as [|f IH]; intros states stack l E; destruct stack as [|i stack]; cbn [tdfa_loop] in E; try discriminate; try (injection E as <-; apply le_n).
    destruct (guard _); try discriminate. cbn [bind] in E. destruct (tdfa_expand n _ states) as [[s new]| | |]; try discriminate. cbn [bind] in E.
    destruct (tdfa_add max (upd i s states) stack new) as [[st sk]|] eqn:Ea; [|discriminate]. apply IH in E. apply tdfa_add_grows in Ea. rewrite upd_length in Ea. lia.
  Qed.
  Lemma tdfa_loop_mono max1 max2 : max1 <= max2 -> forall f1 f2 states stack r1 r2,
    tdfa_loop f1 n max1 states stack = Ok r1 -> tdfa_loop f2 n max2 states stack = Ok r2 ->
    match r1 with Some l => r2 = Some l | None => forall l, r2 = Some l -> max1 < length l end.
  Proof.
    intros Hm. induction f1 as [|f1 IH]; intros f2 states stack r1 r2 E1 E2; destruct stack as [|i stack]; cbn [tdfa_loop] in E1; try discriminate.
    - injection E1 as <-. destruct f2; cbn in E2; congruence.
    - injection E1 as <-. destruct f2; cbn in E2; congruence.
    - destruct f2 as [|f2]; cbn [tdfa_loop] in E2; [discriminate|]. destruct (guard _); try discriminate. cbn [bind] in *.
      destruct (tdfa_expand n _ states) as [[s new]| | |]; try discriminate. cbn [bind] in *.
      assert (Hadd := tdfa_add_mono max1 max2 new Hm (upd i s states) stack).
      destruct (tdfa_add max1 (upd i s states) stack new) as [[st sk]|].
      + rewrite Hadd in E2. eapply IH; eauto.
      + injection E1 as <-. intros l ->. destruct (tdfa_add max2 (upd i s states) stack new) as [[st sk]|]; [|discriminate].
        specialize (Hadd _ eq_refl). cbn [fst] in Hadd. apply tdfa_loop_grows in E2. lia.
  Qed.
  Lemma tdfa_mono max1 max2 r1 r2 : max1 <= max2 -> tdfa_from_nfa n max1 = Ok r1 -> tdfa_from_nfa n max2 = Ok r2 ->
    match r1 with Some d => r2 = Some d | None => forall d, r2 = Some d -> max1 < length (td_states d) end.
  Proof.
    intros Hm E1 E2. unfold tdfa_from_nfa in *. destruct (guard _); try discriminate. cbn [bind] in *. destruct (tdfa_start n) as [[s states]| | |]; try discriminate. cbn [bind] in *.
    destruct (Nat.ltb_spec max1 (length states)) as [H1|H1].
    - injection E1 as <-. intros d ->. destruct (Nat.ltb_spec max2 (length states)); [discriminate|].
      destruct (tdfa_loop (S max2) n max2 states _) as [[l|]| | |] eqn:El; try discriminate. cbn in E2. injection E2 as <-. cbn [td_states]. apply tdfa_loop_grows in El. lia.
    - destruct (Nat.ltb_spec max2 (length states)); [lia|].
      destruct (tdfa_loop (S max1) n max1 states _) as [l1| | |] eqn:El1; try discriminate. destruct (tdfa_loop (S max2) n max2 states _) as [l2| | |] eqn:El2; try discriminate.
      cbn [bind] in *. injection E1 as <-. injection E2 as <-. assert (G := tdfa_loop_mono max1 max2 Hm _ _ _ _ _ _ El1 El2).
      destruct l1 as [l1|]; cbn [option_map] in *; [now subst|]. intros d Ed. destruct l2 as [l2|]; [|discriminate]. injection Ed as <-. cbn. now apply G.
  Qed.
End Bound.

(** ** Some bound is large enough: there are finitely many lists of distinct states *)
Fixpoint words_upto (m k : nat) : list (list nat) :=
  match k with
  | O => [[]]
  | S k => [] :: flat_map (fun l => map (fun x => x :: l) (seq 0 m)) (words_upto m k)
  end.
Lemma words_upto_In m k : forall l, Forall (fun x => x < m) l -> length l <= k -> In l (words_upto m k).
Proof.
  induction k as [|k IH]; intros l Hl Hk; destruct l as [|x l]; cbn [length] in Hk; try lia; cbn [words_upto]; [now left|now left|].
  inversion Hl; subst. right. apply in_flat_map. exists l. split; [apply IH; [assumption|lia]|]. apply in_map_iff. exists x. split; [reflexivity|]. apply in_seq. lia.
Qed.
Lemma too_many_bounded n max : too_many n max -> max < length (words_upto (length n) (length n)).
Proof.
  intros (ls & H1 & H2 & H3). eapply Nat.lt_le_trans; [exact H3|]. apply NoDup_incl_length; [assumption|]. intros l Hl. rewrite Forall_forall in H2. destruct (H2 l Hl) as [[Hf Hn] _].
  apply words_upto_In; [assumption|]. rewrite <- (seq_length (length n) 0). apply NoDup_incl_length; [assumption|]. intros x Hx. rewrite Forall_forall in Hf. apply in_seq. specialize (Hf x Hx). lia.
Qed.
Lemma tdfa_some_bound n : wf n -> 1 <= length n -> exists max d, tdfa_from_nfa n max = Ok (Some d).
Proof.
  intros Hw Hl. exists (length (words_upto (length n) (length n))). destruct (tdfa_from_nfa_spec n Hw Hl (length (words_upto (length n) (length n)))) as ([d|] & E & H); [eauto|].
  apply too_many_bounded in H. lia.
Qed.
