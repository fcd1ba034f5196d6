(** How many threads the lockstep engines keep. *)
From Verif Require Export PFlat.
From Coq Require Import ZifyBool ZifyNat ZifyN.
Open Scope nat_scope.
Open Scope list_scope.
Set Default Proof Using "Type".

Lemma nodup_snoc {X} (l : list X) x : NoDup l -> ~ In x l -> NoDup (l ++ [x]).
Proof.
  induction 1 as [|y l Hy Hl IH]; intros Hx; cbn; [constructor; [auto|constructor]|]. constructor.
  - intros Hi. apply in_app_or in Hi as [Hi|[->|[]]]; [now apply Hy|]. apply Hx. now left.
  - apply IH. intros Hi. apply Hx. now right.
Qed.
Lemma filter_le {X} (f : X -> bool) l : length (filter f l) <= length l.
Proof. induction l as [|x l IH]; cbn; [lia|]. destruct (f x); cbn; lia. Qed.
Lemma sum_incl {X} (f : X -> nat) (a b : list X) : NoDup a -> incl a b -> list_sum (map f a) <= list_sum (map f b).
Proof.
  intros Ha. revert b. induction Ha as [|x a Hx Ha IH]; intros b Hi; [cbn; lia|]. destruct (in_split x b) as (b1 & b2 & ->); [apply Hi; now left|].
  specialize (IH (b1 ++ b2)). rewrite !map_app in *. cbn [map] in *. rewrite !list_sum_app in *. cbn [list_sum fold_right] in *. 
  assert (K : incl a (b1 ++ b2)) by (intros y Hy; assert (Y := Hi y (or_intror Hy)); apply in_app_iff in Y as [Y|[->|Y]]; [apply in_or_app; now left|contradiction|apply in_or_app; now right]).
  specialize (IH K). unfold list_sum in *. lia.
Qed.

Lemma sum_get {A} (n : nfa A) : map (fun s => length (trans (get n s))) (seq 0 (length n)) = map (fun s => length (trans s)) n.
Proof.
  unfold get. induction n as [|s l IH] using rev_ind; [reflexivity|]. rewrite app_length, seq_app, !map_app. cbn [length seq map plus]. f_equal.
  - rewrite <- IH. apply map_ext_in. intros i Hi. apply in_seq in Hi. now rewrite app_nth1 by lia.
  - now rewrite app_nth2, Nat.sub_diag by lia.
Qed.

Section Bound.
  Context {A C : Type}.
  Variable check : A -> C -> bool.
  Variable width : C -> nat.
  Variable n : nfa A.
  Variable tbl : list (list eprop).
  Hypothesis Hm : flat_make n = Ok tbl.

  Lemma made : wf n /\ 1 <= length n /\ forall s p, In p (nth s tbl []) -> ep_state p < length n.
  Proof using Hm.
    unfold flat_make in Hm. destruct (wfb n && (1 <=? length n)) eqn:E; [|discriminate]. cbn [guard bind] in Hm. apply andb_prop in E as [E1 E2]. apply Nat.leb_le in E2.
    assert (Hw : wf n) by now apply wfb_iff. split; [assumption|]. split; [assumption|]. destruct (flat_table_spec n Hw E2) as (t & Et & Hl & H1 & _). rewrite Et in Hm. cbn [bind] in Hm.
    destruct (forallb _ t); [|discriminate]. injection Hm as ->. intros s p Hp. destruct (H1 s p Hp) as (_ & q & w & Hz & ->). cbn.
    assert (Hs : s < length n) by (rewrite <- Hl; destruct (Nat.lt_ge_cases s (length tbl)) as [|Hs]; [assumption|]; rewrite nth_overflow in Hp by assumption; destruct Hp).
    clear Hp. induction Hz; [assumption|]. eapply wf_eps; eauto.
  Qed.

  Definition apart_ (r : list bool * list thread) : Prop :=
    length (fst r) = length n /\ NoDup (map fst (snd r)) /\ forall s, In s (map fst (snd r)) -> s < length n /\ nth s (fst r) false = true.
  Lemma push_apart idx b r p : ep_state p < length n -> apart_ r -> apart_ (flat_push idx b r p).
  Proof.
    destruct r as [occ out]. intros Hp (H1 & H2 & H3). cbn [fst snd] in *. unfold flat_push. destruct (nth (ep_state p) occ false) eqn:E; [unfold apart_; auto|].
    split; cbn [fst snd]; [now rewrite upd_length|]. rewrite map_app. cbn [map fst]. split.
    - apply nodup_snoc; [assumption|]. intros Hi. apply H3 in Hi as [_ Hi]. congruence.
    - intros s Hs. apply in_app_or in Hs as [Hs|[<-|[]]].
      + destruct (H3 s Hs) as [Hl Ho]. split; [assumption|]. rewrite nth_upd. destruct (_ && _); auto.
      + split; [assumption|]. rewrite nth_upd, Nat.eqb_refl, H1. destruct (Nat.ltb_spec (ep_state p) (length n)); [reflexivity|lia].
  Qed.
  Lemma ordered_incl a b l p : In p (ordered a b l) -> In p l.
  Proof. unfold ordered. rewrite !in_app_iff. destruct a, b; cbn [andb]; rewrite ?filter_In; cbn [In]; tauto. Qed.
  Lemma eps_apart idx len ths : NoDup (map fst (flat_eps_exec n tbl idx len ths)) /\ forall s, In s (map fst (flat_eps_exec n tbl idx len ths)) -> s < length n.
  Proof using Hm.
    destruct made as (Hw & Hl & Ht). unfold flat_eps_exec.
    assert (G : forall xs r, apart_ r -> apart_ (fold_left (fun acc th => fold_left (flat_push idx (snd th)) (ordered (idx =? 0) (idx =? len) (nth (fst th) tbl [])) acc) xs r)).
    { induction xs as [|th xs IH]; intros r Hr; cbn [fold_left]; [assumption|]. apply IH. assert (Hp : forall p, In p (ordered (idx =? 0) (idx =? len) (nth (fst th) tbl [])) -> ep_state p < length n) by (intros p Hp; apply ordered_incl in Hp; eauto).
      revert r Hr Hp. generalize (ordered (idx =? 0) (idx =? len) (nth (fst th) tbl [])) as l. induction l as [|p l IHl]; intros r Hr Hp; cbn [fold_left]; [assumption|].
      apply IHl; [apply push_apart; [apply Hp; now left|assumption]|]. intros; apply Hp; now right. }
    destruct (G ths (repeat false (length n), [])) as (_ & H2 & H3).
    - split; cbn; [apply repeat_length|]. split; [constructor|intros s []].
    - split; [assumption|]. intros s Hs. now apply H3.
  Qed.
  Lemma few (ths : list thread) : NoDup (map fst ths) -> (forall s, In s (map fst ths) -> s < length n) -> length ths <= length n.
  Proof.
    intros H1 H2. assert (E : length (map fst ths) <= length (seq 0 (length n))); [|rewrite map_length, seq_length in E; exact E]. apply NoDup_incl_length; [assumption|]. intros s Hs. apply in_seq. specialize (H2 s Hs). lia.
  Qed.
  (** After any number of characters. *)
  Lemma loop_apart len text : forall idx ths, NoDup (map fst ths) -> (forall s, In s (map fst ths) -> s < length n) ->
    let r := flat_exec_loop check width n tbl len idx ths text in NoDup (map fst r) /\ (forall s, In s (map fst r) -> s < length n).
  Proof using Hm.
    induction text as [|c text IH]; intros idx ths H1 H2; cbn [flat_exec_loop]; [auto|]. destruct (eps_apart (idx + width c) len (flat_sym_exec check n ths c)) as [E1 E2].
    destruct (flat_eps_exec n tbl (idx + width c) len (flat_sym_exec check n ths c)) as [|th l] eqn:E; [cbn; split; [constructor|intros s []]|]. now apply IH.
  Qed.
  Lemma loop_few len text b : let r := flat_exec_loop check width n tbl len 0 (flat_eps_exec n tbl 0 len [(0, b)]) text in NoDup (map fst r) /\ length r <= length n.
  Proof using Hm. destruct (eps_apart 0 len [(0, b)]) as [H1 H2]. destruct (loop_apart len text 0 _ H1 H2) as [G1 G2]. split; [assumption|now apply few]. Qed.
  (** Each thread carries one pair of bounds per group. *)
  Lemma tags_same idx ts : forall b : bounds, length (apply_tags idx ts b) = length b.
  Proof. unfold apply_tags. induction ts as [|t ts IH]; intros b; cbn [fold_left]; [reflexivity|]. rewrite IH. unfold apply_tag, set_start, set_end. destruct t; apply modify_length. Qed.
  Lemma eps_same g idx len ths : Forall (fun th : thread => length (snd th) = g) ths -> Forall (fun th : thread => length (snd th) = g) (flat_eps_exec n tbl idx len ths).
  Proof.
    intros H. unfold flat_eps_exec.
    assert (G : forall xs r, Forall (fun th : thread => length (snd th) = g) xs -> Forall (fun th : thread => length (snd th) = g) (snd r) ->
      Forall (fun th : thread => length (snd th) = g) (snd (fold_left (fun acc th => fold_left (flat_push idx (snd th)) (ordered (idx =? 0) (idx =? len) (nth (fst th) tbl [])) acc) xs r))).
    { induction xs as [|th xs IH]; intros r Hx Hr; cbn [fold_left]; [assumption|]. inversion Hx as [|? ? Hth Hxs]; subst. apply IH; [assumption|]. 
      revert r Hr. generalize (ordered (idx =? 0) (idx =? len) (nth (fst th) tbl [])) as l. induction l as [|p l IHl]; intros r Hr; cbn [fold_left]; [assumption|]. apply IHl.
      destruct r as [occ out]. unfold flat_push. destruct (nth _ occ false); [assumption|]. cbn [snd] in *. apply Forall_app. split; [assumption|]. constructor; [|constructor]. cbn. apply tags_same. }
    apply G; [assumption|constructor].
  Qed.
  Lemma loop_same g len text : forall idx ths, Forall (fun th : thread => length (snd th) = g) ths -> Forall (fun th : thread => length (snd th) = g) (flat_exec_loop check width n tbl len idx ths text).
  Proof.
    induction text as [|c text IH]; intros idx ths H; cbn [flat_exec_loop]; [assumption|].
    assert (E : Forall (fun th : thread => length (snd th) = g) (flat_eps_exec n tbl (idx + width c) len (flat_sym_exec check n ths c))).
    { apply eps_same. apply Forall_forall. intros x Hx. unfold flat_sym_exec in Hx. apply in_flat_map in Hx as (th & Hth & Hx). apply in_map_iff in Hx as (t & <- & _). cbn. rewrite Forall_forall in H. now apply H. }
    destruct (flat_eps_exec _ _ _ _ _) as [|th l]; [constructor|now apply IH].
  Qed.
  (** Between characters. *)
  Definition transitions : nat := list_sum (map (fun s => length (trans s)) n).
  Lemma sym_few ths c : NoDup (map fst ths) -> (forall s, In s (map fst ths) -> s < length n) -> length (flat_sym_exec check n ths c) <= transitions.
  Proof.
    intros H1 H2. unfold flat_sym_exec. assert (G : forall l, length (flat_map (fun th : thread => map (fun t => (fst t, snd th)) (filter (fun t => check (snd t) c) (trans (get n (fst th))))) l) <= list_sum (map (fun s => length (trans (get n s))) (map fst l))).
    { induction l as [|th l IH]; cbn [flat_map map list_sum fold_right]; [apply Nat.le_refl|]. rewrite app_length, map_length. assert (F := filter_le (fun t => check (snd t) c) (trans (get n (fst th)))). unfold list_sum in *. cbn in *. apply Nat.add_le_mono; assumption. }
    etransitivity; [apply G|]. assert (S : incl (map fst ths) (seq 0 (length n))) by (intros s Hs; apply in_seq; split; [apply Nat.le_0_l|exact (H2 s Hs)]).
    etransitivity; [exact (sum_incl (fun s => length (trans (get n s))) _ _ H1 S)|]. unfold transitions. apply Nat.eq_le_incl. now rewrite sum_get.
  Qed.
End Bound.

(** The list of threads [exec] holds after reading [pre] of the text [pre ++ post]: the run of
    [flat_run_exec], stopped there. *)
Definition threads_after {A C} (check : A -> C -> bool) (width : C -> nat) (n : nfa A) (tbl : list (list eprop)) (pre post : list C) : list thread :=
  let len := total_width width (pre ++ post) in
  flat_exec_loop check width n tbl len 0 (flat_eps_exec n tbl 0 len [(0, no_bounds (num_capture_groups n))]) pre.
Definition small {A C} (check : A -> C -> bool) (width : C -> nat) (n : nfa A) : Prop :=
  exists tbl, flat_make n = Ok tbl /\ forall pre post,
    let ths := threads_after check width n tbl pre post in
    NoDup (map fst ths) /\ length ths <= length n /\ (forall th, In th ths -> fst th < length n /\ length (snd th) = num_capture_groups n)
    /\ forall c, length (flat_sym_exec check n ths c) <= transitions n.
Lemma make_small {A C} (check : A -> C -> bool) width n tbl : flat_make n = Ok tbl -> small check width n.
Proof.
  intros Hm. exists tbl. split; [assumption|]. intros pre post ths. unfold threads_after in ths. cbn zeta in ths.
  assert (H := eps_apart n tbl Hm 0 (total_width width (pre ++ post)) [(0, no_bounds (num_capture_groups n))]). destruct H as [H1 H2].
  destruct (loop_apart check width n tbl Hm (total_width width (pre ++ post)) pre 0 _ H1 H2) as [G1 G2]. fold ths in G1, G2.
  split; [assumption|]. split; [now apply few|]. split.
  - intros th Hth. split; [apply G2; now apply in_map|]. assert (F : Forall (fun th : thread => length (snd th) = num_capture_groups n) ths).
    { apply loop_same, eps_same. constructor; [|constructor]. apply repeat_length. }
    rewrite Forall_forall in F. now apply F.
  - intros c. now apply sym_few.
Qed.
