(** The code generated for the lockstep engines: what the compiler accepts, and the two instances. *)
From Verif Require Export PEmitFlat.
From Coq Require Import ZifyBool ZifyNat ZifyN.
Open Scope nat_scope.
Open Scope list_scope.
Set Default Proof Using "Type".

Lemma mapM_at {X Y} (f : X -> res Y) : forall l ys i x, mapM f l = Ok ys -> nth_error l i = Some x -> exists y, f x = Ok y /\ nth_error ys i = Some y.
Proof.
  induction l as [|a l IH]; intros ys i x H Hx; [destruct i; discriminate Hx|]. cbn [mapM] in H. destruct (f a) as [b| | |] eqn:E; cbn [bind] in H; try discriminate H.
  destruct (mapM f l) as [bs| | |] eqn:El; cbn [bind] in H; try discriminate H. injection H as <-. destruct i as [|i]; cbn [nth_error] in *; [injection Hx as <-; eauto|]. eapply IH; eauto.
Qed.
(** ** Every constructed table qualifies *)
Section Fit.
  Context {A : Type}.
  Variable n : nfa A.
  Hypothesis Hlen : 1 <= length n.
  Lemma excluded_last : nth (length n - 1) (flat_excluded n) true = false.
  Proof using Hlen.
    unfold flat_excluded. set (F := fun out (p : nat * state A) => let '(from, s) := p in _).
    assert (HF : forall ps l s, nth s l true = false -> nth s (fold_left F ps l) true = false).
    { induction ps as [|[i st] ps IH]; intros l s H; cbn [fold_left]; [assumption|]. apply IH. unfold F. revert l H. induction (trans st) as [|t ts IHt]; intros l H; cbn [fold_left]; [assumption|].
      apply IHt. now do 2 apply nth_upd_false. }
    apply HF. rewrite nth_upd, upd_length, repeat_length, Nat.eqb_refl. destruct (Nat.ltb_spec (length n - 1) (length n)); [reflexivity|lia].
  Qed.
  Lemma excluded_from s : trans (get n s) <> [] -> nth s (flat_excluded n) true = false.
  Proof using Hlen.
    intros Ht. unfold flat_excluded. set (F := fun out (p : nat * state A) => let '(from, s) := p in _).
    assert (HF1 : forall p l s, nth s l true = false -> nth s (F l p) true = false).
    { intros [i st] l x H. unfold F. revert l H. induction (trans st) as [|t ts IHt]; intros l H; cbn [fold_left]; [assumption|]. apply IHt. now do 2 apply nth_upd_false. }
    assert (HF : forall ps l s, nth s l true = false -> nth s (fold_left F ps l) true = false) by (induction ps; intros l x H; cbn; auto).
    assert (HFl : forall l p, length (F l p) = length l).
    { intros l [i st]. unfold F. apply fold_length. intros l' t. now rewrite !upd_length. }
    destruct (trans (get n s)) as [|t ts] eqn:E; [congruence|].
    assert (Ha : In t (trans (get n s))) by (rewrite E; now left). destruct t as [to a]. assert (Hs := trans_range _ _ _ Ha).
    assert (Hi : In (s, get n s) (enumerate n)) by (apply In_get; auto).
    set (l0 := upd (length n - 1) _ _). assert (El : length l0 = length n) by (unfold l0; now rewrite !upd_length, repeat_length). clearbody l0. clear Ha Ht.
    revert l0 El. induction (enumerate n) as [|p ps IH]; intros l0 El; [destruct Hi|]. cbn [fold_left].
    destruct Hi as [->|Hi]; [|apply IH; [assumption|now rewrite HFl]]. apply HF. unfold F. rewrite E. cbn [fold_left fst].
    assert (G : forall ts l, nth s l true = false -> nth s (fold_left (fun out (t : nat * A) => upd (fst t) false (upd s false out)) ts l) true = false).
    { clear. induction ts as [|t ts IH]; intros l H; cbn [fold_left]; [assumption|]. apply IH. now do 2 apply nth_upd_false. }
    apply G, nth_upd_false. rewrite nth_upd, Nat.eqb_refl. destruct (Nat.ltb_spec s (length l0)); [reflexivity|lia].
  Qed.
  Hypothesis Hwf : wf n.
  Lemma flat_fit_table tbl : flat_table n = Ok tbl -> flat_fit n tbl.
  Proof using Hlen Hwf.
    intros Et. destruct (flat_table_spec n Hwf Hlen) as (tbl' & Et' & T1 & T2 & _). rewrite Et in Et'. injection Et' as <-.
    assert (HR : forall s, s < length n -> nth s (flat_excluded n) true = true -> nth s tbl [] = []).
    { intros s Hs He. unfold flat_table in Et.
      assert (Hi : nth_error (enumerate (flat_excluded n)) s = Some (s, true)).
      { unfold enumerate. rewrite nth_error_pairs, flat_excluded_length. rewrite (nth_error_nth' (seq 0 (length n)) 0) by now rewrite seq_length.
        rewrite seq_nth by assumption. rewrite (nth_error_nth' (flat_excluded n) true) by now rewrite flat_excluded_length. now rewrite He. }
      destruct (mapM_at _ _ _ s _ Et Hi) as (y & E & Hy). cbn [snd] in E. apply (nth_error_nth _ _ []) in Hy. rewrite Hy. congruence. }
    constructor.
    - assumption.
    - assumption.
    - intros s [t a] Ht. cbn [fst]. assert (Hto : t < length n) by (eapply wf_trans; eauto). split; [assumption|].
      apply flat_excluded_spec; [assumption|right; eauto|assumption].
    - intros s p Hp. destruct (T2 s p Hp) as (Hr & t & w & Hz & ->). cbn [ep_of ep_state].
      assert (Hs : s < length n). { rewrite <- T1. destruct (Nat.lt_ge_cases s (length tbl)); [assumption|]. rewrite nth_overflow in Hp by assumption. destruct Hp. }
      assert (Ht : t < length n). { clear - Hz Hs Hwf. induction Hz; [assumption|]. eapply wf_eps; eauto. }
      split; [assumption|]. unfold retained in Hr. cbn [ep_of ep_state] in Hr. destruct (trans (get n t)) eqn:E.
      + apply Nat.eqb_eq in Hr. replace t with (length n - 1) by lia. apply excluded_last.
      + apply excluded_from. congruence.
    - intros s Hs He. split; [|now apply HR]. destruct (trans (get n s)) eqn:E; [reflexivity|]. rewrite excluded_from in He by congruence. discriminate He.
    - apply flat_excluded_spec; [assumption|now left|assumption].
    - apply excluded_last.
  Qed.
End Fit.

(** ** The checks *)
Lemma goods_nil enum result procs G : Rust.goods enum result procs [] G = true.
Proof. reflexivity. Qed.
Lemma goods_forallb {X} enum result procs (code : X -> stmt) (ok : X -> bool) G l :
  (forall x, In x l -> Rust.good enum result procs (code x) G = if ok x then Some G else None) ->
  Rust.goods enum result procs (map code l) G = forallb ok l.
Proof.
  induction l as [|x l IH]; intros H; [reflexivity|]. cbn [map forallb]. rewrite goods_cons, (H x (or_introl eq_refl)). destruct (ok x); [|reflexivity].
  apply IH. intros y Hy. apply H. now right.
Qed.
Lemma goods_split enum result procs G l m : (forall s, In s l -> Rust.good enum result procs s G = Some G \/ Rust.good enum result procs s G = None) ->
  Rust.goods enum result procs (l ++ m) G = Rust.goods enum result procs l G && Rust.goods enum result procs m G.
Proof.
  induction l as [|s l IH]; intros H; [reflexivity|]. cbn [app]. rewrite !goods_cons. destruct (H s (or_introl eq_refl)) as [->| ->]; [|reflexivity].
  apply IH. intros t Ht. apply H. now right.
Qed.
Section Check.
  Context {A : Type}.
  Variables (sym_code : A -> rexp) (t_sym : ty) (it : Rust.iter) (next : rexp) (sym_ok : A -> bool).
  Hypothesis Hsym : forall enum G a, look Xc G = Some t_sym -> Rust.has enum G (sym_code a) TBool = sym_ok a.
  Hypothesis Hit : forall enum G, iter_ctx enum G it = Some [(Xc, t_sym); (Xi, TNum)].
  Hypothesis Hnext : forall enum G, look Xi G = Some TNum -> look Xc G = Some t_sym -> Rust.has enum G next TNum = true.
  Variables (n : nfa A) (tbl : list (list eprop)).
  Hypothesis HF : flat_fit n tbl.
  Notation ex := (flat_excluded n).
  Notation g := (num_capture_groups n).
  Notation k := (length n).
  Notation enum := (flat_enum ex).
  Definition syms_ok : bool := forallb (fun s => forallb (fun t => sym_ok (snd t)) (trans s)) n.
  Lemma flat_enum_nodup : NoDup (map fst enum).
  Proof. unfold flat_enum. rewrite map_map. cbn [fst]. apply kept_nodup. Qed.
  Lemma flat_variant s : s < k -> nth s ex true = false -> variant enum (LNum s) = Some None.
  Proof.
    intros Hs He. apply variant_In; [apply flat_enum_nodup|]. unfold flat_enum. apply in_map_iff. exists (s, nth s ex true). split; [reflexivity|].
    apply kept_In; [now rewrite flat_excluded_length|assumption].
  Qed.
  Lemma flat_kept {X} (l : list X) i x : In (i, x) (kept ex l) -> nth_error l i = Some x /\ nth i ex true = false.
  Proof. unfold kept. intros H. apply filter_In in H as [H1 H2]. apply In_enumerate in H1. cbn [fst] in H2. destruct (nth i ex true); [discriminate H2|auto]. Qed.
  (** Excluded states have nothing to check *)
  Lemma forallb_kept {X} (l : list X) d (ok : X -> bool) : length l = k ->
    (forall i, i < k -> nth i ex true = true -> ok (nth i l d) = true) ->
    forallb (fun p => ok (snd p)) (kept ex l) = forallb ok l.
  Proof.
    intros Hl Ho. apply eq_true_iff_eq. rewrite !forallb_forall. split.
    - intros H x Hx. apply (In_nth _ _ d) in Hx as (i & Hi & <-). destruct (nth i ex true) eqn:E; [apply Ho; [lia|assumption]|]. apply (H (i, nth i l d)). now apply kept_In.
    - intros H [i x] Hx. apply flat_kept in Hx as [Hx _]. apply H. eapply nth_error_In; eauto.
  Qed.
  Lemma covered_kept {X} (l : list X) (B : nat * X -> list stmt) (d : X) : length l = k ->
    Rust.covered enum (map (fun p => (mkPat (LNum (fst p)) None None, None, B p)) (kept ex l)) = true.
  Proof.
    intros Hl. unfold Rust.covered. apply forallb_forall. intros v Hv. unfold flat_enum in Hv. apply in_map_iff in Hv as ([i b] & <- & Hi). apply flat_kept in Hi as [Hi He].
    assert (Hk : i < k) by (rewrite <- (flat_excluded_length n); apply nth_error_Some; congruence).
    apply existsb_exists. exists (mkPat (LNum i) None None, None, B (i, nth i l d)). split.
    - apply in_map_iff. exists (i, nth i l d). split; [reflexivity|]. apply kept_In; [lia|assumption].
    - cbn [p_label p_range fst]. now rewrite label_refl.
  Qed.

  Lemma sym_test_good result : 
    Rust.goods enum result [] (pr_body (sym_test_proc sym_code t_sym n)) [(Xc, t_sym); (Xnew_list, TVec TBool); (Xlist, TVec TBool)] = syms_ok.
  Proof using HF Hsym.
    cbn [pr_body sym_test_proc]. unfold syms_ok. rewrite <- (forallb_kept n empty_state (fun s => forallb (fun t => sym_ok (snd t)) (trans s)) eq_refl).
    2: { intros i Hi He. change (nth i n empty_state) with (get n i). now rewrite (proj1 (ff_out _ _ HF i Hi He)). }
    apply goods_forallb. intros [i s] Hp. cbn [fst snd]. rewrite good_if.
    rewrite (goods_forallb _ _ _ _ (fun t => sym_ok (snd t))).
    - cbn [Rust.has infer look var_eqb ty_eqb andb Rust.goods]. now rewrite andb_true_r.
    - intros t _. rewrite good_if, Hsym by reflexivity. cbn [Rust.goods andb Rust.good look var_eqb place infer Rust.has ty_eqb]. now rewrite !andb_true_r.
  Qed.
  Lemma eps_test_good result :
    Rust.goods enum result [] (pr_body (eps_test_proc n tbl)) [(Xlen, TNum); (Xidx, TNum); (Xlist, TVec TBool)] = true.
  Proof.
    cbn [pr_body eps_test_proc is_code app]. rewrite goods_cons, good_let by reflexivity. rewrite goods_cons, good_let by reflexivity.
    apply goods_all. apply Forall_forall. intros s Hs. apply in_map_iff in Hs as ([i ps] & <- & _). cbn [fst snd]. rewrite good_if, goods_nil. cbn [Rust.has infer look var_eqb ty_eqb andb].
    assert (U : forall q, Rust.goods enum result [] (map mark_code (filter q ps)) [(Xis_end, TBool); (Xis_start, TBool); (Xlen, TNum); (Xidx, TNum); (Xlist, TVec TBool)] = true).
    { intros q. apply goods_all. apply Forall_forall. intros x Hx. apply in_map_iff in Hx as (p & <- & _). reflexivity. }
    unfold groups_code. cbn [app]. rewrite goods_cons, good_if, U, goods_nil. cbn [Rust.has infer look var_eqb ty_eqb andb].
    rewrite goods_cons, good_if, U, goods_nil. cbn [Rust.has infer look var_eqb ty_eqb andb].
    rewrite goods_cons, good_if, U, goods_nil. cbn [Rust.has infer look var_eqb ty_eqb andb]. now rewrite U.
  Qed.
  Lemma flat_test_accepts : accepts (flat_test_code sym_code t_sym it next n tbl) = syms_ok.
  Proof using HF Hsym Hit Hnext.
    assert (Ht := ty_refl t_sym).
    assert (Hk := ff_len _ _ HF).
    assert (Hk0 : (0 <? k) = true) by (apply Nat.ltb_lt; lia). assert (Hk1 : (k - 1 <? k) = true) by (apply Nat.ltb_lt; lia).
    unfold accepts, flat_test_code. cbn [f_enum f_procs f_body f_result f_args rev map forallb].
    rewrite (proj2 (distinct_iff _) flat_enum_nodup). cbn [andb].
    rewrite <- (sym_test_good None). rewrite <- (andb_true_r (Rust.goods enum None [] _ _)). rewrite <- (andb_true_r (Rust.goods enum None [] _ _)).
    assert (E := eps_test_good None). cbn [pr_refs pr_vals sym_test_proc eps_test_proc rev app map snd] in *. rewrite E. clear E. rewrite <- !andb_assoc. f_equal.
    rewrite goods_cons, good_let by (cbn [Rust.has infer ty_eqb]; rewrite Nat.eqb_refl; reflexivity).
    rewrite goods_cons, good_let by (cbn [Rust.has infer ty_eqb]; rewrite Nat.eqb_refl; reflexivity).
    rewrite goods_cons. cbn [Rust.good look var_eqb place infer]. rewrite Hk0. cbn [Rust.has infer ty_eqb].
    rewrite goods_cons. cbn [Rust.good nth_error all2 look var_eqb passes ty_eqb Rust.has infer andb orb].
    rewrite goods_cons, good_for, Hit. cbn [app].
    rewrite goods_cons. cbn [Rust.good nth_error all2 look var_eqb passes ty_eqb Rust.has infer andb orb]. rewrite Ht. cbn [andb].
    rewrite goods_cons, good_if. cbn [Rust.goods Rust.good Rust.has infer look var_eqb ty_eqb andb].
    rewrite Nat.eqb_refl. cbn [nth_error all2 look var_eqb passes ty_eqb]. rewrite Hnext by reflexivity. cbn [andb orb Rust.has infer ty_eqb].
    change (passes (TArr TBool k) (TVec TBool)) with true. cbn [andb look var_eqb]. rewrite Hk1. cbn [ty_eqb existsb returns orb andb]. now rewrite ?andb_true_r.
  Qed.

  (** *** exec *)
  Definition rows_ok : bool := forallb (tags_in_range g) tbl.
  Lemma sym_exec_good :
    Rust.goods enum None [] (pr_body (sym_exec_proc sym_code t_sym n)) [(Xc, t_sym); (Xnew_threads, TVec (t_thread g)); (Xthreads, TVec (t_thread g))] = syms_ok.
  Proof using HF Hsym.
    cbn [pr_body sym_exec_proc]. rewrite goods_cons, good_for. cbn [iter_ctx infer look var_eqb app]. rewrite goods_cons, good_match.
    cbn [Rust.has infer look var_eqb t_thread ty_eqb andb paired]. rewrite (covered_kept n _ empty_state) by reflexivity. cbn [andb].
    unfold syms_ok. rewrite <- (forallb_kept n empty_state (fun s => forallb (fun t => sym_ok (snd t)) (trans s)) eq_refl).
    2: { intros i Hi He. change (nth i n empty_state) with (get n i). now rewrite (proj1 (ff_out _ _ HF i Hi He)). }
    match goal with |- context [forallb (arm_ok ?e ?r ?ps ?G ?pp) ?l] => assert (E : forallb (arm_ok e r ps G pp) l = forallb (fun p : nat * state A => forallb (fun t => sym_ok (snd t)) (trans (snd p))) (kept ex n)) end.
    2: { rewrite E. clear E. match goal with |- context [if ?b then _ else _] => destruct b; reflexivity end. }
    assert (Hin : forall p, In p (kept ex n) -> fst p < k /\ nth (fst p) ex true = false /\ snd p = get n (fst p)).
    { intros [i s] Hp. apply flat_kept in Hp as [Hp He]. cbn [fst snd]. split; [apply nth_error_Some; congruence|]. split; [assumption|]. symmetry. now apply nth_error_nth. }
    revert Hin. generalize (kept ex n). intros L. induction L as [|[i s] L IH]; intros Hin; [reflexivity|]. cbn [map forallb]. rewrite <- IH by (intros p Hp; apply Hin; now right). f_equal.
    destruct (Hin _ (or_introl eq_refl)) as (I1 & I2 & I3). cbn [fst snd] in *. unfold arm_ok, pat_ctx. cbn [p_label p_bind p_range]. rewrite flat_variant by assumption. cbn [app andb].
    apply goods_forallb. intros t Hin'. rewrite I3 in Hin'. destruct (ff_to _ _ HF _ _ Hin') as [T1 T2]. rewrite good_if, Hsym by reflexivity. rewrite goods_cons.
    cbn [Rust.good look var_eqb Rust.has]. rewrite flat_variant by assumption. unfold t_thread at 1 2. cbn [infer look var_eqb andb]. unfold t_thread at 1. rewrite ty_refl, !goods_nil. now rewrite !andb_true_r.
  Qed.
  Notation GE := [(Xthread, t_thread g); (Xoccupied, TVec TBool); (Xis_end, TBool); (Xis_start, TBool); (Xlen, TNum); (Xidx, TNum); (Xnew_threads, TVec (t_thread g)); (Xthreads, TVec (t_thread g))].
  Lemma good_push p : ep_state p < k -> nth (ep_state p) ex true = false ->
    Rust.good enum None [] (push_code g p) GE = if forallb (fun t => tag_group t <? g) (ep_tags p) then Some GE else None.
  Proof.
    intros Hp He. unfold push_code. rewrite good_if. cbn [Rust.has infer look var_eqb ty_eqb andb app].
    rewrite goods_cons, good_let by (cbn [Rust.has infer look var_eqb t_thread t_bounds t_pair ty_eqb]; rewrite Nat.eqb_refl; reflexivity).
    rewrite goods_cons. cbn [Rust.good look var_eqb t_thread place Rust.has]. rewrite flat_variant by assumption.
    match goal with |- context [Rust.goods enum None [] (map ?c ?l ++ ?m) ?G] => assert (T : forall t, Rust.good enum None [] (c t) G = if tag_group t <? g then Some G else None) end.
    { intros t. destruct t as [i|i]; cbn [set_tag app Rust.good look var_eqb t_thread place infer t_bounds t_pair tag_group]; destruct (i <? g); reflexivity. }
    rewrite goods_split.
    2: { intros s Hs. apply in_map_iff in Hs as (t & <- & _). rewrite T. destruct (tag_group t <? g); auto. }
    rewrite (goods_forallb _ _ _ _ (fun t => tag_group t <? g)) by (intros t _; apply T).
    rewrite goods_cons. cbn [Rust.good look var_eqb Rust.has infer t_thread t_bounds t_pair ty_eqb andb]. rewrite Nat.eqb_refl. cbn [andb].
    rewrite goods_cons. cbn [Rust.good look var_eqb place infer Rust.has ty_eqb Rust.goods andb]. now rewrite !andb_true_r.
  Qed.
  Lemma tags_in_range_split l : tags_in_range g l =
    tags_in_range g (filter (fun p => ep_start p && ep_end p) l) && (tags_in_range g (filter (fun p => ep_start p && negb (ep_end p)) l)
    && (tags_in_range g (filter (fun p => negb (ep_start p) && ep_end p) l) && tags_in_range g (filter (fun p => negb (ep_start p) && negb (ep_end p)) l))).
  Proof.
    unfold tags_in_range. induction l as [|p l IH]; [reflexivity|]. cbn [forallb filter]. rewrite IH. clear IH.
    destruct (forallb _ (ep_tags p)) eqn:E; cbn [andb]; destruct (ep_start p), (ep_end p); cbn [andb negb forallb]; rewrite ?E; cbn [andb]; rewrite ?andb_false_r; reflexivity.
  Qed.
  Lemma groups_good l : (forall p, In p l -> ep_state p < k /\ nth (ep_state p) ex true = false) ->
    Rust.goods enum None [] (groups_code (push_code g) l) GE = tags_in_range g l.
  Proof.
    intros Hl. assert (U : forall q, Rust.goods enum None [] (map (push_code g) (filter q l)) GE = tags_in_range g (filter q l)).
    { intros q. apply goods_forallb. intros p Hp. apply filter_In in Hp as [Hp _]. destruct (Hl p Hp). now apply good_push. }
    rewrite (tags_in_range_split l). unfold groups_code. cbn [app].
    rewrite goods_cons, good_if, U, goods_nil. cbn [Rust.has infer look var_eqb ty_eqb andb]. rewrite andb_true_r. destruct (tags_in_range g _); [|reflexivity]. cbn [andb].
    rewrite goods_cons, good_if, U, goods_nil. cbn [Rust.has infer look var_eqb ty_eqb andb]. rewrite andb_true_r. destruct (tags_in_range g _); [|reflexivity]. cbn [andb].
    rewrite goods_cons, good_if, U, goods_nil. cbn [Rust.has infer look var_eqb ty_eqb andb]. rewrite andb_true_r. destruct (tags_in_range g _); [|reflexivity]. cbn [andb].
    apply U.
  Qed.
  Lemma eps_exec_good :
    Rust.goods enum None [] (pr_body (eps_exec_proc n tbl)) [(Xlen, TNum); (Xidx, TNum); (Xnew_threads, TVec (t_thread g)); (Xthreads, TVec (t_thread g))] = rows_ok.
  Proof using HF.
    cbn [pr_body eps_exec_proc is_code app]. rewrite goods_cons, good_let by reflexivity. rewrite goods_cons, good_let by reflexivity. rewrite goods_cons, good_let by reflexivity.
    rewrite goods_cons, good_for. cbn [iter_ctx infer look var_eqb app]. rewrite goods_cons, good_match.
    cbn [Rust.has infer look var_eqb t_thread ty_eqb andb paired]. rewrite (covered_kept tbl _ []) by apply (ff_tbl _ _ HF). cbn [andb].
    unfold rows_ok. rewrite <- (forallb_kept tbl [] (tags_in_range g) (ff_tbl _ _ HF)).
    2: { intros i Hi He. now rewrite (proj2 (ff_out _ _ HF i Hi He)). }
    match goal with |- context [forallb (arm_ok ?e ?r ?ps ?G ?pp) ?l] => assert (E : forallb (arm_ok e r ps G pp) l = forallb (fun p : nat * list eprop => tags_in_range g (snd p)) (kept ex tbl)) end.
    2: { rewrite E. clear E. match goal with |- context [if ?b then _ else _] => destruct b; reflexivity end. }
    assert (Hin : forall p, In p (kept ex tbl) -> fst p < k /\ nth (fst p) ex true = false /\ snd p = nth (fst p) tbl []).
    { intros [i s] Hp. apply flat_kept in Hp as [Hp He]. cbn [fst snd]. split; [rewrite <- (ff_tbl _ _ HF); apply nth_error_Some; congruence|]. split; [assumption|]. symmetry. now apply nth_error_nth. }
    revert Hin. generalize (kept ex tbl). intros L. induction L as [|[i s] L IH]; intros Hin; [reflexivity|]. cbn [map forallb]. rewrite <- IH by (intros p Hp; apply Hin; now right). f_equal.
    destruct (Hin _ (or_introl eq_refl)) as (I1 & I2 & I3). cbn [fst snd] in *. unfold arm_ok, pat_ctx. cbn [p_label p_bind p_range]. rewrite flat_variant by assumption. cbn [app andb].
    apply (groups_good s). intros p Hp. rewrite I3 in Hp. apply (ff_in _ _ HF _ _ Hp).
  Qed.
  Lemma flat_exec_accepts : accepts (flat_exec_code sym_code t_sym it next n tbl) = syms_ok && rows_ok.
  Proof using HF Hsym Hit Hnext.
    assert (Ht := ty_refl t_sym).
    assert (Hk := ff_len _ _ HF).
    unfold accepts, flat_exec_code. cbn [f_enum f_procs f_body f_result f_args rev map forallb].
    rewrite (proj2 (distinct_iff _) flat_enum_nodup). cbn [andb].
    cbn [pr_refs pr_vals sym_exec_proc eps_exec_proc app map fst distinct_vars existsb var_eqb negb orb andb].
    assert (E := sym_exec_good). cbn [pr_refs pr_vals sym_exec_proc eps_exec_proc rev app map snd] in *. rewrite E. clear E.
    assert (E := eps_exec_good). cbn [pr_refs pr_vals sym_exec_proc eps_exec_proc rev app map snd] in *. rewrite E. clear E. rewrite andb_true_r.
    transitivity (syms_ok && rows_ok && true); [|apply andb_true_r]. rewrite <- !andb_assoc. f_equal. f_equal. cbn [app].
    assert (Et : ty_eqb (t_thread g) (t_thread g) = true) by apply ty_refl.
    rewrite goods_cons, good_let by reflexivity. rewrite goods_cons, good_let by reflexivity.
    rewrite goods_cons. cbn [Rust.good look var_eqb t_thread Rust.has]. rewrite (flat_variant 0) by (lia || apply (ff_zero _ _ HF)).
    cbn [e_bounds t_bounds t_pair Rust.has infer ty_eqb andb]. rewrite Nat.eqb_refl. cbn [andb]. fold t_pair. fold (t_bounds g). fold (t_thread g).
    assert (Ep : passes (TVec (t_thread g)) (TVec (t_thread g)) = true) by (unfold passes; cbn [ty_eqb]; now rewrite Et).
    rewrite goods_cons. cbn [Rust.good nth_error all2 look var_eqb Rust.has infer andb orb]. rewrite Ep. cbn [ty_eqb andb].
    assert (Ev : ty_eqb (TVec (t_thread g)) (TVec (t_thread g)) = true) by exact Et.
    rewrite goods_cons. cbn [Rust.good look var_eqb]. rewrite Ev.
    rewrite goods_cons, good_for, Hit. cbn [app].
    rewrite goods_cons. cbn [Rust.good look var_eqb].
    rewrite goods_cons. cbn [Rust.good nth_error all2 look var_eqb Rust.has infer andb orb]. rewrite Ep, Ht. cbn [andb].
    rewrite goods_cons. cbn [Rust.good look var_eqb]. rewrite Ev.
    rewrite goods_cons. cbn [Rust.good look var_eqb].
    rewrite goods_cons. cbn [Rust.good nth_error all2 look var_eqb andb orb]. rewrite Ep, Hnext by reflexivity. cbn [Rust.has infer ty_eqb andb].
    rewrite goods_cons. cbn [Rust.good look var_eqb]. rewrite Ev.
    rewrite goods_cons, good_if. cbn [Rust.has infer look var_eqb ty_eqb andb Rust.goods Rust.good t_result].
    rewrite (flat_variant (k - 1)) by (lia || apply (ff_last _ _ HF)). fold t_pair. cbn [t_thread t_result]. rewrite ty_refl.
    rewrite good_finish; [|reflexivity|now right|reflexivity]. reflexivity.
  Qed.
End Check.

(** ** The two instances *)
Lemma enumerate_indexed l : enumerate l = indexed (fun _ => 1) 0 l.
Proof.
  unfold enumerate. enough (G : forall i, combine (seq i (length l)) l = indexed (fun _ => 1) i l) by apply G.
  induction l as [|c l IH]; intros i; [reflexivity|]. cbn [length seq combine indexed]. now rewrite IH, (Nat.add_comm i 1).
Qed.
Lemma char_indexed l : char_indices 0 l = indexed len_utf8 0 l.
Proof. generalize 0. induction l as [|c l IH]; intros i; [reflexivity|]. cbn [char_indices indexed]. now rewrite IH. Qed.
Section Bytes.
  Variables (n : nfa range) (tbl : list (list eprop)) (text : list N).
  Hypothesis HF : flat_fit n tbl.
  Let Hsym : forall e a c, look Xc e = Some (VByte c) -> eval text e (in_code a) = Ok (VBool (byte_check a c)).
  Proof.
    intros e [a b] c H. unfold in_code, byte_check. cbn [eval fst snd]. unfold getv. rewrite H. cbn [need bind as_bool]. unfold in_range. cbn [fst snd]. destruct (a <=? c)%N; reflexivity.
  Qed.
  Let Hit : forall e, rounds text e IEnum = Ok (map (fun '(i, c) => [(Xc, VByte c); (Xi, VNum i)]) (indexed (fun _ => 1) 0 (utf8 text))).
  Proof. intros e. cbn [rounds]. now rewrite enumerate_indexed. Qed.
  Let Hnext : forall e i c, look Xi e = Some (VNum i) -> look Xc e = Some (VByte c) -> eval text e (ESucc (EVar Xi)) = Ok (VNum (i + 1)).
  Proof. intros e i c H _. cbn [eval]. unfold getv. rewrite H. cbn [need bind]. now rewrite Nat.add_1_r. Qed.
  Let Htext : total_width (fun _ : N => 1) (utf8 text) = blen text.
  Proof. rewrite <- utf8_length. induction (utf8 text) as [|c l IH]; [reflexivity|unfold total_width in *; cbn; f_equal; exact IH]. Qed.
  Lemma byte_test_code_run : run_func (byte_test_code n tbl) text [] = Ok (VBool (flat_run_test byte_check (fun _ => 1) n tbl (utf8 text))).
  Proof using HF. exact (flat_test_code_run byte_check (fun _ => 1) in_code TByte VByte IEnum (ESucc (EVar Xi)) text (utf8 text) Hsym Hit Hnext Htext n tbl HF). Qed.
  Lemma byte_exec_code_run : forallb (tags_in_range (num_capture_groups n)) tbl = true ->
    run_func (byte_exec_code n tbl) text [] = do r <- run_finish text (flat_run_exec byte_check (fun _ => 1) n tbl (utf8 text)); Ok (enc_result r).
  Proof using HF.
    intros Hr. refine (flat_exec_code_run byte_check (fun _ => 1) in_code TByte VByte IEnum (ESucc (EVar Xi)) text (utf8 text) Hsym Hit Hnext Htext n tbl HF _).
    intros s p t Hp Ht. destruct (Nat.lt_ge_cases s (length tbl)) as [Hs|Hs]; [|rewrite nth_overflow in Hp by assumption; destruct Hp].
    rewrite forallb_forall in Hr. specialize (Hr _ (nth_In _ [] Hs)). unfold tags_in_range in Hr. rewrite forallb_forall in Hr. specialize (Hr p Hp).
    rewrite forallb_forall in Hr. now apply Nat.ltb_lt, Hr.
  Qed.
  Lemma byte_syms_ok : syms_ok (fun _ : range => true) n = true.
  Proof. unfold syms_ok. apply forallb_forall. intros s _. apply forallb_forall. reflexivity. Qed.
  Lemma byte_test_accepts : accepts (byte_test_code n tbl) = true.
  Proof using HF.
    unfold byte_test_code. rewrite (flat_test_accepts in_code TByte IEnum (ESucc (EVar Xi)) (fun _ => true)); [apply byte_syms_ok|..|exact HF].
    - intros en G [a b] H. cbn [in_code Rust.has infer fst snd]. rewrite H. reflexivity.
    - reflexivity.
    - intros en G H _. cbn [Rust.has infer]. now rewrite H.
  Qed.
  Lemma byte_exec_accepts : accepts (byte_exec_code n tbl) = forallb (tags_in_range (num_capture_groups n)) tbl.
  Proof using HF.
    unfold byte_exec_code. rewrite (flat_exec_accepts in_code TByte IEnum (ESucc (EVar Xi)) (fun _ => true)); [now rewrite byte_syms_ok|..|exact HF].
    - intros en G [a b] H. cbn [in_code Rust.has infer fst snd]. rewrite H. reflexivity.
    - reflexivity.
    - intros en G H _. cbn [Rust.has infer]. now rewrite H.
  Qed.
End Bytes.
Section Chars.
  Variables (n : nfa atom) (tbl : list (list eprop)) (text : list N).
  Hypothesis HF : flat_fit n tbl.
  Let Hsym : forall e a c, look Xc e = Some (VChar c) -> eval text e (check_code a) = Ok (VBool (atom_check a c)).
  Proof. intros e a c H. unfold check_code. cbn [eval]. unfold getv. rewrite H. cbn [need bind]. now rewrite static_atom_check. Qed.
  Let Hit : forall e, rounds text e IChars = Ok (map (fun '(i, c) => [(Xc, VChar c); (Xi, VNum i)]) (indexed len_utf8 0 text)).
  Proof. intros e. cbn [rounds]. now rewrite char_indexed. Qed.
  Let Hnext : forall e i c, look Xi e = Some (VNum i) -> look Xc e = Some (VChar c) -> eval text e (EWidth (EVar Xi) (EVar Xc)) = Ok (VNum (i + len_utf8 c)).
  Proof. intros e i c H H'. cbn [eval]. unfold getv. rewrite H, H'. reflexivity. Qed.
  Let Htext : total_width len_utf8 text = blen text.
  Proof. reflexivity. Qed.
  Lemma char_test_code_run : run_func (char_test_code n tbl) text [] = Ok (VBool (flat_run_test atom_check len_utf8 n tbl text)).
  Proof using HF. exact (flat_test_code_run atom_check len_utf8 check_code TChar VChar IChars (EWidth (EVar Xi) (EVar Xc)) text text Hsym Hit Hnext Htext n tbl HF). Qed.
  Lemma char_exec_code_run : forallb (tags_in_range (num_capture_groups n)) tbl = true ->
    run_func (char_exec_code n tbl) text [] = do r <- run_finish text (flat_run_exec atom_check len_utf8 n tbl text); Ok (enc_result r).
  Proof using HF.
    intros Hr. refine (flat_exec_code_run atom_check len_utf8 check_code TChar VChar IChars (EWidth (EVar Xi) (EVar Xc)) text text Hsym Hit Hnext Htext n tbl HF _).
    intros s p t Hp Ht. destruct (Nat.lt_ge_cases s (length tbl)) as [Hs|Hs]; [|rewrite nth_overflow in Hp by assumption; destruct Hp].
    rewrite forallb_forall in Hr. specialize (Hr _ (nth_In _ [] Hs)). unfold tags_in_range in Hr. rewrite forallb_forall in Hr. specialize (Hr p Hp).
    rewrite forallb_forall in Hr. now apply Nat.ltb_lt, Hr.
  Qed.
  Lemma char_test_accepts : accepts (char_test_code n tbl) = nfa_compiles n.
  Proof using HF.
    unfold char_test_code. rewrite (flat_test_accepts check_code TChar IChars (EWidth (EVar Xi) (EVar Xc)) atom_compiles); [reflexivity|..|exact HF].
    - intros en G a H. cbn [check_code Rust.has infer]. rewrite H. now destruct (atom_compiles a).
    - reflexivity.
    - intros en G H H'. cbn [Rust.has infer]. now rewrite H, H'.
  Qed.
  Lemma char_exec_accepts : accepts (char_exec_code n tbl) = nfa_compiles n && forallb (tags_in_range (num_capture_groups n)) tbl.
  Proof using HF.
    unfold char_exec_code. rewrite (flat_exec_accepts check_code TChar IChars (EWidth (EVar Xi) (EVar Xc)) atom_compiles); [reflexivity|..|exact HF].
    - intros en G a H. cbn [check_code Rust.has infer]. rewrite H. now destruct (atom_compiles a).
    - reflexivity.
    - intros en G H H'. cbn [Rust.has infer]. now rewrite H, H'.
  Qed.
End Chars.
