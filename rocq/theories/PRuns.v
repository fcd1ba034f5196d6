(** When the code generated for a one-pass automaton compiles. *)
From Verif Require Export PCompile.
From Coq Require Import Permutation Wf_nat ZifyBool ZifyNat ZifyN.
Open Scope nat_scope.
Open Scope list_scope.
Set Default Proof Using "Type".

(** ** States that are not excluded are entered *)
Lemma op_excluded_entered (n : nfa range) s : nth s (op_excluded n) true = false -> entered n s.
Proof.
  unfold op_excluded. set (F := fun out (st : state range) => _).
  assert (HF : forall st l, In st n -> (forall x, nth x l true = false -> entered n x) -> forall x, nth x (F l st) true = false -> entered n x).
  { intros st l Hst. unfold F. assert (G : forall ts l, incl ts (trans st) -> (forall x, nth x l true = false -> entered n x) ->
      forall x, nth x (fold_left (fun out (t : nat * range) => upd (fst t) false out) ts l) true = false -> entered n x); [|apply G; apply incl_refl].
    clear l. induction ts as [|[t a] ts IH]; intros l Hi Hl x; cbn [fold_left]; [apply Hl|]. apply IH; [intros y Hy; apply Hi; now right|].
    intros y. cbn [fst]. rewrite nth_upd. destruct ((y =? t) && (t <? length l)) eqn:E; [|apply Hl]. intros _. apply andb_true_iff in E as [E _]. apply Nat.eqb_eq in E. subst y. right.
    apply (In_nth _ _ empty_state) in Hst as (q & Hq & <-). exists q, a. apply Hi. now left. }
  assert (G : forall ps l, incl ps n -> (forall x, nth x l true = false -> entered n x) -> forall x, nth x (fold_left F ps l) true = false -> entered n x).
  { induction ps as [|p ps IH]; intros l Hi Hl x; cbn [fold_left]; [apply Hl|]. apply IH; [intros y Hy; apply Hi; now right|]. apply HF; [apply Hi; now left|assumption]. }
  apply G; [apply incl_refl|]. intros x. rewrite nth_upd. destruct ((x =? 0) && _) eqn:E; [intros _; left; apply andb_true_iff in E as [E _]; now apply Nat.eqb_eq|].
  assert (H : forall k, nth x (repeat true k) true = true) by (clear; intros k; revert x; induction k; intros [|x]; cbn; auto). intros X. rewrite H in X. discriminate.
Qed.

(** ** A rank that increases along the edges *)
Fixpoint idx (x : nat) (l : list nat) : nat := match l with [] => 0 | y :: r => if y =? x then 0 else S (idx x r) end.
Lemma idx_lt x l : In x l -> idx x l < length l.
Proof. induction l as [|y l IH]; intros H; [destruct H|]. cbn. destruct (Nat.eqb_spec y x); [lia|]. destruct H as [->|H]; [congruence|]. specialize (IH H). lia. Qed.
Lemma idx_app_r x l1 l2 : ~ In x l1 -> idx x (l1 ++ l2) = length l1 + idx x l2.
Proof. induction l1 as [|y l1 IH]; intros H; [reflexivity|]. cbn in *. destruct (Nat.eqb_spec y x); [exfalso; auto|]. rewrite IH by auto. lia. Qed.
Lemma ranked (n : nfa range) l : Permutation l (seq 0 (length n)) -> (forall l1 x l2, l = l1 ++ x :: l2 -> forall y, arrow n x y -> In y l2) ->
  (forall x, x < length n -> idx x l < length n) /\ forall x y, x < length n -> arrow n x y -> idx x l < idx y l.
Proof.
  intros P H. assert (El : length l = length n) by (rewrite (Permutation_length P); apply seq_length).
  assert (Hi : forall x, x < length n -> In x l) by (intros x Hx; apply (Permutation_in _ (Permutation_sym P)); apply in_seq; lia).
  assert (Hn : NoDup l) by (apply (Permutation_NoDup (Permutation_sym P)), seq_NoDup). split.
  - intros x Hx. rewrite <- El. apply idx_lt; auto.
  - intros x y Hx Ha. destruct (in_split _ _ (Hi x Hx)) as (l1 & l2 & E). assert (Hy := H l1 x l2 E y Ha). subst l.
    assert (N1 : ~ In x l1) by (apply NoDup_remove_2 in Hn; intros X; apply Hn, in_or_app; auto).
    apply in_split in Hy as (m1 & m2 & ->). assert (N2 : ~ In y ((l1 ++ [x]) ++ m1)).
    { rewrite <- app_assoc. cbn. intros X. replace (l1 ++ x :: m1 ++ y :: m2) with ((l1 ++ x :: m1) ++ y :: m2) in Hn by (now rewrite <- app_assoc).
      apply NoDup_remove_2 in Hn. apply Hn. apply in_or_app. now left. }
    rewrite (idx_app_r x l1 _ N1). cbn [idx]. rewrite Nat.eqb_refl.
    replace (l1 ++ x :: m1 ++ y :: m2) with (((l1 ++ [x]) ++ m1) ++ y :: m2) by (rewrite <- !app_assoc; reflexivity).
    rewrite (idx_app_r y _ _ N2), !app_length. cbn. lia.
Qed.

(** ** The runs of an automaton without cycles *)
Section Fun.
  Variable n : nfa range.
  Hypothesis Hok : ok n.
  Hypothesis Hlen : 1 <= length n.
  Hypothesis Hgr : groups_ok n.
  Variable tab : op_tables.
  Hypothesis Htab : tables n tab.
  Variable rk : nat -> nat.
  Hypothesis Hrk : forall x, x < length n -> rk x < length n.
  Hypothesis Hrank : forall x y, x < length n -> arrow n x y -> rk x < rk y.
  Hypothesis Hfrom : forall x, x < length n -> linked n 0 x.
  Notation syms := (op_syms tab).
  Definition nxt (s t : nat) : Prop := exists r ts, run_next syms s = Some (t, r, ts).
  Inductive nstar : nat -> nat -> Prop :=
  | ns_refl : forall s, nstar s s
  | ns_step : forall s t u, nxt s t -> nstar t u -> nstar s u.
  Definition nplus (s u : nat) : Prop := exists t, nxt s t /\ nstar t u.
  Lemma nstar_snoc s t u : nstar s t -> nxt t u -> nstar s u.
  Proof. induction 1; intros H'; econstructor; eauto. constructor. Qed.
  Lemma nstar_cases s t : nstar s t <-> s = t \/ nplus s t.
  Proof. split; [intros H; inversion H; subst; [now left|right; eexists; eauto]|intros [->|(u & H1 & H2)]; [constructor|econstructor; eauto]]. Qed.
  Lemma nstar_app s t u : nstar s t -> nstar t u -> nstar s u.
  Proof. induction 1; intros H'; [assumption|]. econstructor; eauto. Qed.
  Lemma nplus_pred s u : nplus s u -> exists p, nstar s p /\ nxt p u.
  Proof.
    intros (t & H1 & H2). revert s H1. induction H2 as [t|t v u H H2 IH]; intros s H1; [exists s; split; [constructor|assumption]|].
    destruct (IH t H) as (p & Hp & Hu). exists p. split; [econstructor; eauto|assumption].
  Qed.
  Lemma nxt_fun s t t' : nxt s t -> nxt s t' -> t = t'.
  Proof. intros (r & ts & H) (r' & ts' & H'). congruence. Qed.
  Lemma nxt_arrow s t : s < length n -> nxt s t -> arrow n s t /\ t < length n /\ entered n t.
  Proof using Hok Hlen Hgr Htab.
    intros Hs (r & ts & H). assert (X := run_next_spec n Hok Hlen Hgr tab Htab s t r ts Hs H). destruct X as (_ & _ & _ & H3 & _). split; [right; eauto|]. split; [|right; eauto].
    eapply wf_trans; [apply Hok|eassumption].
  Qed.
  Lemma nxt_rank s t : s < length n -> nxt s t -> rk s < rk t /\ t < length n.
  Proof using Hok Hlen Hgr Htab Hrank. clear Hrk Hfrom. intros Hs H. destruct (nxt_arrow s t Hs H) as (H1 & H2 & _). auto. Qed.
  Lemma nstar_rank s t : nstar s t -> s < length n -> rk s <= rk t /\ t < length n.
  Proof using Hok Hlen Hgr Htab Hrank. clear Hrk Hfrom. induction 1 as [s|s t u H1 H2 IH]; intros Hs; [lia|]. destruct (nxt_rank s t Hs H1) as [H3 H4]. specialize (IH H4). lia. Qed.
  Lemma nplus_rank s t : nplus s t -> s < length n -> rk s < rk t /\ t < length n.
  Proof using Hok Hlen Hgr Htab Hrank. clear Hrk Hfrom. intros (u & H1 & H2) Hs. destruct (nxt_rank s u Hs H1) as [H3 H4]. destruct (nstar_rank u t H2 H4). lia. Qed.

  Lemma walk_spec start fuel : forall s rs int, start < length n -> nstar start s -> length n - rk s <= fuel -> 0 < fuel ->
    exists rs' new e, run_walk fuel syms start s rs [] int = Ok (rs', [], int ++ new, e) /\ nstar s e /\ run_next syms e = None /\ forall x, In x new <-> nplus s x.
  Proof using Hok Hlen Hgr Htab Hrank Hrk.
    clear Hfrom.
    induction fuel as [|f IH]; intros s rs int Hst Hch Hf Hf0; [lia|]. cbn [run_walk]. destruct (nstar_rank _ _ Hch Hst) as [Hle Hs].
    destruct (run_next syms s) as [[[t r] ts]|] eqn:E.
    - assert (Hn : nxt s t) by (now exists r, ts). destruct (nxt_rank s t Hs Hn) as [Hr Ht]. assert (Hrt := Hrk t Ht).
      destruct (Nat.eqb_spec t start) as [->|_]; [lia|]. destruct (run_next_spec n Hok Hlen Hgr tab Htab s t r ts Hs E) as (-> & _). cbn [map app].
      destruct (IH t (rs ++ [r]) (int ++ [t]) Hst (nstar_snoc _ _ _ Hch Hn) ltac:(lia) ltac:(lia)) as (rs' & new & e & -> & H1 & H2 & H3).
      exists rs', (t :: new), e. rewrite <- app_assoc. split; [reflexivity|]. split; [econstructor; eauto|]. split; [assumption|]. intros x. cbn [In]. rewrite H3. split.
      + intros [<-|H]; [exists t; split; [assumption|constructor]|]. exists t. split; [assumption|]. apply nstar_cases. auto.
      + intros (t' & Hn' & H). rewrite (nxt_fun _ _ _ Hn Hn'). apply nstar_cases in H as [H|H]; auto.
    - exists rs, [], s. rewrite app_nil_r. split; [reflexivity|]. split; [constructor|]. split; [assumption|]. intros x. split; [intros []|]. intros (t & (r & ts & H) & _). congruence.
  Qed.
  Definition sound_at (x : nat) (i : inclusion) : Prop :=
    match i with
    | RStart r => nplus x (run_end r) /\ run_next syms (run_end r) = None /\ run_start syms x = true
    | RInternal => exists p, p < length n /\ nxt p x
    | REnd => run_next syms x = None
    | RNone => True
    end.
  Definition inner_at (x : nat) (i : inclusion) : Prop := match i with RInternal => run_next syms x <> None | _ => True end.
  Definition marked (out : list inclusion) (x : nat) : Prop := nth x out RNone <> RNone.
  Lemma upd_marked i v out x : v <> RNone -> marked out x -> marked (upd i v out) x.
  Proof. intros Hv H. unfold marked in *. rewrite nth_upd. destruct (_ && _); assumption. Qed.
  Lemma fold_internal int : forall out x, nth x (fold_left (fun out i => upd i RInternal out) int out) RNone = if existsb (Nat.eqb x) int && (x <? length out) then RInternal else nth x out RNone.
  Proof.
    induction int as [|i int IH]; intros out x; cbn [fold_left existsb]; [reflexivity|]. rewrite IH, upd_length, nth_upd. destruct (Nat.eqb_spec x i) as [->|Hne]; cbn [orb andb].
    - destruct (existsb _ int), (i <? length out); cbn; reflexivity.
    - reflexivity.
  Qed.
  Lemma fold_internal_length int out : length (fold_left (fun out i => upd i RInternal out) int out) = length out.
  Proof. revert out. induction int as [|i int IH]; intros out; cbn; [reflexivity|]. now rewrite IH, upd_length. Qed.

  Definition run_step (out : list inclusion) (start : nat) : res (list inclusion) :=
    if run_start syms start then
      do w <- run_walk (S (length syms)) syms start start [] [] [];
      let '(rs, tags, int, e) := w in
      if e =? start then Ok out
      else
        let out := upd start (RStart (mkRun rs (sort_le rtag_leb tags) e)) out in
        let out := fold_left (fun out i => upd i RInternal out) int out in
        Ok (upd e REnd out)
    else Ok out.
  Definition good_out (out : list inclusion) : Prop := length out = length n /\ forall x, x < length n -> sound_at x (nth x out RNone) /\ inner_at x (nth x out RNone).
  Lemma step_spec out start : start < length n -> good_out out -> exists out', run_step out start = Ok out' /\ good_out out' /\
    (forall x, marked out x -> marked out' x) /\ (run_start syms start = true -> forall x, nstar start x -> marked out' x).
  Proof using Hok Hlen Hgr Htab Hrank Hrk.
    clear Hfrom.
    intros Hst [Hl Hg]. unfold run_step. destruct (run_start syms start) eqn:Ers; [|exists out; do 2 (split; [auto; split; auto|]); split; [auto|discriminate]].
    destruct (walk_spec start (S (length syms)) start [] [] Hst (ns_refl start)) as (rs & new & e & -> & H1 & H2 & H3); [rewrite (t_syms_len _ _ Htab); lia|lia|].
    cbn [bind app]. assert (Hne : e <> start).
    { intros ->. unfold run_start in Ers. rewrite H2 in Ers. discriminate. }
    rewrite (proj2 (Nat.eqb_neq e start) Hne). eexists. split; [reflexivity|].
    assert (Hp : nplus start e) by (apply nstar_cases in H1 as [H1|H1]; [congruence|assumption]).
    assert (He : e < length n) by (now apply (nstar_rank start e)).
    set (out1 := upd start _ out). assert (L1 : length out1 = length n) by (unfold out1; now rewrite upd_length).
    set (out2 := fold_left _ new out1). assert (L2 : length out2 = length n) by (unfold out2; now rewrite fold_internal_length).
    assert (V : forall x, x < length n -> nth x (upd e REnd out2) RNone = if x =? e then REnd else if existsb (Nat.eqb x) new then RInternal else
      if x =? start then RStart (mkRun rs (sort_le rtag_leb []) e) else nth x out RNone).
    { intros x Hx. rewrite nth_upd, L2. rewrite (proj2 (Nat.ltb_lt e (length n)) He). destruct (Nat.eqb_spec x e) as [->|N1]; cbn [andb]; [reflexivity|].
      unfold out2. rewrite fold_internal, L1. rewrite (proj2 (Nat.ltb_lt x (length n)) Hx). rewrite andb_true_r. destruct (existsb _ new); [reflexivity|].
      unfold out1. rewrite nth_upd, Hl. rewrite (proj2 (Nat.ltb_lt start (length n)) Hst), andb_true_r. reflexivity. }
    split; [split; [now rewrite upd_length|]|split].
    - intros x Hx. rewrite (V x Hx). destruct (Nat.eqb_spec x e) as [->|N1]; [split; [exact H2|exact I]|].
      destruct (existsb _ new) eqn:Ex.
      + apply existsb_exists in Ex as (y & Hy & Ey). apply Nat.eqb_eq in Ey. subst y. apply H3 in Hy. split.
        * apply nplus_pred in Hy as (p & Hp1 & Hp2). exists p. split; [now apply (nstar_rank start p)|assumption].
        * cbn. intros X. apply N1. assert (D : forall a b c, nstar a b -> nstar a c -> run_next syms b = None -> run_next syms c = None -> b = c).
          { clear. induction 1 as [a|a a' b H1 H2 IH]; intros Hc Hb Hcn; inversion Hc; subst; auto.
            - destruct H as (r & ts & H). congruence.
            - destruct H1 as (r & ts & H). congruence.
            - rewrite <- (nxt_fun _ _ _ H1 H) in H0. now apply IH. }
          apply (D start); auto. apply nstar_cases. auto.
      + destruct (Nat.eqb_spec x start) as [->|N2]; [|apply Hg; assumption]. split; [|exact I]. cbn. auto.
    - intros x Hm. apply upd_marked; [discriminate|]. unfold marked, out2. rewrite fold_internal. destruct (_ && _); [discriminate|]. apply upd_marked; [discriminate|assumption].
    - intros _ x Hx. unfold marked. assert (Hxn : x < length n) by (now apply (nstar_rank start x)). rewrite (V x Hxn). destruct (x =? e); [discriminate|]. destruct (existsb _ new) eqn:Ex; [discriminate|].
      apply nstar_cases in Hx as [<-|Hx]; [rewrite Nat.eqb_refl; discriminate|]. apply H3 in Hx. assert (X : existsb (Nat.eqb x) new = true) by (apply existsb_exists; exists x; split; [assumption|apply Nat.eqb_refl]). congruence.
  Qed.
  Lemma steps_spec l : forall out, Forall (fun s => s < length n) l -> good_out out -> exists out', foldM run_step l out = Ok out' /\ good_out out' /\
    (forall x, marked out x -> marked out' x) /\ forall st, In st l -> run_start syms st = true -> forall x, nstar st x -> marked out' x.
  Proof using Hok Hlen Hgr Htab Hrank Hrk.
    clear Hfrom.
    induction l as [|st l IH]; intros out Hl Hg; cbn [foldM]; [exists out; split; [reflexivity|]; split; [assumption|]; split; [auto|intros st []]|].
    inversion Hl as [|? ? Hst Hl']; subst. destruct (step_spec out st Hst Hg) as (o1 & -> & G1 & M1 & R1). cbn [bind]. destruct (IH o1 Hl' G1) as (o2 & -> & G2 & M2 & R2).
    exists o2. split; [reflexivity|]. split; [assumption|]. split; [auto|]. intros st' [<-|Hi] Hr x Hx; [apply M2, R1; assumption|eapply R2; eauto].
  Qed.
  (** Every state with a successor in a run is on the run of some start. *)
  Lemma on_run x : x < length n -> run_next syms x <> None -> exists st, st < length n /\ run_start syms st = true /\ nstar st x.
  Proof using Hok Hlen Hgr Htab Hrank.
    clear Hrk Hfrom.
    remember (rk x) as k eqn:Ek. revert x Ek. induction k as [k IH] using (well_founded_induction lt_wf). intros x -> Hx Hn.
    destruct (run_start syms x) eqn:E; [exists x; repeat split; auto; constructor|]. unfold run_start in E. apply andb_false_iff in E as [E|E].
    - destruct (run_next syms x); [discriminate|congruence].
    - apply negb_false_iff, existsb_exists in E as (t & Ht & E). apply in_seq in Ht. rewrite (t_syms_len _ _ Htab) in Ht.
      destruct (run_next syms t) as [[[y r] ts]|] eqn:Et; [|discriminate]. apply Nat.eqb_eq in E. subst y. assert (Hnx : nxt t x) by (now exists r, ts).
      destruct (nxt_rank t x ltac:(lia) Hnx) as [Hr _]. destruct (IH (rk t) Hr t eq_refl ltac:(lia) ltac:(congruence)) as (st & H1 & H2 & H3). exists st. repeat split; auto. eapply nstar_snoc; eauto.
  Qed.
  Theorem runs_spec : exists runs, compute_runs syms = Ok runs /\ good_out runs /\ forall x, x < length n -> run_next syms x <> None -> marked runs x.
  Proof using Hok Hlen Hgr Htab Hrank Hrk.
    clear Hfrom.
    assert (E : compute_runs syms = foldM run_step (seq 0 (length syms)) (repeat RNone (length syms))) by reflexivity. rewrite E, (t_syms_len _ _ Htab).
    assert (R : forall x k, nth x (repeat RNone k) RNone = RNone) by (clear; intros x k; revert x; induction k; intros [|x]; cbn; auto).
    destruct (steps_spec (seq 0 (length n)) (repeat RNone (length n))) as (runs & H1 & H2 & _ & H3).
    - apply Forall_forall. intros s Hs. apply in_seq in Hs. lia.
    - split; [apply repeat_length|]. intros x Hx. rewrite R. split; exact I.
    - exists runs. split; [assumption|]. split; [assumption|]. intros x Hx Hn. destruct (on_run x Hx Hn) as (st & S1 & S2 & S3). apply (H3 st); auto. apply in_seq. lia.
  Qed.
  (** A state is entered by at most one state of a run, so different runs do not meet. *)
  Lemma nxt_inj p q x : p < length n -> q < length n -> nxt p x -> nxt q x -> p = q.
  Proof using Htab.
    clear Hrank Hrk Hfrom. intros Hp Hq (r & ts & Ep) (r' & ts' & Eq). destruct (Nat.eq_dec p q) as [E|Hne]; [exact E|exfalso].
    unfold run_next in Ep, Eq. destruct (nth p syms []) as [|[a tu] [|]] eqn:Rp; try discriminate. destruct (nth q syms []) as [|[a' tu'] [|]] eqn:Rq; try discriminate.
    destruct (_ || _) eqn:Cp in Ep; [discriminate|]. destruct (tu_end tu' || _ || _) in Eq; [discriminate|]. injection Ep as Ex _ _. injection Eq as Ex' _ _.
    apply orb_false_iff in Cp as [_ Cp]. apply negb_false_iff, Nat.eqb_eq in Cp.
    assert (Y : length (filter (fun x : strans => tu_state (snd x) =? tu_state tu) (nth p syms [])) + length (filter (fun x : strans => tu_state (snd x) =? tu_state tu) (nth q syms [])) <= op_incoming syms (tu_state tu))
      by exact (filter_concat_two (fun x : strans => tu_state (snd x) =? tu_state tu) syms p q Hne).
    assert (Y1 := filter_pos (fun x : strans => tu_state (snd x) =? tu_state tu) (nth p syms []) (a, tu) ltac:(rewrite Rp; now left) ltac:(cbn; apply Nat.eqb_refl)).
    assert (Y2 := filter_pos (fun x : strans => tu_state (snd x) =? tu_state tu) (nth q syms []) (a', tu') ltac:(rewrite Rq; now left) ltac:(cbn; apply Nat.eqb_eq; congruence)).
    rewrite Cp in Y. clear - Y Y1 Y2. lia.
  Qed.
  Lemma start_no_pred s p : run_start syms s = true -> p < length n -> ~ nxt p s.
  Proof using Htab.
    intros H Hp (r & ts & E). unfold run_start in H. apply andb_prop in H as [_ H]. apply negb_true_iff in H. rewrite <- (t_syms_len _ _ Htab) in Hp.
    assert (X : existsb (fun t => match run_next syms t with Some (x, _, _) => x =? s | None => false end) (seq 0 (length syms)) = true); [|congruence].
    apply existsb_exists. exists p. split; [apply in_seq; split; [apply Nat.le_0_l|exact Hp]|]. rewrite E. apply Nat.eqb_refl.
  Qed.
  Lemma nstar_meet x : forall a b, a < length n -> b < length n -> nstar a x -> nstar b x -> nstar a b \/ nstar b a.
  Proof using Hok Hlen Hgr Htab Hrank.
    clear Hrk Hfrom. intros a b Ha Hb H. revert b Hb. induction H as [a|a c x H1 H2 IH]; intros b Hb H; [now right|]. destruct (nxt_rank a c Ha H1) as [_ Hc].
    destruct (IH Hc b Hb H) as [G|G]; [left; econstructor; eauto|]. apply nstar_cases in G as [->|G]; [left; econstructor; [exact H1|constructor]|].
    apply nplus_pred in G as (p & G1 & G2). destruct (nstar_rank b p G1 Hb) as [_ Hp]. rewrite (nxt_inj a p c Ha Hp H1 G2). now right.
  Qed.
  Lemma starts_apart a b x : a < length n -> b < length n -> run_start syms a = true -> run_start syms b = true -> nplus a x -> nplus b x -> a = b.
  Proof using Hok Hlen Hgr Htab Hrank.
    clear Hrk Hfrom. intros Ha Hb Sa Sb Na Nb.
    assert (D : forall a b, a < length n -> b < length n -> run_start syms b = true -> nstar a b -> a = b).
    { intros a0 b0 H1 H2 H3 H4. apply nstar_cases in H4 as [H4|H4]; [exact H4|]. exfalso. apply nplus_pred in H4 as (p & G1 & G2). destruct (nstar_rank _ _ G1 H1) as [_ Hp]. now apply (start_no_pred b0 p) in G2. }
    destruct (nstar_meet x a b Ha Hb) as [H|H]; [apply nstar_cases; now right|apply nstar_cases; now right|now apply D|symmetry; now apply D].
  Qed.
  Theorem fun_compiles_spec : exists runs, compute_runs syms = Ok runs /\
    ((forall s, s < length n -> entered n s -> length (nth s (op_accs tab) []) <= 1) -> fun_compiles n tab runs = true).
  Proof using Hok Hlen Hgr Htab Hrank Hrk Hfrom.
    destruct runs_spec as (runs & H1 & [H2 H3] & H4). exists runs. split; [assumption|]. intros Hacc. unfold fun_compiles.
    assert (Em : forall x, x < length n -> entered n x -> nth x runs RNone <> RInternal -> fun_emitted (op_excluded n) runs x = true).
    { intros x Hx He Hi. unfold fun_emitted. rewrite (op_excluded_spec n Hlen x He Hx). cbn [negb andb]. destruct (nth x runs RNone); congruence. }
    apply andb_true_iff. split.
    - apply Em; [lia|now left|]. intros X. destruct (H3 0 ltac:(lia)) as [S _]. rewrite X in S. destruct S as (p & Hp & Hn). destruct (nxt_rank p 0 Hp Hn) as [Hr _].
      assert (Lk := Hfrom p Hp). assert (Y : forall a b, linked n a b -> a < length n -> rk a <= rk b).
      { clear - Hok Hrank. induction 1 as [s|s t u e H Hl IH|s t u a H Hl IH]; intros Hs; [lia| |].
        - assert (t < length n) by (eapply wf_eps; [apply Hok|eassumption]). assert (rk s < rk t) by (apply Hrank; [assumption|left; eauto]). specialize (IH ltac:(assumption)). lia.
        - assert (t < length n) by (eapply wf_trans; [apply Hok|eassumption]). assert (rk s < rk t) by (apply Hrank; [assumption|right; eauto]). specialize (IH ltac:(assumption)). lia. }
      specialize (Y 0 p Lk ltac:(lia)). lia.
    - apply forallb_forall. intros s Hs. apply in_seq in Hs. assert (Hsn : s < length n) by lia. destruct (nth s (op_excluded n) true) eqn:Ex; [reflexivity|].
      apply op_excluded_entered in Ex. destruct (H3 s Hsn) as [S1 S2].
      assert (Arms : nth s runs RNone <> RInternal -> (forall r, nth s runs RNone <> RStart r) ->
        (length (nth s (op_accs tab) []) <=? 1) && forallb (fun x => fun_emitted (op_excluded n) runs (tu_state (snd x))) (nth s syms []) = true).
      { intros N1 N2. apply andb_true_iff. split; [apply Nat.leb_le; auto|]. apply forallb_forall. intros [r tu] Hin. cbn [snd].
        destruct (row_entered n Hok Hlen Hgr tab Htab s r tu Hsn Hin) as [E1 E2]. apply Em; auto. intros X. destruct (H3 _ E2) as [S3 _]. rewrite X in S3. destruct S3 as (p & Hp & (r' & ts & Hn)).
        assert (Hrow : nth p syms [] = nth s syms [] /\ p = s).
        { unfold run_next in Hn. destruct (nth p syms []) as [|[r'' tu'] [|]] eqn:Ep; try discriminate. destruct (_ || _) eqn:Ec; [discriminate|]. injection Hn as Et _ _.
          apply orb_false_iff in Ec as [_ Einc]. apply negb_false_iff, Nat.eqb_eq in Einc. destruct (Nat.eq_dec p s) as [->|Hne]; [auto|]. exfalso.
          assert (Y : length (filter (fun x : strans => tu_state (snd x) =? tu_state tu) (nth p syms [])) + length (filter (fun x : strans => tu_state (snd x) =? tu_state tu) (nth s syms [])) <= op_incoming syms (tu_state tu))
            by exact (filter_concat_two (fun x : strans => tu_state (snd x) =? tu_state tu) syms p s Hne).
          assert (Y1 := filter_pos (fun x : strans => tu_state (snd x) =? tu_state tu) (nth p syms []) (r'', tu') ltac:(rewrite Ep; now left) ltac:(cbn; apply Nat.eqb_eq; congruence)).
          assert (Y2 := filter_pos (fun x : strans => tu_state (snd x) =? tu_state tu) _ _ Hin (Nat.eqb_refl _)). rewrite <- Et, Einc in Y. rewrite <- Et in Y1, Y2. lia. }
        destruct Hrow as [_ ->]. assert (Mk : marked runs s) by (apply H4; congruence). unfold marked in Mk. destruct (nth s runs RNone) as [r0| | |] eqn:Er; cbn in S1; congruence. }
      destruct (nth s runs RNone) as [r| | |] eqn:Er.
      + destruct S1 as (S1 & S1' & _). assert (Hp := S1). apply nplus_pred in Hp as (p & Hp1 & Hp2). destruct (nstar_rank s p Hp1 Hsn) as [_ Hpn]. destruct (nxt_arrow p _ Hpn Hp2) as (_ & E2 & E3).
        apply Em; auto. intros X. destruct (H3 _ E2) as [_ S3]. rewrite X in S3. now apply S3.
      + reflexivity.
      + apply Arms; congruence.
      + apply Arms; congruence.
  Qed.
End Fun.
