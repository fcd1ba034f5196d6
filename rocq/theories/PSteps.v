(** The number of iterations of the fixed-offset analysis (C66). *)
From Coq Require Import ZifyBool ZifyNat ZifyN Permutation.
From Verif Require Import SpecSteps PFixedAll PFixed PAll PStrip.
Open Scope nat_scope.
Open Scope list_scope.
Set Default Proof Using "Type".

(** ** Loops in general *)
Lemma run_stop {S R} (step : S -> S + R) k r : run_for k step (inr r) = inr r.
Proof. now destruct k. Qed.
Lemma run_add {S R} (step : S -> S + R) a b x : run_for (a + b) step x = run_for b step (run_for a step x).
Proof. revert x. induction a as [|a IH]; intros [s|r]; cbn [Nat.add run_for]; auto; now rewrite ?run_stop. Qed.
Lemma run_running {S R} (step : S -> S + R) k s s' : run_for k step (inl s) = inl s' -> forall j, j <= k -> exists t, run_for j step (inl s) = inl t.
Proof.
  intros H j Hj. replace k with (j + (k - j)) in H by lia. rewrite run_add in H. destruct (run_for j step (inl s)) as [t|r]; [eauto|]. rewrite run_stop in H. discriminate.
Qed.
Lemma takes_add {S R} (step : S -> S + R) a s s' k r : run_for a step (inl s) = inl s' -> takes step s' k r -> takes step s (a + k) r.
Proof.
  intros H [H1 H2]. split; [rewrite run_add, H; exact H1|]. intros j Hj. destruct (Nat.le_gt_cases j a) as [Hja|Hja]; [eapply run_running; eauto|].
  replace j with (a + (j - a)) by lia. rewrite run_add, H. apply H2. lia.
Qed.
Lemma takes_one {S R} (step : S -> S + R) s r : step s = inr r -> takes step s 1 r.
Proof. intros H. split; [cbn; now rewrite H|]. intros j Hj. replace j with 0 by lia. cbn. eauto. Qed.
Lemma takes_once {S R} (step : S -> S + R) s k r k' r' : takes step s k r -> takes step s k' r' -> k = k' /\ r = r'.
Proof.
  intros [A1 A2] [B1 B2]. assert (k = k').
  { destruct (Nat.lt_trichotomy k k') as [H|[H|H]]; [|assumption|]; [apply B2 in H as (s' & H)|apply A2 in H as (s' & H)]; congruence. }
  subst k'. split; congruence.
Qed.

(** ** The loop *)
Fixpoint sum (l : list nat) : nat := match l with [] => 0 | x :: l' => x + sum l' end.
Lemma sum_app l m : sum (l ++ m) = sum l + sum m.
Proof. induction l; cbn; lia. Qed.
Lemma sum_rev l : sum (rev l) = sum l.
Proof. induction l as [|x l IH]; [reflexivity|]. cbn [rev]. rewrite sum_app, IH. cbn. lia. Qed.
(** The number of ways, complete or not, through the automaton from [s]. *)
Fixpoint visits (fuel : nat) (n : nfa range) (s : nat) : nat :=
  match fuel with
  | O => 0
  | S f => 1 + sum (map (fun t => visits f n (fst t)) (trans (get n s))) + sum (map (fun e => visits f n (fst e)) (eps (get n s)))
  end.
Definition agree (fin : option bounds) (ps : list bounds) : Prop :=
  forall x y, (fin = Some x \/ In x ps) -> (fin = Some y \/ In y ps) -> x = y.
Definition merged (fin : option bounds) (ps : list bounds) : option bounds := match fin with Some x => Some x | None => hd_error ps end.
Lemma merged_in fin ps x : merged fin ps = Some x -> fin = Some x \/ In x ps.
Proof. destruct fin; cbn; [auto|]. destruct ps; cbn; [discriminate|]. intros E. injection E as ->. auto. Qed.
Lemma merged_app fin p q : merged (merged fin p) q = merged fin (p ++ q).
Proof. destruct fin; [reflexivity|]. destruct p; reflexivity. Qed.
Lemma agree_app fin p q : agree fin (p ++ q) <-> agree fin p /\ agree (merged fin p) q.
Proof.
  split.
  - intros H. split.
    + intros x y Hx Hy. apply H; rewrite in_app_iff; tauto.
    + intros x y Hx Hy. apply H; rewrite in_app_iff; [destruct Hx as [Hx|Hx]|destruct Hy as [Hy|Hy]]; try tauto; [apply merged_in in Hx|apply merged_in in Hy]; tauto.
  - intros [H1 H2].
    assert (G : forall x, fin = Some x \/ In x p -> merged fin p = Some x).
    { intros x Hx. destruct (merged fin p) as [y|] eqn:E.
      - f_equal. apply H1; [|assumption]. now apply merged_in.
      - destruct fin; [discriminate|]. destruct p; [|discriminate]. destruct Hx as [Hx|[]]. discriminate. }
    intros x y Hx Hy. rewrite in_app_iff in Hx, Hy. apply H2.
    + destruct Hx as [Hx|[Hx|Hx]]; auto.
    + destruct Hy as [Hy|[Hy|Hy]]; auto.
Qed.
Lemma agree_perm fin p q : Permutation p q -> agree fin p -> agree fin q.
Proof. intros P H x y Hx Hy. apply H; [destruct Hx|destruct Hy]; auto; right; eapply Permutation_in; try eassumption; now apply Permutation_sym. Qed.
Lemma merged_perm fin p q : Permutation p q -> agree fin p -> merged fin q = merged fin p.
Proof.
  intros P H. destruct fin; [reflexivity|]. cbn. destruct p as [|x p]; [apply Permutation_nil in P as ->; reflexivity|].
  destruct q as [|y q]; [apply Permutation_sym, Permutation_nil in P; discriminate|]. cbn. f_equal. apply H; right; [|now left]. eapply Permutation_in; [apply Permutation_sym; exact P|now left].
Qed.
Lemma agree_dec fin ps : {agree fin ps} + {~ agree fin ps}.
Proof.
  set (l := match fin with Some x => x :: ps | None => ps end).
  assert (In_l : forall x, In x l <-> fin = Some x \/ In x ps).
  { intros x. unfold l. destruct fin as [z|]; cbn.
    - split; [intros [->|H]; auto|]. intros [H|H]; [injection H as ->|]; auto.
    - split; [auto|]. intros [H|H]; [discriminate|assumption]. }
  destruct l as [|x0 l'] eqn:El.
  - left. intros x y Hx. apply In_l in Hx. destruct Hx.
  - destruct (forallb (bounds_eqb x0) l') eqn:Ef.
    + left. rewrite forallb_forall in Ef. assert (A : forall x, In x (x0 :: l') -> x = x0) by (intros x [->|Hx]; [reflexivity|]; apply Ef, bounds_eqb_iff in Hx; congruence).
      intros x y Hx Hy. apply In_l in Hx, Hy. rewrite (A x Hx), (A y Hy). reflexivity.
    + right. intros H. enough (forallb (bounds_eqb x0) l' = true) by congruence. apply forallb_forall. intros x Hx. apply bounds_eqb_iff. apply H; apply In_l; [now left|now right].
Qed.

Section Loop.
  Variable n : nfa range.
  Notation run k x := (run_for k (fo_iter n) (inl x)).
  (** Working off one entry of the stack which is worth [V] iterations and leads to the offsets [ps]. *)
  Definition worked (V : nat) (c : fo_conf) (st : list (nat * nat * bounds)) (fin : option bounds) (ps : list bounds) : Prop :=
    (agree fin ps /\ run V c = inl (st, merged fin ps)) \/ (~ agree fin ps /\ exists k, k <= V /\ takes (fo_iter n) c k None).
  Lemma worked_app V W c st st' fin p q : worked V c st fin p -> worked W (st, merged fin p) st' (merged fin p) q -> worked (V + W) c st' fin (p ++ q).
  Proof.
    intros [[A1 A2]|[A1 (k & A2 & A3)]] HB; [destruct HB as [[B1 B2]|[B1 (k & B2 & B3)]]|].
    - left. split; [now apply agree_app|]. rewrite run_add, A2. rewrite <- merged_app. exact B2.
    - right. split; [intros H; apply agree_app in H as [_ H]; contradiction|]. exists (V + k). split; [lia|]. eapply takes_add; eauto.
    - right. split; [intros H; apply agree_app in H as [H _]; contradiction|]. exists k. split; [lia|assumption].
  Qed.
  Lemma worked_nil st fin : worked 0 (st, fin) st fin [].
  Proof. left. split; [|destruct fin; reflexivity]. intros x y [Hx|[]] [Hy|[]]. congruence. Qed.
  Lemma worked_perm V c st fin p q : Permutation p q -> worked V c st fin p -> worked V c st fin q.
  Proof.
    intros P [[A1 A2]|[A1 A2]]; [left|right].
    - split; [eapply agree_perm; eauto|]. rewrite A2. rewrite (merged_perm fin p q P A1). reflexivity.
    - split; [|assumption]. intros H. apply A1. eapply agree_perm; [apply Permutation_sym|]; eauto.
  Qed.
  Lemma worked_list (vs : list nat) (items : list (nat * nat * bounds)) (pss : list (list bounds)) :
    length vs = length items -> length pss = length items ->
    (forall i v it ps, nth_error vs i = Some v -> nth_error items i = Some it -> nth_error pss i = Some ps -> forall st fin, worked v (it :: st, fin) st fin ps) ->
    forall st fin, worked (sum vs) (items ++ st, fin) st fin (concat pss).
  Proof.
    revert vs pss. induction items as [|it items IH]; intros [|v vs] [|ps pss] L1 L2 H st fin; try discriminate; [apply worked_nil|].
    cbn [sum concat app]. eapply worked_app; [apply (H 0 v it ps); reflexivity|]. apply IH; [now injection L1|now injection L2|].
    intros i v' it' ps' E1 E2 E3. apply (H (S i)); assumption.
  Qed.
  Lemma mapM_length' {A B} (g : A -> res B) l ys : mapM g l = Ok ys -> length ys = length l.
  Proof. revert ys. induction l as [|x l IH]; intros ys H; cbn in H; [injection H as <-; reflexivity|]. apply bind_ok in H as (y & _ & H). apply bind_ok in H as (zs & E & H). injection H as <-. cbn. f_equal. now apply IH. Qed.
  Lemma mapM_at {A B} (g : A -> res B) l ys i x y : mapM g l = Ok ys -> nth_error l i = Some x -> nth_error ys i = Some y -> g x = Ok y.
  Proof.
    revert ys i. induction l as [|a l IH]; intros ys i H Hx Hy; [now destruct i|]. cbn in H. apply bind_ok in H as (b & Eb & H). apply bind_ok in H as (zs & E & H). injection H as <-.
    destruct i as [|i]; cbn in Hx, Hy; [congruence|]. eapply IH; eauto.
  Qed.
  Lemma nth_error_rev {A} (l : list A) i x : nth_error (rev l) i = Some x -> i < length l /\ nth_error l (length l - S i) = Some x.
  Proof.
    intros H. assert (Hi : i < length l) by (rewrite <- rev_length; apply nth_error_Some; congruence). split; [assumption|].
    apply nth_error_nth with (d := x) in H. rewrite rev_nth in H by assumption. rewrite (nth_error_nth' l x) by lia. congruence.
  Qed.
  Lemma concat_rev_perm {A} (l : list (list A)) : Permutation (concat (rev l)) (concat l).
  Proof. induction l as [|x l IH]; [constructor|]. cbn [rev concat]. rewrite concat_app. cbn. rewrite app_nil_r. eapply Permutation_trans; [apply Permutation_app_comm|]. now apply Permutation_app_head. Qed.
  Lemma worked_entry f : forall s off b ps, fo_paths f n s off b = Ok ps -> forall st fin, worked (visits f n s) ((s, off, b) :: st, fin) st fin ps.
  Proof.
    induction f as [|f IH]; intros s off b ps H st fin; [discriminate|]. cbn [fo_paths] in H.
    apply bind_ok in H as (ts & Et & H). apply bind_ok in H as (es & Ee & H). injection H as <-.
    set (here := if s + 1 =? length n then [b] else []).
    set (tri := map (fun t => (fst t, off + 1, b)) (trans (get n s))). set (epi := map (fun e => (fst e, off, fo_eps off (snd e) b)) (eps (get n s))).
    set (tv := map (fun t => visits f n (fst t)) (trans (get n s))). set (ev := map (fun e => visits f n (fst e)) (eps (get n s))).
    assert (Lt : length ts = length tri) by (unfold tri; rewrite map_length; eapply mapM_length'; eauto).
    assert (Le : length es = length epi) by (unfold epi; rewrite map_length; eapply mapM_length'; eauto).
    assert (Ltv : length tv = length tri) by (unfold tv, tri; now rewrite !map_length).
    assert (Lev : length ev = length epi) by (unfold ev, epi; now rewrite !map_length).
    assert (First : worked 1 ((s, off, b) :: st, fin) (rev (tri ++ epi) ++ st) fin here).
    { unfold worked. cbn [run_for fo_iter]. fold tri epi. unfold here. destruct (s + 1 =? length n) eqn:Es.
      - destruct fin as [x|].
        + destruct (bounds_eqb x b) eqn:E.
          * apply bounds_eqb_iff in E as ->. left. split; [|reflexivity]. intros x y [Hx|[Hx|[]]] [Hy|[Hy|[]]]; congruence.
          * right. split.
            -- intros H. assert (x = b) by (apply H; [now left|right; now left]). apply bounds_eqb_iff in H0. congruence.
            -- exists 1. split; [lia|]. apply takes_one. cbn [fo_iter]. rewrite Es, E. reflexivity.
        + left. split; [|reflexivity]. intros x y [Hx|[Hx|[]]] [Hy|[Hy|[]]]; congruence.
      - left. split; [|now destruct fin]. intros x y [Hx|[]] [Hy|[]]. congruence. }
    assert (Rest : forall fin', worked (sum (tv ++ ev)) (rev (tri ++ epi) ++ st, fin') st fin' (concat ts ++ concat es)).
    { intros fin'. rewrite <- sum_rev, <- concat_app. eapply worked_perm; [apply concat_rev_perm|]. apply worked_list; [rewrite !rev_length, !app_length; lia|rewrite !rev_length, !app_length; lia|].
      intros i v it ps Ev Ei Ep st' fin''. apply nth_error_rev in Ev as [Hv Ev], Ei as [_ Ei], Ep as [_ Ep].
      replace (length (tv ++ ev)) with (length (tri ++ epi)) in Ev by (rewrite !app_length; lia). replace (length (ts ++ es)) with (length (tri ++ epi)) in Ep by (rewrite !app_length; lia).
      set (j := length (tri ++ epi) - S i) in *. clearbody j.
      destruct (Nat.lt_ge_cases j (length tri)) as [Hj|Hj].
      - rewrite nth_error_app1 in Ev, Ei, Ep by lia. unfold tv in Ev. unfold tri in Ei. rewrite nth_error_map in Ev, Ei. destruct (nth_error (trans (get n s)) j) as [[t r]|] eqn:Ej; [|discriminate].
        cbn in Ev, Ei. injection Ev as <-. injection Ei as <-. apply IH. exact (mapM_at _ _ _ _ _ _ Et Ej Ep).
      - rewrite nth_error_app2 in Ev, Ei, Ep by lia. rewrite Ltv in Ev. rewrite Lt in Ep. unfold ev in Ev. unfold epi in Ei. rewrite nth_error_map in Ev, Ei. destruct (nth_error (eps (get n s)) (j - length tri)) as [[t r]|] eqn:Ej; [|discriminate].
        cbn in Ev, Ei. injection Ev as <-. injection Ei as <-. apply IH. exact (mapM_at _ _ _ _ _ _ Ee Ej Ep). }
    assert (X := worked_app _ _ _ _ _ _ _ _ First (Rest _)). cbn [visits]. rewrite sum_app in X. exact X.
  Qed.
End Loop.

(** ** The loop computes what [fixed_offsets] says *)
Lemma fixed_loop n l : wf n -> 1 <= length n -> groups_ok n -> topological_ordering n = Ok (Some l) ->
  exists k r ps, takes (fo_iter n) (fo_init n) k r /\ fixed_offsets n = Ok r /\ k <= S (visits (length n) n 0) /\ (r <> None -> k = S (visits (length n) n 0)) /\
    fo_paths (length n) n 0 0 (no_bounds (num_capture_groups n)) = Ok ps.
Proof.
  intros Hw Hl Hg Et. destruct (topological_spec n (proj1 (closed_wf n) Hw) Hl) as (o & Eo & Ho). rewrite Et in Eo. injection Eo as <-. destruct Ho as (P & Ht & _).
  assert (H0 : In 0 l) by (apply (Permutation_in _ (Permutation_sym P)); apply in_seq; lia).
  apply in_split in H0 as (l1 & l2 & El). assert (Hlen := Permutation_length P). rewrite seq_length, El, app_length in Hlen. cbn [length] in Hlen.
  destruct (fo_paths_ends n l Ht (length n) l1 0 l2 0 (no_bounds (num_capture_groups n)) El) as (ps & Eps); [lia|].
  unfold fixed_offsets. rewrite Et. cbn [bind]. rewrite (fo_tags_ok_spec n Hg). cbn [guard bind]. rewrite Eps. cbn [bind].
  destruct (worked_entry n _ _ _ _ _ Eps [] None) as [[A1 A2]|[A1 (k & A2 & A3)]].
  - exists (visits (length n) n 0 + 1), (merged None ps), ps. split; [|split; [|split; [lia|split; [lia|reflexivity]]]].
    + eapply takes_add; [exact A2|]. now apply takes_one.
    + destruct ps as [|p ps]; [reflexivity|]. cbn. replace (forallb (bounds_eqb p) ps) with true; [reflexivity|]. symmetry. apply forallb_forall. intros x Hx. apply bounds_eqb_iff. apply A1; right; [now left|now right].
  - exists k, None, ps. split; [assumption|]. split; [|split; [lia|split; [congruence|reflexivity]]].
    destruct ps as [|p ps]; [exfalso; apply A1; intros x y [Hx|[]]; discriminate|]. destruct (forallb (bounds_eqb p) ps) eqn:Ef; [|reflexivity]. exfalso. apply A1. rewrite forallb_forall in Ef.
    assert (G : forall x, In x (p :: ps) -> x = p) by (intros x [->|Hx]; [reflexivity|]; apply Ef, bounds_eqb_iff in Hx; congruence).
    intros x y [Hx|Hx] [Hy|Hy]; try discriminate. rewrite (G x Hx), (G y Hy). reflexivity.
Qed.
(** An automaton whose states have at most [d] edges out each. *)
Fixpoint geometric (d f : nat) : nat := match f with O => 0 | S f' => 1 + d * geometric d f' end.
Lemma sum_le {A} (g : A -> nat) b l : (forall x, In x l -> g x <= b) -> sum (map g l) <= length l * b.
Proof. induction l as [|x l IH]; intros H; [cbn; lia|]. cbn [map sum length]. assert (g x <= b) by (apply H; now left). assert (sum (map g l) <= length l * b) by (apply IH; intros; apply H; now right). lia. Qed.
Lemma visits_le n d : (forall s, length (trans (get n s)) + length (eps (get n s)) <= d) -> forall f s, visits f n s <= geometric d f.
Proof.
  intros H. induction f as [|f IH]; intros s; [reflexivity|]. cbn [visits geometric].
  assert (A := sum_le (fun t : nat * range => visits f n (fst t)) (geometric d f) (trans (get n s)) ltac:(intros; apply IH)).
  assert (B := sum_le (fun t : nat * epsk => visits f n (fst t)) (geometric d f) (eps (get n s)) ltac:(intros; apply IH)).
  specialize (H s). assert ((length (trans (get n s)) + length (eps (get n s))) * geometric d f <= d * geometric d f) by (now apply Nat.mul_le_mono_r). lia.
Qed.

(** ** A way through is an interval of texts *)
Definition edge := (nat * range + nat * epsk)%type.
Fixpoint routes (fuel : nat) (n : nfa range) (s : nat) : list (list edge) :=
  match fuel with
  | O => []
  | S f => (if s + 1 =? length n then [[]] else [])
           ++ flat_map (fun t => map (cons (Datatypes.inl t)) (routes f n (fst t))) (trans (get n s))
           ++ flat_map (fun e => map (cons (Datatypes.inr e)) (routes f n (fst e))) (eps (get n s))
  end.
Inductive follows : list edge -> word -> Prop :=
| fl_nil : follows [] []
| fl_sym : forall t a c r w, byte_check a c = true -> follows r w -> follows (Datatypes.inl (t, a) :: r) (IC c :: w)
| fl_eps : forall t k r w, follows r w -> follows (Datatypes.inr (t, k) :: r) (mark k ++ w).
Lemma sum_in {A} (g : A -> nat) x l : In x l -> g x <= sum (map g l).
Proof. induction l as [|y l IH]; intros []; cbn [map sum]; [subst; lia|]. specialize (IH H). lia. Qed.
Lemma flat_length {A B} (g : A -> list B) l : length (flat_map g l) = sum (map (fun x => length (g x)) l).
Proof. induction l as [|x l IH]; [reflexivity|]. cbn. rewrite app_length, IH. reflexivity. Qed.
Lemma sum_mono {A} (g h : A -> nat) l : (forall x, In x l -> g x <= h x) -> sum (map g l) <= sum (map h l).
Proof. induction l as [|x l IH]; intros H; [reflexivity|]. cbn. assert (g x <= h x) by (apply H; now left). assert (sum (map g l) <= sum (map h l)) by (apply IH; intros; apply H; now right). lia. Qed.
Lemma routes_visits n f : forall s, length (routes f n s) <= visits f n s.
Proof.
  induction f as [|f IH]; intros s; [reflexivity|]. cbn [routes visits]. rewrite !app_length, !flat_length.
  assert (A := sum_mono (fun t : nat * range => length (map (cons (Datatypes.inl t)) (routes f n (fst t)))) (fun t => visits f n (fst t)) (trans (get n s)) ltac:(intros x _; cbv beta; rewrite map_length; apply IH)).
  assert (B := sum_mono (fun t : nat * epsk => length (map (cons (Datatypes.inr t)) (routes f n (fst t)))) (fun t => visits f n (fst t)) (eps (get n s)) ltac:(intros x _; cbv beta; rewrite map_length; apply IH)).
  destruct (s + 1 =? length n); cbn [length]; lia.
Qed.
Lemma routes_path n f : forall s r w, In r (routes f n s) -> follows r w -> path byte_check n s w (length n - 1).
Proof.
  induction f as [|f IH]; intros s r w H Hf; [destruct H|]. cbn [routes] in H. rewrite !in_app_iff, !in_flat_map in H. destruct H as [H|[(x & Hx & H)|(x & Hx & H)]].
  - destruct (Nat.eqb_spec (s + 1) (length n)); [|destruct H]. destruct H as [<-|[]]. inversion Hf; subst. replace (length n - 1) with s by lia. constructor.
  - apply in_map_iff in H as (r' & <- & H). inversion Hf; subst. eapply p_sym; eauto. 
  - apply in_map_iff in H as (r' & <- & H). inversion Hf; subst. eapply p_eps; eauto.
Qed.
Lemma path_routes n f : forall s off b ps, fo_paths f n s off b = Ok ps -> 1 <= length n -> forall w, path byte_check n s w (length n - 1) -> exists r, In r (routes f n s) /\ follows r w.
Proof.
  induction f as [|f IH]; intros s off b ps H Hl w Hp; [discriminate|]. cbn [fo_paths] in H. apply bind_ok in H as (ts & Et & H). apply bind_ok in H as (es & Ee & H). clear H. cbn [routes].
  inversion Hp as [|? t k w' ? Hx Hp'|? t r c w' ? Hx Hc Hp']; subst.
  - exists []. split; [|constructor]. apply in_or_app. left. destruct (Nat.eqb_spec (length n - 1 + 1) (length n)); [now left|lia].
  - apply In_nth_error in Hx as Hi. destruct Hi as (i & Hi). destruct (nth_error es i) as [ps'|] eqn:Ep.
    2:{ exfalso. apply nth_error_None in Ep. rewrite (mapM_length' _ _ _ Ee) in Ep. apply nth_error_None in Ep. congruence. }
    destruct (IH _ _ _ _ (mapM_at _ _ _ _ _ _ Ee Hi Ep) Hl w' Hp') as (r & Hr & Hf). exists (Datatypes.inr (t, k) :: r). split; [|now constructor].
    rewrite !in_app_iff, !in_flat_map. right. right. exists (t, k). split; [assumption|]. apply in_map. exact Hr.
  - apply In_nth_error in Hx as Hi. destruct Hi as (i & Hi). destruct (nth_error ts i) as [ps'|] eqn:Ep.
    2:{ exfalso. apply nth_error_None in Ep. rewrite (mapM_length' _ _ _ Et) in Ep. apply nth_error_None in Ep. congruence. }
    destruct (IH _ _ _ _ (mapM_at _ _ _ _ _ _ Et Hi Ep) Hl w' Hp') as (r' & Hr & Hf). exists (Datatypes.inl (t, r) :: r'). split; [|now constructor].
    rewrite !in_app_iff, !in_flat_map. right. left. exists (t, r). split; [assumption|]. apply in_map. exact Hr.
Qed.
Lemma follows_length r v w : follows r v -> follows r w -> length (chars v) = length (chars w).
Proof.
  intros Hv. revert w. induction Hv as [|t a c r v Hc Hv IH|t k r v Hv IH]; intros w Hw; inversion Hw; subst; [reflexivity| |].
  - cbn. f_equal. now apply IH.
  - rewrite !chars_app, !app_length. f_equal. now apply IH.
Qed.
Lemma between_range a x y z : byte_check a x = true -> byte_check a y = true -> SpecSteps.between x y z -> byte_check a z = true.
Proof. unfold byte_check, in_range, SpecSteps.between. lia. Qed.
(** A word with the marks of [v] and the characters of [z]. *)
Lemma follows_between A B C r v : follows r v -> forall w i z, follows r w ->
  length A = length C -> reads A i v (length A) -> reads B i w (length B) -> all_between (chars v) (chars w) z -> skipn i C = z ->
  exists u, follows r u /\ reads C i u (length C).
Proof.
  intros Hv. induction Hv as [|t a c r v Hc Hv IH|t k r v Hv IH]; intros w i z Hw L RA RB Hz Hs; inversion Hw; subst.
  - inversion RA; subst. exists []. split; [constructor|]. rewrite L. constructor. lia.
  - inversion RA; subst. inversion RB; subst. cbn [chars] in Hz. destruct (skipn i C) as [|z0 z] eqn:Ez; [destruct Hz|]. destruct Hz as [Hb Hz].
    apply skipn_step in Ez as (Ez & Ez' & _).
    match goal with HH : follows r ?ww, RA' : reads A (S i) v _, RB' : reads B (S i) ?ww _ |- _ => destruct (IH ww (S i) z HH L RA' RB' Hz Ez') as (u & U1 & U2) end.
    exists (IC z0 :: u). split; [apply fl_sym; [eapply between_range; [exact Hc|eassumption|exact Hb]|exact U1]|]. apply rd_char; [exact Ez|exact U2].
  - apply reads_app in RA as (i1 & RA1 & RA2). apply reads_app in RB as (i2 & RB1 & RB2).
    assert (E1 : i1 = i) by (destruct k; cbn in RA1; inversion RA1; subst; auto; match goal with HH : reads _ _ [] _ |- _ => inversion HH; auto end).
    assert (E2 : i2 = i) by (destruct k; cbn in RB1; inversion RB1; subst; auto; match goal with HH : reads _ _ [] _ |- _ => inversion HH; auto end).
    subst i1 i2. rewrite !chars_app, !chars_mark in Hz. cbn [app] in Hz.
    match goal with HH : follows r ?ww, RA' : reads A i v _, RB' : reads B i ?ww _ |- _ => destruct (IH ww i _ HH L RA' RB' Hz eq_refl) as (u & U1 & U2) end.
    exists (mark k ++ u). split; [now constructor|]. apply reads_app. exists i. split; [|assumption].
    assert (Hi : i <= length C) by (apply reads_le in U2; lia).
    destruct k; cbn in RA1 |- *; [now constructor| | | | ]; (apply rd_mark; [| |now constructor]); intros E; try discriminate E; inversion RA1; subst; [auto|rewrite <- L; auto].
Qed.
Lemma occurs_word e m T : byte_automaton_of e m -> Forall scalar T -> occurs e T <-> exists W, lang byte_check m W /\ reads (utf8 T) 0 W (length (utf8 T)).
Proof.
  intros (M1 & M2 & M3 & M4 & _) HT. rewrite (occurs_iff T HT). split.
  - intros (w & Hw). exists (enc w). apply (M4 T (enc w) HT). eauto.
  - intros (W & HW). apply (M4 T W HT) in HW as (w & Hw & _). eauto.
Qed.
Lemma pigeonhole {A B} (P : A -> B -> Prop) S R : NoDup S -> (forall x, In x S -> exists r, In r R /\ P x r) -> (forall x y r, In x S -> In y S -> P x r -> P y r -> x = y) -> length S <= length R.
Proof.
  intros Hn He Hu. assert (H : exists rs, Forall2 P S rs /\ incl rs R /\ NoDup rs).
  { clear - Hn He Hu. induction Hn as [|x S Hx Hn IH]; [exists []; split; [constructor|split; [intros y []|constructor]]|].
    destruct IH as (rs & H1 & H2 & H3); [intros y Hy; apply He; now right|intros y z r Hy Hz; apply Hu; now right|]. destruct (He x ltac:(now left)) as (r & Hr & Hp). exists (r :: rs).
    split; [now constructor|]. split; [intros y [<-|Hy]; auto|]. constructor; [|assumption]. intros Hi. apply Hx.
    clear - Hu Hi H1 Hp. assert (G : exists y, In y S /\ P y r). { clear - H1 Hi. induction H1 as [|y r' S rs Hp H1 IH]; [destruct Hi|]. destruct Hi as [->|Hi]; [exists y; split; [now left|assumption]|]. destruct (IH Hi) as (z & Hz & Hp'). exists z. split; [now right|assumption]. }
    destruct G as (y & Hy & Hp'). replace x with y; [assumption|]. apply (Hu y x r); auto; [now right|now left]. }
  destruct H as (rs & H1 & H2 & H3). assert (El : length S = length rs) by (clear - H1; induction H1; cbn; congruence). rewrite El. now apply NoDup_incl_length.
Qed.
Lemma fixed_lower e m S : byte_automaton_of e m -> (exists offs, fixed_offsets m = Ok (Some offs)) -> NoDup S -> (forall T, In T S -> Forall scalar T /\ occurs e T) ->
  (forall T U, In T S -> In U S -> T <> U -> cut_off e T U) -> length S <= visits (length m) m 0.
Proof.
  intros Hm (offs & Ef) Hn Hocc Hcut. assert (Hm' := Hm). destruct Hm' as (M1 & M2 & M3 & M4 & M5 & M6 & M7).
  destruct (fixed_offsets_spec m M6 (ok_wf _ M1) ltac:(lia) M5) as (o & Eo & Ho). rewrite Ef in Eo. injection Eo as <-. destruct (proj1 (Ho offs) eq_refl) as ((l & El) & _ & _).
  destruct (fixed_loop m l (ok_wf _ M1) ltac:(lia) M5 El) as (k & r & ps & _ & _ & _ & _ & Eps).
  etransitivity; [|apply routes_visits].
  apply (pigeonhole (fun T r => exists W, follows r W /\ reads (utf8 T) 0 W (length (utf8 T)) /\ In r (routes (length m) m 0))); [assumption| |].
  - intros T HT. destruct (Hocc T HT) as [HT1 HT2]. apply (occurs_word e m T Hm HT1) in HT2 as (W & HW & HR). destruct (path_routes m _ _ _ _ _ Eps ltac:(lia) W HW) as (q & Hq & Hf). eauto 6.
  - intros T U q HT HU (W1 & F1 & R1 & Hq) (W2 & F2 & R2 & _). destruct (list_eq_dec N.eq_dec T U) as [|Ne]; [assumption|]. exfalso.
    assert (Hl := follows_length _ _ _ F1 F2).
    assert (C1 := R1). apply reads_chars in C1 as [C1 C1']. assert (C2 := R2). apply reads_chars in C2 as [C2 C2']. rewrite Nat.sub_0_r in C1', C2'. cbn [skipn] in C1', C2'. rewrite firstn_all in C1', C2'.
    destruct (Hcut T U HT HU Ne) as [D|(V & HV & Hb & Hno)]; [lia|]. apply Hno. apply (occurs_word e m V Hm HV).
    assert (LV : length (utf8 T) = length (utf8 V)). { clear - Hb. revert Hb. generalize (utf8 T) (utf8 U) (utf8 V). induction l as [|a l IH]; intros [|b l'] [|c l''] H; cbn in H; try contradiction; [reflexivity|]. cbn. f_equal. eapply IH. apply H. }
    destruct (follows_between (utf8 T) (utf8 U) (utf8 V) q W1 F1 W2 0 (utf8 V) F2 LV R1 R2) as (u & U1 & U2); [now rewrite C1', C2'|reflexivity|]. exists u. split; [|assumption]. exact (routes_path m _ _ _ _ Hq U1).
Qed.
