(** [optimize] goes on until nothing can be merged or skipped, and leaves no useless states if there were none. *)
From Verif Require Export SpecReduced POpt.
From Coq Require Import ZifyBool ZifyNat.
Open Scope nat_scope.
Open Scope list_scope.
Set Default Proof Using "Type".

Lemma dedup_kept {A} (f : A -> A -> bool) l : forall seen, length (dedup_by f seen l) = length l -> dedup_by f seen l = l.
Proof.
  induction l as [|x l IH]; intros seen H; [reflexivity|]. cbn in *. destruct (existsb (f x) seen).
  - assert (G := dedup_length f l seen). lia.
  - f_equal. apply IH. cbn in H. lia.
Qed.
Lemma dedup_unique {A} (f : A -> A -> bool) (Hf : forall x y, f x y = true <-> x = y) l : forall seen, NoDup (dedup_by f seen l).
Proof.
  induction l as [|x l IH]; intros seen; cbn; [constructor|]. destruct (existsb (f x) seen); [apply IH|]. constructor; [|apply IH].
  rewrite (dedup_In f Hf). cbn. tauto.
Qed.

Lemma NoDup_both {X} (a b : list X) : NoDup a -> NoDup b -> (forall x, In x a -> ~ In x b) -> NoDup (a ++ b).
Proof.
  intros Ha Hb Hd. induction Ha as [|x a Hx Ha IH]; [assumption|]. cbn. constructor.
  - rewrite in_app_iff. intros [H|H]; [tauto|]. apply (Hd x); [now left|assumption].
  - apply IH. intros y Hy. apply Hd. now right.
Qed.
Section Reduced.
  Context {A : Type}.
  Implicit Types n m : nfa A.
  Variable eqA : A -> A -> bool.

  Definition mergeable n (i j : nat) : bool := same_outgoing eqA (get n i) (get n j) && negb (i =? j) && negb (state_is_empty (get n i)).
  Definition skippable n (i to : nat) : Prop := trans (get n i) = [] /\ eps (get n i) = [(to, ENone)].
  Definition spliceable n (i s p : nat) : Prop :=
    has_incoming n i = false /\ incoming_eps n i = [(s, p)] /\ trans (get n i) = [] /\ nth_error (eps (get n s)) p = Some (i, ENone).
  Lemma step_cases n d c i r : optimize_step eqA (n, d, c) i = Ok r ->
    (exists j, In j (seq 0 (length n - 1)) /\ mergeable n i j = true /\ r = (map (map_targets (retarget i j)) (upd i empty_state n), upd i true d, true)) \/
    (forall j, In j (seq 0 (length n - 1)) -> mergeable n i j = false) /\
    let m := fst (dedupe n) in
    (exists to, skippable m i to /\ r = (upd i empty_state (map (map_targets (retarget i to)) m), upd i true d, true)) \/
    (exists s p, spliceable m i s p /\ s <> i /\ r = (modify s (splice p (eps (get m i))) (upd i (mkState (trans (get m i)) []) m), upd i true d, true)) \/
    ((forall to, ~ skippable m i to) /\ (forall s p, ~ spliceable m i s p) /\ r = (m, d, c || snd (dedupe n))).
  Proof.
    cbv beta iota zeta delta [optimize_step]. intros H.
    destruct (find _ (seq 0 (length n - 1))) as [j|] eqn:Ej.
    - left. apply find_some in Ej as [Hj E]. exists j. injection H as <-. auto.
    - right. split; [intros j Hj; exact (find_none _ _ Ej j Hj)|]. clear Ej. destruct (dedupe n) as [m ch]. cbn [fst snd].
      assert (Other : match has_incoming m i, incoming_eps m i, trans (get m i) with
                | false, [(s, e)], [] =>
                    match nth_error (eps (get m s)) e with
                    | Some (_, ENone) => if s =? i then Panic
                        else Ok (modify s (fun st => mkState (trans st) (firstn e (eps st) ++ eps (get m i) ++ skipn (S e) (eps st))) (upd i (mkState (trans (get m i)) []) m), upd i true d, true)
                    | _ => Ok (m, d, c || ch)
                    end
                | _, _, _ => Ok (m, d, c || ch)
                end = Ok r ->
          (exists s p, spliceable m i s p /\ s <> i /\ r = (modify s (splice p (eps (get m i))) (upd i (mkState (trans (get m i)) []) m), upd i true d, true)) \/
          ((forall s p, ~ spliceable m i s p) /\ r = (m, d, c || ch))).
      { unfold spliceable. destruct (has_incoming m i) eqn:E1; [intros E; injection E as <-; right; split; [now intros s p (X & _)|reflexivity]|].
        assert (Hin := fun s p => proj1 (incoming_In m i s p)). destruct (incoming_eps m i) as [|[s e] [|]] eqn:E2; try (intros E; injection E as <-; right; split; [now intros s' p' (_ & X & _)|reflexivity]).
        destruct (trans (get m i)) as [|] eqn:E3; [|intros E; injection E as <-; right; split; [now intros s' p' (_ & _ & X & _)|reflexivity]].
        destruct (Hin s e (or_introl eq_refl)) as (k & Hk). rewrite Hk. destruct k.
        2-5: (intros E; injection E as <-; right; split; [|reflexivity]; intros s' p' (_ & X & _ & Y); injection X as <- <-; rewrite Hk in Y; discriminate Y).
        destruct (Nat.eqb_spec s i) as [|Hne]; [discriminate|]. intros E; injection E as <-. left. exists s, e. rewrite <- E3 at 3. rewrite E3. auto 10. }
      unfold skippable. destruct (trans (get m i)) as [|tr trs] eqn:Et.
      + destruct (eps (get m i)) as [|[to k] [|]] eqn:Ee.
        * right. apply Other in H as [H|[H1 H2]]; [now left|right]. split; [now intros to (_ & X)|auto].
        * destruct k; [left; injection H as <-; eauto|..]; right; (apply Other in H as [H|[H1 H2]]; [now left|right]; split; [now intros to' (_ & X)|auto]).
        * right. assert (H' := H). destruct k; (apply Other in H as [H|[H1 H2]]; [now left|right]; split; [now intros to' (_ & X)|auto]).
      + right. apply Other in H as [H|[H1 H2]]; [now left|right]. split; [now intros to (X & _)|auto].
  Qed.

  (** ** A pass that changes nothing *)
  Lemma dedupe_kept n : snd (dedupe n) = false -> fst (dedupe n) = n /\ forall s, NoDup (eps (get n s)).
  Proof.
    intros H. assert (E : fst (dedupe n) = n).
    { unfold dedupe in *. cbn [fst snd] in *. rewrite <- (map_id n) at 2. apply map_ext_in. intros s Hs. assert (L : length (eps (dedupe_state s)) = length (eps s)).
      { destruct (Nat.eqb_spec (length (eps (dedupe_state s))) (length (eps s))) as [|Hne]; [assumption|]. enough (X : existsb (fun s => negb (length (eps (dedupe_state s)) =? length (eps s))) n = true) by congruence.
        apply existsb_exists. exists s. split; [assumption|]. now apply Nat.eqb_neq in Hne as ->. }
      destruct s as [t e]. unfold dedupe_state in *. cbn in *. now rewrite dedup_kept. }
    split; [assumption|]. intros s. rewrite <- E, get_dedupe. cbn. apply dedup_unique, eps_eqb_iff.
  Qed.
  Definition settled_at n (i : nat) : Prop :=
    (forall j, In j (seq 0 (length n - 1)) -> mergeable n i j = false) /\ (forall to, ~ skippable n i to) /\ (forall s p, ~ spliceable n i s p) /\ forall s, NoDup (eps (get n s)).
  Lemma step_settled n d c i n' d' : optimize_step eqA (n, d, c) i = Ok (n', d', false) -> c = false /\ n' = n /\ d' = d /\ settled_at n i.
  Proof.
    intros H. apply step_cases in H as [(j & _ & _ & E)|[H1 [(to & _ & E)|[(s & p & _ & _ & E)|(H2 & H3 & E)]]]]; try discriminate E.
    injection E as -> -> E. symmetry in E. apply orb_false_iff in E as [-> E]. apply dedupe_kept in E as [E1 E2]. rewrite E1 in *. split; [reflexivity|]. split; [exact E1|]. split; [reflexivity|]. split; [exact H1|]. split; [exact H2|]. split; [exact H3|exact E2].
  Qed.
  Lemma steps_flag l : forall n d c n' d', foldM (optimize_step eqA) l (n, d, c) = Ok (n', d', false) -> c = false.
  Proof.
    induction l as [|i l IH]; intros n d c n' d' H; [cbn in H; now injection H|]. cbn [foldM] in H.
    destruct (optimize_step eqA (n, d, c) i) as [[[n2 d2] c2]| | |] eqn:E; try discriminate H. cbn [bind] in H. apply IH in H. subst c2. now apply step_settled in E.
  Qed.
  Lemma steps_settled l : forall n d c n' d', foldM (optimize_step eqA) l (n, d, c) = Ok (n', d', false) -> n' = n /\ forall i, In i l -> settled_at n i.
  Proof.
    induction l as [|i l IH]; intros n d c n' d' H.
    - cbn in H. injection H as -> _ _. split; [reflexivity|]. intros i [].
    - cbn [foldM] in H. destruct (optimize_step eqA (n, d, c) i) as [[[n1 d1] c1]| | |] eqn:E; try discriminate H. cbn [bind] in H. assert (c1 = false) as -> by (now apply steps_flag in H). apply IH in H as [-> H].
      apply step_settled in E as (_ & -> & _ & E). split; [reflexivity|]. intros k [<-|Hk]; auto.
  Qed.
  Hypothesis eqA_refl : forall a, eqA a a = true.
  Lemma twins_mergeable n i j : i <> j -> twins n i j -> mergeable n i j = true.
  Proof using eqA_refl.
    intros Hij [E H]. assert (R : forall B (f : B -> B -> bool) l, (forall x, f x x = true) -> list_eqb f l l = true) by (intros B f l Hf; induction l; cbn; [reflexivity|]; now rewrite Hf).
    unfold mergeable, same_outgoing. rewrite <- E. rewrite !R; [|intros [t a]; unfold trans_eqb; cbn; now rewrite Nat.eqb_refl, eqA_refl|intros x; now apply eps_eqb_iff].
    apply Nat.eqb_neq in Hij as ->. unfold state_is_empty. destruct (eps (get n i)) eqn:E1, (trans (get n i)) eqn:E2; cbn; try reflexivity. destruct H; congruence.
  Qed.
  Lemma NoDup_one {B} (l : list B) x : NoDup l -> (forall y, In y l <-> y = x) -> l = [x].
  Proof.
    intros H1 H2. destruct l as [|y l]; [exfalso; apply (H2 x); reflexivity|]. assert (y = x) as -> by (apply H2; now left). destruct l as [|z l]; [reflexivity|].
    assert (z = x) as -> by (apply H2; right; now left). inversion H1 as [|? ? N _]. subst. exfalso. apply N. now left.
  Qed.
  Lemma seq_NoDup_pairs {B} (f : nat -> B -> list (nat * nat)) (l : list B) k : (forall i x, NoDup (f i x)) -> (forall i x p, In p (f i x) -> fst p = i) -> NoDup (flat_map (fun '(i, x) => f i x) (combine (seq k (length l)) l)).
  Proof.
    intros H1 H2. revert k. induction l as [|x l IH]; intros k; cbn; [constructor|]. apply NoDup_both; auto.
    intros p Hp Hq. apply H2 in Hp. apply in_flat_map in Hq as ([i y] & Hi & Hq). apply in_combine_l, in_seq in Hi. apply H2 in Hq. lia.
  Qed.
  Lemma incoming_NoDup n i : NoDup (incoming_eps n i).
  Proof.
    unfold incoming_eps, enumerate. apply (seq_NoDup_pairs (fun s st => map (fun p => (s, fst p)) (filter (fun p => fst (snd p) =? i) (combine (seq 0 (length (eps st))) (eps st))))).
    - intros s st. apply (NoDup_map_inv snd). rewrite map_map. cbn. generalize (eps st) as l. intros l. generalize 0 as k. induction l as [|x l IH]; intros k; cbn; [constructor|].
      destruct (fst x =? i); cbn; [|apply IH]. constructor; [|apply IH]. intros H. apply in_map_iff in H as ([p y] & <- & H). apply filter_In in H as [H _]. apply in_combine_l, in_seq in H. cbn in H. lia.
    - intros s st p H. apply in_map_iff in H as (q & <- & _). reflexivity.
  Qed.
  Lemma lone_spliceable n i : lone n i -> exists s p, spliceable n i s p.
  Proof.
    intros (H1 & H2 & s & p & H3 & H4). exists s, p. split; [|split; [|auto]].
    - unfold has_incoming. apply not_true_is_false. intros H. apply existsb_exists in H as (st & Hst & H). apply existsb_exists in H as ([t a] & Ha & E). apply Nat.eqb_eq in E. cbn in E. subst t.
      apply In_nth with (d := empty_state) in Hst as (q & _ & <-). exact (H2 q a Ha).
    - apply NoDup_one; [apply incoming_NoDup|]. intros [s' p']. rewrite incoming_In. split; [intros (k & Hk); apply H4 in Hk as [-> ->]; reflexivity|]. intros E. injection E as -> ->. eauto.
  Qed.
  Lemma settled_reduced n : (forall i, In i (seq 1 (length n - 2)) -> settled_at n i) -> reduced n.
  Proof using eqA_refl.
    intros H. split.
    - intros Hl. destruct (H 1) as (_ & _ & _ & X); [apply in_seq; lia|assumption].
    - intros i Hi Hi'. destruct (H i) as (X1 & X2 & X3 & _); [apply in_seq; lia|]. split; [|split].
      + intros j Hj Hij Ht. apply (twins_mergeable n i j Hij) in Ht. rewrite X1 in Ht by (apply in_seq; lia). discriminate.
      + intros (E & t & Et). now apply (X2 t).
      + intros Ht. apply lone_spliceable in Ht as (s & p & Ht). now apply (X3 s p).
  Qed.
  Lemma optimize_reduced fuel : forall n n', optimize eqA fuel n = Ok n' -> reduced n'.
  Proof using eqA_refl.
    induction fuel as [|f IH]; intros n n' H; [discriminate|]. cbn [optimize] in H. destruct (guard (wfb n)); try discriminate H. cbn [bind] in H.
    unfold optimize_pass in H. destruct (guard (2 <=? length n)); try discriminate H. cbn [bind] in H.
    destruct (foldM (optimize_step eqA) (seq 1 (length n - 2)) (n, repeat false (length n), false)) as [[[m d] c]| | |] eqn:E; try discriminate H. cbn [bind] in H.
    destruct c; cbn [bind] in H; [eauto|]. injection H as <-. apply steps_settled in E as [-> E]. now apply settled_reduced.
  Qed.

  (** ** States on the way from the first to the last *)
  (** Collapsing states: edges become edges, or nothing. *)
  Lemma conn_map n m (f : nat -> nat) : (forall s t, In t (succ_all n s) -> f s = f t \/ In (f t) (succ_all m (f s))) -> forall s t, conn n s t -> conn m (f s) (f t).
  Proof.
    intros H s t C. induction C as [s|s t u E C IH]; [constructor|]. destruct (H _ _ E) as [->|E']; [assumption|]. econstructor; eauto.
  Qed.
  (** The states not yet removed all lie on such a way. *)
  Definition on_way n (dead : list bool) : Prop := forall s, live dead s -> conn n 0 s /\ conn n s (length n - 1).
  Lemma on_way_map n m dead i (f : nat -> nat) : length m = length n -> i < length dead -> 0 < i < length n - 1 -> (forall s, s <> i -> f s = s) ->
    (forall s t, In t (succ_all n s) -> f s = f t \/ In (f t) (succ_all m (f s))) -> on_way n dead -> on_way m (upd i true dead).
  Proof.
    intros HL Hd Hi Hf Hc Hw s Hs. apply live_upd in Hs as [Hs1 Hs2]; [|assumption]. destruct (Hw s Hs2) as [H1 H2]. rewrite HL.
    split; [rewrite <- (Hf 0), <- (Hf s) by lia|rewrite <- (Hf s), <- (Hf (length n - 1)) by lia]; now apply (conn_map n m f).
  Qed.
  Lemma same_outgoing_succ x y t : same_outgoing eqA x y = true -> In t (map fst (trans x) ++ map fst (eps x)) -> In t (map fst (trans y) ++ map fst (eps y)).
  Proof.
    unfold same_outgoing. intros H Ht. apply andb_true_iff in H as [H1 H2]. apply (list_eqb_iff _ eq) in H1; [|intros; now apply eps_eqb_iff]. apply Forall2_eq in H1. rewrite <- H1. apply in_app_or in Ht as [Ht|Ht]; apply in_or_app; [left|now right].
    apply (list_eqb_iff _ (fun a b => fst a = fst b)) in H2; [|intros a b E; unfold trans_eqb in E; apply andb_true_iff in E as [E _]; now apply Nat.eqb_eq].
    revert Ht. clear H1. induction H2 as [|a b l m E H2 IH]; [auto|]. cbn. rewrite E. intuition.
  Qed.
  Lemma succ_all_get n s t : In t (succ_all n s) <-> In t (map fst (trans (get n s)) ++ map fst (eps (get n s))).
  Proof.
    split.
    - intros H. apply in_or_app. apply succ_all_inv in H as [(e & H)|(a & H)]; [right|left]; now apply (in_map fst) in H.
    - intros H. apply in_app_or in H as [H|H]; apply in_map_iff in H as ([u x] & E & H); cbn in E; subst u; [eapply succ_all_trans|eapply succ_all_eps]; eauto.
  Qed.
  Lemma map_targets_succ f (s : state A) t : In t (map fst (trans (map_targets f s)) ++ map fst (eps (map_targets f s))) <-> exists u, t = f u /\ In u (map fst (trans s) ++ map fst (eps s)).
  Proof.
    cbn. rewrite !map_map, in_app_iff, !in_map_iff. cbn. split.
    - intros [(x & <- & H)|(x & <- & H)]; exists (fst x); (split; [reflexivity|]); apply in_or_app; [left|right]; now apply in_map.
    - intros (u & -> & H). apply in_app_or in H as [H|H]; apply in_map_iff in H as (x & <- & H); eauto.
  Qed.
  Lemma step_on_way n d c i n' d' c' : optimize_step eqA (n, d, c) i = Ok (n', d', c') -> length d = length n -> 0 < i < length n - 1 -> on_way n d -> on_way n' d' /\ length n' = length n /\ length d' = length d.
  Proof.
    intros H Hd Hi Hw. apply step_cases in H as [(j & Hj & Hm & E)|[H1 H]].
    - injection E as -> -> _. unfold mergeable in Hm. rewrite !andb_true_iff, !negb_true_iff in Hm. destruct Hm as [[Hm1 Hm2] _]. apply Nat.eqb_neq in Hm2. apply in_seq in Hj.
      assert (HG : forall s, get (map (map_targets (retarget i j)) (upd i empty_state n)) s = if s =? i then empty_state else map_targets (retarget i j) (get n s)).
      { intros s. rewrite get_map by reflexivity. rewrite get_upd by lia. now destruct (s =? i). }
      rewrite map_length, !upd_length. split; [|auto]. eapply (on_way_map n _ d i (retarget i j)); [now rewrite map_length, upd_length|lia|assumption|intros s Hs; unfold retarget; now apply Nat.eqb_neq in Hs as ->| |assumption].
      intros s t Ht. right. apply succ_all_get in Ht. apply succ_all_get. destruct (Nat.eqb_spec s i) as [->|Hs].
      + assert (R : retarget i j i = j) by (unfold retarget; now rewrite Nat.eqb_refl). rewrite R, HG. destruct (Nat.eqb_spec j i) as [->|]; [congruence|]. apply map_targets_succ. exists t. split; [reflexivity|]. now apply (same_outgoing_succ (get n i)).
      + apply Nat.eqb_neq in Hs. assert (R : retarget i j s = s) by (unfold retarget; now rewrite Hs). rewrite R, HG, Hs. apply map_targets_succ. eauto.
    - cbv zeta in H. set (m := fst (dedupe n)) in *. assert (HL : length m = length n) by apply map_length.
      assert (Hw' : on_way m d).
      { intros s Hs. rewrite HL. destruct (Hw s Hs) as [W1 W2]. split; (apply (conn_map n m (fun x => x)); [|assumption]); intros x y Hy; right; (apply succ_all_inv in Hy as [(e & Hy)|(a & Hy)]; [apply (succ_all_eps m x y e); now apply dedupe_eps|apply (succ_all_trans m x y a); unfold m; rewrite get_dedupe; exact Hy]). }
      clearbody m. clear H1 Hw. destruct H as [(to & [Ht He] & E)|[(s & p & (X1 & X2 & X3 & X4) & Hs & E)|(_ & _ & E)]]; injection E as -> -> _.
      + rewrite !upd_length, map_length. split; [|auto].
        assert (HG : forall s, get (upd i empty_state (map (map_targets (retarget i to)) m)) s = if s =? i then empty_state else map_targets (retarget i to) (get m s)).
        { intros s. rewrite get_upd by (rewrite map_length; lia). destruct (s =? i); [reflexivity|]. now apply get_map. }
        eapply (on_way_map m _ d i (retarget i to)); [now rewrite upd_length, map_length|lia|lia|intros s Hs; unfold retarget; now apply Nat.eqb_neq in Hs as ->| |assumption].
        intros s t Hst. apply succ_all_get in Hst. destruct (Nat.eqb_spec s i) as [->|Hs].
        * left. rewrite Ht, He in Hst. cbn in Hst. destruct Hst as [<-|[]]. unfold retarget. rewrite Nat.eqb_refl. now destruct (to =? i).
        * right. apply succ_all_get. apply Nat.eqb_neq in Hs. assert (R : retarget i to s = s) by (unfold retarget; now rewrite Hs). rewrite R, HG, Hs. apply map_targets_succ. eauto.
      + rewrite modify_length, !upd_length. split; [|auto]. assert (Hsm : s < length m) by (eapply eps_range, nth_error_In; eauto).
        set (k := modify _ _ _).
        assert (HG : forall x, get k x = if x =? s then splice p (eps (get m i)) (get m s) else if x =? i then empty_state else get m x).
        { intros x. unfold k, get at 1. rewrite nth_modify, upd_length. destruct (Nat.ltb_spec s (length m)); [|lia]. rewrite andb_true_r.
          change (nth x (upd i (mkState (trans (get m i)) []) m) empty_state) with (get (upd i (mkState (trans (get m i)) []) m) x).
          change (nth s (upd i (mkState (trans (get m i)) []) m) empty_state) with (get (upd i (mkState (trans (get m i)) []) m) s).
          rewrite ?get_upd by lia. rewrite X3. destruct (Nat.eqb_spec x s) as [->|]; [|reflexivity]. destruct (Nat.eqb_spec s i); [congruence|]. reflexivity. }
        eapply (on_way_map m _ d i (retarget i s)); [unfold k; now rewrite modify_length, upd_length|lia|lia|intros x Hx; unfold retarget; now apply Nat.eqb_neq in Hx as ->| |assumption].
        intros x t Hx. destruct (Nat.eqb_spec t i) as [->|Hti].
        * left. unfold retarget. rewrite Nat.eqb_refl. apply succ_all_inv in Hx as [(e & Hx)|(a & Hx)]; [|now apply (has_incoming_false _ _ X1) in Hx].
          apply In_nth_error in Hx as (q & Hq). assert (Y : In (x, q) (incoming_eps m i)) by (apply incoming_In; eauto). rewrite X2 in Y. destruct Y as [Y|[]]. injection Y as <- _. now destruct (s =? i).
        * right. unfold retarget at 1. apply Nat.eqb_neq in Hti as Hti'. rewrite Hti'. apply succ_all_get in Hx. apply succ_all_get. rewrite HG. unfold retarget. destruct (Nat.eqb_spec x i) as [->|Hxi].
          -- rewrite Nat.eqb_refl. cbn [splice trans eps]. rewrite X3 in Hx. cbn in Hx. apply in_or_app. right. rewrite !map_app. apply in_or_app. right. apply in_or_app. now left.
          -- destruct (Nat.eqb_spec x s) as [->|Hxs]; [|apply Nat.eqb_neq in Hxi as ->; exact Hx]. cbn [splice trans eps]. apply in_app_or in Hx as [Hx|Hx]; apply in_or_app; [now left|right].
             apply in_map_iff in Hx as ([t' e] & E & Hx). cbn in E. subst t'. apply (In_split_nth _ _ _ (t, e) X4) in Hx as [Hx|[Hx|Hx]]; [injection Hx; congruence| |]; rewrite !map_app; apply in_or_app;
               [left; now apply (in_map fst) in Hx|right; apply in_or_app; right; now apply (in_map fst) in Hx].
      + auto.
  Qed.
End Reduced.
