(** Removal of states: [remove_dead_states] and [remove_unreachable]. *)
From Verif Require Export PClean.
From Coq Require Import ZifyBool ZifyNat Relation_Operators Operators_Properties.
Open Scope nat_scope.
Open Scope list_scope.
Set Default Proof Using "Type".

(** The indices of the live states, in order. *)
Fixpoint lives (k : nat) (dead : list bool) : list nat :=
  match dead with
  | [] => []
  | true :: r => lives (S k) r
  | false :: r => k :: lives (S k) r
  end.
Lemma lives_In k dead t : In t (lives k dead) <-> k <= t /\ nth (t - k) dead true = false.
Proof.
  revert k; induction dead as [|d dead IH]; intros k; cbn [lives].
  - split; [intros []|]. intros [_ H]. destruct (t - k); discriminate.
  - assert (HS : In t (lives (S k) dead) <-> k < t /\ nth (t - k) (d :: dead) true = false).
    { rewrite IH. split; intros [H1 H2]; (split; [lia|]); replace (t - k) with (S (t - S k)) in * by lia; exact H2. }
    destruct d; cbn [In]; rewrite HS.
    + split; intros [H1 H2]; (split; [|exact H2]); [lia|].
      destruct (Nat.eq_dec t k) as [->|]; [|lia]. rewrite Nat.sub_diag in H2. discriminate.
    + split.
      * intros [<-|[H1 H2]]; [rewrite Nat.sub_diag; auto|split; [lia|exact H2]].
      * intros [H1 H2]. destruct (Nat.eq_dec k t); [auto|]. right. split; [lia|exact H2].
Qed.
Lemma state_map_iff c k dead t j :
  nth t (state_map c dead) None = Some (c + j) <-> nth_error (lives k dead) j = Some (k + t).
Proof.
  revert c k t j; induction dead as [|d dead IH]; intros c k t j; cbn [state_map lives].
  - destruct t, j; cbn; split; discriminate.
  - destruct d.
    + destruct t as [|t]; cbn [nth].
      * split; [discriminate|]. intros H. apply nth_error_In, lives_In in H. lia.
      * rewrite (IH _ (S k)). now rewrite <- Nat.add_succ_comm.
    + destruct t as [|t]; cbn [nth].
      * destruct j as [|j]; cbn [nth_error].
        -- rewrite !Nat.add_0_r. split; reflexivity.
        -- split; [intros E; injection E; lia|]. intros H. apply nth_error_In, lives_In in H. lia.
      * destruct j as [|j]; cbn [nth_error].
        -- split; [|intros E; injection E; lia]. intros H.
           exfalso. assert (G : forall (dead : list bool) c t x, nth t (state_map c dead) None = Some x -> c <= x).
           { clear. induction dead as [|d dead IH]; intros c t x; cbn; [destruct t; discriminate|].
             destruct d, t; cbn; try discriminate; [apply IH| |intros H; apply IH in H; lia].
             intros E; injection E; lia. }
           apply G in H. lia.
        -- replace (c + S j) with (S c + j) by lia. rewrite (IH (S c) (S k)). now rewrite <- Nat.add_succ_comm.
Qed.
Lemma lives_NoDup k dead : NoDup (lives k dead).
Proof.
  revert k; induction dead as [|[|] dead IH]; intros k; cbn; [constructor|apply IH|].
  constructor; [|apply IH]. rewrite lives_In. lia.
Qed.
Lemma lives_snoc k dead : lives k (dead ++ [false]) = lives k dead ++ [k + length dead].
Proof.
  revert k; induction dead as [|[|] dead IH]; intros k; cbn.
  - now rewrite Nat.add_0_r.
  - now rewrite IH, <- Nat.add_succ_comm.
  - now rewrite IH, <- Nat.add_succ_comm.
Qed.
Lemma lives_last dead : nth (length dead - 1) dead true = false ->
  exists r, lives 0 dead = r ++ [length dead - 1] /\ ~ In (length dead - 1) r.
Proof.
  destruct dead as [|d r _] using rev_ind; [discriminate|]. rewrite app_length. cbn. rewrite Nat.add_sub.
  rewrite app_nth2, Nat.sub_diag by lia. cbn. intros ->. exists (lives 0 r). rewrite lives_snoc. split; [reflexivity|].
  rewrite lives_In, Nat.sub_0_r, nth_overflow by lia. intros [_ H]. discriminate.
Qed.
Lemma state_map_length k dead : length (state_map k dead) = length dead.
Proof. revert k; induction dead as [|[|] dead IH]; intros k; cbn; auto. Qed.

Section Dead.
  Context {A : Type}.
  Implicit Types n : nfa A.

  Lemma keep_lives n pre dead : length dead = length n ->
    map snd (filter (fun p => negb (fst p)) (combine dead n)) = map (get (pre ++ n)) (lives (length pre) dead).
  Proof.
    revert pre n; induction dead as [|d dead IH]; intros pre n HL; destruct n as [|s n]; cbn in HL; try discriminate; [reflexivity|].
    injection HL as HL. specialize (IH (pre ++ [s]) n HL).
    rewrite <- app_assoc, app_length, Nat.add_1_r in IH. cbn [app] in IH.
    destruct d; cbn [combine filter fst negb map snd lives]; rewrite IH; [reflexivity|].
    f_equal. unfold get. rewrite app_nth2, Nat.sub_diag by lia. reflexivity.
  Qed.

  Section One.
    Set Default Proof Using "All".
    Variables (n : nfa A) (dead : list bool).
    Hypothesis HL : length dead = length n.
    Definition live (t : nat) : Prop := nth t dead true = false.
    Definition old (k : nat) : nat := nth k (lives 0 dead) (length n).
    Definition new (t : nat) : nat := remap (state_map 0 dead) (length n) t.

    Lemma live_In t : live t <-> In t (lives 0 dead).
    Proof. unfold live. rewrite lives_In. rewrite Nat.sub_0_r. split; [split; [lia|assumption]|tauto]. Qed.
    Lemma live_lt t : live t -> t < length n.
    Proof.
      intros H. destruct (Nat.lt_ge_cases t (length n)); auto. unfold live in H.
      rewrite nth_overflow in H by lia. discriminate.
    Qed.
    Lemma rd_length : length (remove_dead_states dead n) = length (lives 0 dead).
    Proof. unfold remove_dead_states. rewrite (keep_lives n [] dead HL). now rewrite !map_length. Qed.
    Lemma new_live t : live t -> new t < length (lives 0 dead) /\ old (new t) = t.
    Proof.
      intros H. apply live_In in H. apply In_nth_error in H as (j & Hj).
      assert (E := Hj). apply (state_map_iff 0 0 dead t j) in E. cbn in E.
      unfold new, remap, old. rewrite E. split; [apply nth_error_Some; congruence|]. now apply nth_error_nth.
    Qed.
    Lemma old_live k : k < length (lives 0 dead) -> live (old k) /\ new (old k) = k.
    Proof.
      intros H. assert (Hj : nth_error (lives 0 dead) k = Some (old k)) by (apply nth_error_nth'; assumption).
      split; [apply live_In; eapply nth_error_In; eauto|].
      apply (state_map_iff 0 0 dead (old k) k) in Hj. cbn in Hj. unfold new, remap. now rewrite Hj.
    Qed.
    Lemma rd_get k : k < length (lives 0 dead) -> get (remove_dead_states dead n) k = map_targets new (get n (old k)).
    Proof.
      intros H. unfold remove_dead_states. rewrite (keep_lives n [] dead HL). cbn [app length].
      rewrite get_map by reflexivity. fold new. f_equal. unfold get at 1.
      rewrite (nth_indep _ _ (get n (length n))) by now rewrite map_length. now rewrite map_nth.
    Qed.
    Lemma rd_get_live t : live t -> get (remove_dead_states dead n) (new t) = map_targets new (get n t).
    Proof. intros H. destruct (new_live t H) as [H1 H2]. rewrite rd_get by assumption. now rewrite H2. Qed.

    (** Edges of live states stay among live states. *)
    Definition closed : Prop := forall s t, live s ->
      (forall e, In (t, e) (eps (get n s)) -> live t) /\ (forall a, In (t, a) (trans (get n s)) -> live t).
    Hypothesis HC : closed.

    Lemma rd_edge_eps s k e : live s -> In (k, e) (eps (get (remove_dead_states dead n) (new s))) <->
      exists t, live t /\ k = new t /\ In (t, e) (eps (get n s)).
    Proof.
      intros Hs. rewrite rd_get_live by assumption. cbn. rewrite in_map_iff. split.
      - intros ([t e'] & E & H). cbn in E. injection E as <- ->. exists t. split; [|auto].
        destruct (HC s t Hs) as [H1 _]. eauto.
      - intros (t & Ht & -> & H). exists (t, e). auto.
    Qed.
    Lemma rd_edge_trans s k a : live s -> In (k, a) (trans (get (remove_dead_states dead n) (new s))) <->
      exists t, live t /\ k = new t /\ In (t, a) (trans (get n s)).
    Proof.
      intros Hs. rewrite rd_get_live by assumption. cbn. rewrite in_map_iff. split.
      - intros ([t e'] & E & H). cbn in E. injection E as <- ->. exists t. split; [|auto].
        destruct (HC s t Hs) as [_ H1]. eauto.
      - intros (t & Ht & -> & H). exists (t, a). auto.
    Qed.
    Lemma rd_state k : length (lives 0 dead) <= k -> get (remove_dead_states dead n) k = empty_state.
    Proof. intros H. apply get_over. now rewrite rd_length. Qed.
    Lemma rd_cases k : (exists s, live s /\ k = new s) \/ get (remove_dead_states dead n) k = empty_state.
    Proof.
      destruct (Nat.lt_ge_cases k (length (lives 0 dead))) as [H|H].
      - left. destruct (old_live k H) as [H1 H2]. eauto.
      - right. now apply rd_state.
    Qed.
    Lemma new_inj s t : live s -> live t -> new s = new t -> s = t.
    Proof. intros Hs Ht E. destruct (new_live s Hs) as [_ <-], (new_live t Ht) as [_ <-]. now rewrite E. Qed.

    Lemma rd_wf : wf (remove_dead_states dead n).
    Proof.
      apply wf_intro; intros s t x Hx; destruct (rd_cases s) as [(s' & Hs & ->)|E]; try (rewrite E in Hx; destruct Hx).
      - apply rd_edge_eps in Hx as (t' & Ht & -> & _); auto. rewrite rd_length. now apply new_live.
      - apply rd_edge_trans in Hx as (t' & Ht & -> & _); auto. rewrite rd_length. now apply new_live.
    Qed.
    Lemma rd_pure : Forall pure n -> Forall pure (remove_dead_states dead n).
    Proof.
      rewrite !pure_iff. intros H k. destruct (rd_cases k) as [(s & Hs & ->)|E]; [|rewrite E; now left].
      rewrite rd_get_live by assumption. destruct (H s) as [E|E]; [left|right]; cbn; now rewrite E.
    Qed.
    Lemma rd_acyclic : acyclic n -> acyclic (remove_dead_states dead n).
    Proof.
      intros [h Hh]. exists (fun k => h (old k)). intros q t Ht. split; [lia|]. cbn [plus].
      change (nth q (remove_dead_states dead n) empty_state) with (get (remove_dead_states dead n) q) in Ht.
      destruct (rd_cases q) as [(s & Hs & ->)|E]; [|rewrite E in Ht; destruct Ht].
      apply rd_edge_eps in Ht as (t' & Ht & -> & Hi); auto.
      rewrite (proj2 (new_live _ Ht)), (proj2 (new_live _ Hs)). apply Hh in Hi. cbn in Hi. tauto.
    Qed.
    Lemma rd_syms (P : A -> Prop) : (forall s t a, In (t, a) (trans (get n s)) -> P a) ->
      forall s t a, In (t, a) (trans (get (remove_dead_states dead n) s)) -> P a.
    Proof.
      intros H s t a Hi. destruct (rd_cases s) as [(s' & Hs & ->)|E]; [|rewrite E in Hi; destruct Hi].
      apply rd_edge_trans in Hi as (t' & _ & _ & Hi); eauto.
    Qed.
    Lemma rd_marks (P : epsk -> Prop) : (forall s t a, In (t, a) (eps (get n s)) -> P a) ->
      forall s t a, In (t, a) (eps (get (remove_dead_states dead n) s)) -> P a.
    Proof.
      intros H s t a Hi. destruct (rd_cases s) as [(s' & Hs & ->)|E]; [|rewrite E in Hi; destruct Hi].
      apply rd_edge_eps in Hi as (t' & _ & _ & Hi); eauto.
    Qed.

    Section Path.
      Variable check : A -> N -> bool.
      Lemma rd_path_to s w t : live s -> path check n s w t -> live t /\ path check (remove_dead_states dead n) (new s) w (new t).
      Proof.
        intros Hs Hp. induction Hp as [s|s t e w u He Hp IH|s t a c w u He Hc Hp IH].
        - split; [assumption|apply p_nil].
        - assert (Ht : live t) by exact (proj1 (HC s t Hs) e He). destruct (IH Ht) as [H1 H2]. split; [assumption|].
          eapply p_eps; [|exact H2]. apply rd_edge_eps; eauto.
        - assert (Ht : live t) by exact (proj2 (HC s t Hs) a He). destruct (IH Ht) as [H1 H2]. split; [assumption|].
          eapply p_sym; [|exact Hc|exact H2]. apply rd_edge_trans; eauto.
      Qed.
      Lemma rd_path_from k w l : path check (remove_dead_states dead n) k w l -> forall s, live s -> k = new s ->
        exists t, live t /\ l = new t /\ path check n s w t.
      Proof.
        intros Hp. induction Hp as [k|k l e w u He Hp IH|k l a c w u He Hc Hp IH]; intros s Hs ->.
        - exists s. split; [assumption|]. split; [reflexivity|apply p_nil].
        - apply rd_edge_eps in He as (t & Ht & -> & He); auto. destruct (IH t Ht eq_refl) as (z & H1 & H2 & H3).
          exists z. split; [assumption|]. split; [assumption|]. eapply p_eps; eauto.
        - apply rd_edge_trans in He as (t & Ht & -> & He); auto. destruct (IH t Ht eq_refl) as (z & H1 & H2 & H3).
          exists z. split; [assumption|]. split; [assumption|]. eapply p_sym; eauto.
      Qed.
    End Path.

    Lemma new_zero : live 0 -> new 0 = 0.
    Proof. unfold live, new, remap. destruct dead as [|[|] r]; cbn; try discriminate. reflexivity. Qed.
    Lemma new_last : live (length n - 1) -> new (length n - 1) = length (lives 0 dead) - 1 /\ 1 <= length (lives 0 dead).
    Proof.
      intros H. destruct (new_live _ H) as [H1 H2]. unfold live in H. rewrite <- HL in *.
      apply lives_last in H as (r & E & Hr). unfold old in H2. rewrite E in *. rewrite app_length in *. cbn in *.
      split; [|lia]. rewrite Nat.add_sub.
      destruct (Nat.eq_dec (new (length dead - 1)) (length r)) as [|Hne]; [assumption|exfalso].
      rewrite app_nth1 in H2 by lia. apply Hr. rewrite <- H2 at 1. apply nth_In. lia.
    Qed.
    Lemma rd_lang check w : live 0 -> live (length n - 1) ->
      lang check (remove_dead_states dead n) w <-> lang check n w.
    Proof.
      intros H0 H1. unfold lang. rewrite rd_length. destruct (new_last H1) as [E HN]. rewrite <- E.
      rewrite <- (new_zero H0) at 1. split; intros H.
      - destruct (rd_path_from _ _ _ _ H 0 H0 eq_refl) as (t & Ht & E2 & Hp).
        apply new_inj in E2; auto. now subst t.
      - now apply rd_path_to.
    Qed.
    Lemma rd_ok : live 0 -> live (length n - 1) -> ok n -> ok (remove_dead_states dead n).
    Proof.
      intros H0 H1 [Hf _ Hp Ha]. split; auto using rd_wf, rd_pure, rd_acyclic.
      apply fin_iff. rewrite rd_length. destruct (new_last H1) as [E HN]. split; [assumption|].
      rewrite <- E, rd_get_live by assumption. apply fin_last in Hf as [-> _]. reflexivity.
    Qed.
    Lemma rd_length2 : live 0 -> live (length n - 1) -> 2 <= length n -> 2 <= length (remove_dead_states dead n).
    Proof.
      intros H0 H1 H. rewrite rd_length. destruct (new_live _ H1) as [HA _].
      destruct (Nat.eq_dec (new (length n - 1)) 0) as [E|]; [|lia].
      assert (E' : new (length n - 1) = new 0) by now rewrite new_zero.
      apply new_inj in E'; auto. lia.
    Qed.
  End One.
  Set Default Proof Using "Type".
End Dead.

Section Unreachable.
  Context {A : Type}.
  Implicit Types n : nfa A.

  Definition succ_all n (s : nat) : list nat := succ_eps n any_eps s ++ succ_trans n s.
  Definition conn n (s t : nat) : Prop := star (succ_all n) s t.
  (** Every state lies on a way from the first to the last one. *)
  Definition trimmed n : Prop := forall s, s < length n -> conn n 0 s /\ conn n s (length n - 1).

  Lemma succ_all_eps n s t e : In (t, e) (eps (get n s)) -> In t (succ_all n s).
  Proof. intros H. apply in_or_app. left. apply succ_eps_In. eauto. Qed.
  Lemma succ_all_trans n s t a : In (t, a) (trans (get n s)) -> In t (succ_all n s).
  Proof. intros H. apply in_or_app. right. apply succ_trans_In. eauto. Qed.
  Lemma succ_all_inv n s t : In t (succ_all n s) -> (exists e, In (t, e) (eps (get n s))) \/ (exists a, In (t, a) (trans (get n s))).
  Proof.
    intros H. apply in_app_or in H as [H|H].
    - apply succ_eps_In in H as (e & H & _). eauto.
    - apply succ_trans_In in H. auto.
  Qed.
  Lemma path_conn check n s w t : path check n s w t -> conn n s t.
  Proof.
    intros H. eapply (path_star check n any_eps); [reflexivity| |exact H]. intros e _. reflexivity.
  Qed.
  Lemma conn_lt n s t : wf n -> s < length n -> conn n s t -> t < length n.
  Proof.
    intros Hw Hs H. revert Hs. induction H as [s|s t u H1 H2 IH]; intros Hs; [assumption|].
    apply IH. eapply succ_all_lt; eauto.
  Qed.

  Lemma remove_unreachable_spec n : wf n -> 1 <= length n ->
    exists n', remove_unreachable n = Ok n' /\
      (~ conn n 0 (length n - 1) -> n' = []) /\
      (conn n 0 (length n - 1) ->
         1 <= length n' /\ (ok n -> ok n') /\ wf n' /\ (2 <= length n -> 2 <= length n') /\ trimmed n' /\
         (forall check w, lang check n' w <-> lang check n w) /\
         (forall P : A -> Prop, (forall s t a, In (t, a) (trans (get n s)) -> P a) ->
            forall s t a, In (t, a) (trans (get n' s)) -> P a) /\
         (forall P : epsk -> Prop, (forall s t a, In (t, a) (eps (get n s)) -> P a) ->
            forall s t a, In (t, a) (eps (get n' s)) -> P a)).
  Proof.
    intros Hw Hl. unfold remove_unreachable, reachable_start, reachable_end.
    destruct (reach_from_spec (succ_all n) (length n) 0) as (a & Ea & Hal & Ha); [lia|intros x y; now apply succ_all_lt|].
    destruct (reach_from_spec (pred_all n any_eps) (length n) (length n - 1)) as (b & Eb & Hbl & Hb); [lia|intros x y; apply pred_all_lt|].
    fold (succ_all n). change (fun s => succ_eps n any_eps s ++ succ_trans n s) with (succ_all n).
    rewrite Ea, Eb. cbn [bind]. eexists. split; [reflexivity|].
    set (dead := map _ (combine a b)). set (m := map _ n).
    assert (Hb' : forall s, marked b s <-> conn n s (length n - 1)).
    { intros s. rewrite Hb. symmetry. apply star_rev. intros. symmetry. apply pred_all_In. }
    assert (Hm : length m = length n) by (unfold m; apply map_length).
    assert (Hd : length dead = length m) by (rewrite Hm; unfold dead; rewrite map_length, combine_length; lia).
    assert (HG : forall s, get m s = mkState (filter (fun t => nth (fst t) a false && nth (fst t) b false) (trans (get n s)))
                                             (filter (fun t => nth (fst t) a false && nth (fst t) b false) (eps (get n s)))).
    { intros s. unfold m. apply (get_map n (fun s => mkState (filter (fun t => nth (fst t) a false && nth (fst t) b false) (trans s))
                                             (filter (fun t => nth (fst t) a false && nth (fst t) b false) (eps s)))). reflexivity. }
    assert (HLv : forall s, live dead s <-> conn n 0 s /\ conn n s (length n - 1)).
    { intros s. unfold live. destruct (Nat.lt_ge_cases s (length n)) as [Hs|Hs].
      - unfold dead. set (F := fun p : bool * bool => negb (fst p) || negb (snd p)).
        rewrite (nth_indep _ _ (F (false, false))) by (rewrite map_length, combine_length; lia).
        rewrite map_nth, combine_nth by lia. unfold F. cbn. rewrite orb_false_iff, !negb_false_iff, Hb'. unfold conn. now rewrite Ha.
      - rewrite nth_overflow by lia. split; [discriminate|]. intros [H _]. apply conn_lt in H; auto; lia. }
    assert (HE : forall s t e, In (t, e) (eps (get m s)) <-> In (t, e) (eps (get n s)) /\ live dead t).
    { intros s t e. rewrite HG. cbn. rewrite filter_In. cbn. rewrite HLv, andb_true_iff, Hb'. unfold conn. now rewrite Ha. }
    assert (HT : forall s t e, In (t, e) (trans (get m s)) <-> In (t, e) (trans (get n s)) /\ live dead t).
    { intros s t e. rewrite HG. cbn. rewrite filter_In. cbn. rewrite HLv, andb_true_iff, Hb'. unfold conn. now rewrite Ha. }
    assert (HC : closed m dead).
    { intros s t _. split; intros e H; [apply HE in H|apply HT in H]; tauto. }
    assert (Hth : thin m n).
    { split; [assumption|]. intros s. rewrite HG. cbn. split; apply incl_filter. }
    split.
    - intros Hn. destruct (remove_dead_states dead m) as [|x r] eqn:E; [reflexivity|exfalso].
      assert (H := rd_length m dead Hd). rewrite E in H. cbn in H.
      destruct (lives 0 dead) as [|s l] eqn:El; [discriminate|].
      assert (Hs : In s (lives 0 dead)) by (rewrite El; now left).
      apply (live_In m dead Hd) in Hs. apply HLv in Hs as [H1 H2]. apply Hn. eapply star_app; eauto.
    - intros Hc.
      assert (H0 : live dead 0) by (apply HLv; split; [constructor|assumption]).
      assert (H1 : live dead (length m - 1)) by (rewrite Hm; apply HLv; split; [assumption|constructor]).
      assert (Hlast := new_last m dead Hd HC H1). assert (Hzero := new_zero m dead Hd HC H0).
      assert (Hlang : forall check w, lang check (remove_dead_states dead m) w <-> lang check n w).
      { intros check w. rewrite (rd_lang m dead Hd HC check w H0 H1). split; [now apply thin_lang|].
        unfold lang. rewrite Hm. intros Hp.
        assert (G : forall s w t, path check n s w t -> conn n 0 s -> t = length n - 1 -> path check m s w t).
        { clear w Hp. intros s w t Hp. induction Hp as [s|s t e w u He Hp IH|s t x c w u He Hx Hp IH]; intros Hs Ht.
          - apply p_nil.
          - assert (Hst : conn n 0 t) by (eapply star_snoc; [exact Hs|]; eapply succ_all_eps; eauto).
            eapply p_eps; [|apply IH; assumption]. apply HE. split; [exact He|]. apply HLv. split; [assumption|].
            subst u. eapply path_conn; eauto.
          - assert (Hst : conn n 0 t) by (eapply star_snoc; [exact Hs|]; eapply succ_all_trans; eauto).
            eapply p_sym; [|exact Hx|apply IH; assumption]. apply HT. split; [exact He|]. apply HLv. split; [assumption|].
            subst u. eapply path_conn; eauto. }
        apply G; auto. constructor. }
      split; [rewrite rd_length by assumption; tauto|].
      split; [intros Hok; apply rd_ok; auto; eapply thin_ok; eauto|].
      split; [now apply rd_wf|].
      split; [intros H2; apply rd_length2; auto; lia|].
      split.
      { (* connections among live states survive *)
        assert (HS : forall s t, conn n s t -> live dead s -> live dead t -> conn (remove_dead_states dead m) (new m dead s) (new m dead t)).
        { intros s t H. induction H as [s|s t u H2 H3 IH]; intros Hs Hu; [constructor|].
          assert (Ht : live dead t).
          { apply HLv. apply HLv in Hs as [Hs _], Hu as [_ Hu]. split; [eapply star_snoc; eauto|eapply star_app; eauto]. }
          econstructor; [|apply IH; assumption].
          apply succ_all_inv in H2 as [(e & He)|(e & He)].
          - eapply succ_all_eps. apply (rd_edge_eps m dead Hd HC); [assumption|]. exists t. repeat split; auto. apply HE. split; [exact He|assumption].
          - eapply succ_all_trans. apply (rd_edge_trans m dead Hd HC); [assumption|]. exists t. repeat split; auto. apply HT. split; [exact He|assumption]. }
        intros k Hk. rewrite rd_length in Hk by assumption. destruct (old_live m dead Hd k Hk) as [H2 H3].
        rewrite rd_length by assumption. rewrite <- (proj1 Hlast). rewrite <- Hzero at 1. rewrite <- H3.
        rewrite Hm. rewrite Hm in H1. apply HLv in H2 as H4. destruct H4. auto. }
      split; [exact Hlang|].
      split.
      { intros P HP. apply (rd_syms m dead Hd HC). intros s t x Hx. apply HT in Hx. eapply HP. apply Hx. }
      { intros P HP. apply (rd_marks m dead Hd HC). intros s t x Hx. apply HE in Hx. eapply HP. apply Hx. }
  Qed.
End Unreachable.
