(** The optimiser keeps the preferred run. *)
From Verif Require Export PPrioPass PWorking.
From Coq Require Import ZifyBool ZifyNat.
Open Scope nat_scope.
Open Scope list_scope.
Set Default Proof Using "Type".

Section Opt.
  Context {A : Type}.
  Variable check : A -> N -> bool.
  Variable eqA : A -> A -> bool.
  Variable good : A -> Prop.
  Hypothesis eqA_sound : forall a b, good a -> good b -> eqA a b = true -> forall c, check a c = check b c.
  Implicit Types n : nfa A.

  Lemma alts_edges n s : s <> length n - 1 -> alts n s = edges (get n s).
  Proof. intros H. unfold alts. destruct (Nat.eqb_spec s (length n - 1)); [congruence|reflexivity]. Qed.
  (** One alternative for one, with the states' lists replaced afterwards. *)
  Lemma redirect_ev T K n n' (f : nat -> nat) s j r :
    (forall t j r, ev check T n' K (flat_map (ren f (fun a => a) [AAcc]) (alts n t)) j r -> ev check T n' K (alts n' (f t)) j r) ->
    ev check T n K (alts n s) j r -> ev check T n' K (alts n' (f s)) j r.
  Proof.
    intros HS H. apply HS. apply (sim_same check check T n n' K K (ren f (fun a => a) [AAcc]) (fun _ _ => True)); auto.
    - intros. apply Forall_forall. auto.
    - intros. apply Forall_forall. auto.
    - intros. apply ev_one. now apply e_acc.
    - intros. apply ev_one. now apply e_sym_no.
    - intros. apply ev_one. apply e_sym; auto.
    - intros. apply ev_one. now apply e_eps_no.
    - intros. apply ev_one. apply e_eps; auto.
    - apply Forall_forall. auto.
  Qed.

  Lemma merge_keeps n i j : goods good n -> ok n -> 0 < i < length n - 1 -> j < length n - 1 -> i <> j ->
    same_outgoing eqA (get n i) (get n j) = true ->
    keeps check n (map (map_targets (retarget i j)) (upd i empty_state n)).
  Proof using eqA_sound.
    intros Hgd Hok Hi Hj Hij HS. set (n1 := map _ _).
    assert (HL : length n1 = length n) by (unfold n1; now rewrite map_length, upd_length).
    assert (HG : forall s, get n1 s = if s =? i then empty_state else map_targets (retarget i j) (get n s)).
    { intros s. unfold n1. rewrite get_map by reflexivity. rewrite get_upd by lia. now destruct (s =? i). }
    assert (HA : Forall2 (alike check) (edges (get n i)) (edges (get n j))).
    { unfold same_outgoing in HS. apply andb_true_iff in HS as [H1 H2].
      apply (list_eqb_iff _ eq) in H1; [|intros ? ?; apply eps_eqb_iff]. apply Forall2_eq in H1.
      apply (list_eqb_iff _ (fun p q => fst p = fst q /\ (eqA (snd p) (snd q) = true))) in H2.
      2:{ intros [t a] [u b] H. apply andb_true_iff in H as [H3 H4]. apply Nat.eqb_eq in H3. cbn in *. auto. }
      unfold edges. apply Forall2_app.
      - assert (G1 : forall t a, In (t, a) (trans (get n i)) -> good a) by (intros; eapply Hgd; eauto).
        assert (G2 : forall t a, In (t, a) (trans (get n j)) -> good a) by (intros; eapply Hgd; eauto).
        clear - H2 G1 G2 eqA_sound. revert G1 G2. induction H2 as [|[t a] [u b] l l' [E1 E2] H IH]; intros G1 G2; [constructor|]. cbn in *. subst u. constructor.
        + cbn. split; [reflexivity|]. apply eqA_sound; eauto.
        + apply IH; eauto.
      - rewrite H1. clear. induction (eps (get n j)) as [|[t e] l IH]; [constructor|]. cbn. constructor; [now split|assumption]. }
    intros T K p r HK Hp H. 
    assert (E0 : retarget i j 0 = 0) by (unfold retarget; destruct (Nat.eqb_spec 0 i); [lia|reflexivity]).
    rewrite <- E0. apply (redirect_ev T K n n1 (retarget i j)); [|assumption]. clear p r Hp H.
    intros t p r H. unfold retarget at 1. destruct (Nat.eqb_spec t i) as [->|Hti].
    - rewrite alts_edges by lia. rewrite HG. destruct (Nat.eqb_spec j i); [congruence|]. rewrite map_edges.
      rewrite alts_edges in H by lia. eapply ev_alike; [|exact H].
      clear - HA. induction HA as [|x y l l' Hx H IH]; [constructor|]. cbn [flat_map]. apply Forall2_app; [|assumption].
      destruct x as [|t a|t e], y as [|t' b|t' e']; try contradiction; cbn in Hx; constructor; try apply Forall2_nil.
      + exact I.
      + destruct Hx as [-> Hx]. now split.
      + destruct Hx as [-> ->]. now split.
    - assert (E : alts n1 t = flat_map (ren (retarget i j) (fun a => a) [AAcc]) (alts n t)).
      { unfold alts. rewrite HL, HG. destruct (Nat.eqb_spec t i); [congruence|]. rewrite map_edges, flat_map_app. f_equal. now destruct (t =? length n - 1). }
      now rewrite E.
  Qed.

  Lemma dedupe_keeps n : ok n -> keeps check n (fst (dedupe n)).
  Proof.
    intros Hok. set (n1 := fst (dedupe n)).
    assert (HL : length n1 = length n) by apply map_length.
    intros T K p r HK Hp H. change 0 with ((fun s : nat => s) 0) at 1.
    apply (redirect_ev T K n n1 (fun s => s)); [|assumption]. clear p r Hp H.
    intros t p r H. assert (E : forall l, flat_map (ren (fun s => s) (fun a : A => a) [AAcc]) l = l).
    { induction l as [|[|s a|s e] l IH]; cbn; [reflexivity|now rewrite IH..]. }
    rewrite E in H. unfold alts in *. rewrite HL. unfold n1 at 2. rewrite get_dedupe. unfold edges in *. cbn [dedupe_state trans eps].
    rewrite app_assoc in *. apply ev_app_inv in H as (r1 & r2 & H1 & H2 & ->).
    destruct (ev_dedup check T n1 K HK (eps (get n t)) [] [] p None r2) as (r' & H3 & H4); [intros ? []|constructor|assumption|].
    cbn in H4. subst r'. now apply ev_app.
  Qed.

  Lemma skip_keeps n i to : ok n -> 0 < i < length n - 1 -> get n i = mkState [] [(to, ENone)] ->
    keeps check n (upd i empty_state (map (map_targets (retarget i to)) n)).
  Proof.
    intros Hok Hi Hg. set (n1 := upd _ _ _).
    assert (HL : length n1 = length n) by (unfold n1; now rewrite upd_length, map_length).
    assert (HG : forall s, get n1 s = if s =? i then empty_state else map_targets (retarget i to) (get n s)).
    { intros s. unfold n1. rewrite get_upd by (rewrite map_length; lia). rewrite get_map by reflexivity. reflexivity. }
    intros T K p r HK Hp H.
    assert (E0 : retarget i to 0 = 0) by (unfold retarget; destruct (Nat.eqb_spec 0 i); [lia|reflexivity]).
    rewrite <- E0. apply (redirect_ev T K n n1 (retarget i to)); [|assumption]. clear p r Hp H.
    intros t p r H. destruct (Nat.eq_dec t i) as [->|Hti].
    - rewrite alts_edges, Hg in H by lia. cbn in H. apply ev_one_inv in H. inversion H as [| | |? ? ? Ho|? ? ? r0 Ho Hev]; subst; [discriminate|].
      rewrite pre_nil. unfold retarget in *. rewrite Nat.eqb_refl. destruct (Nat.eqb_spec to i); [subst; assumption|assumption].
    - assert (E : alts n1 (retarget i to t) = flat_map (ren (retarget i to) (fun a => a) [AAcc]) (alts n t)).
      { unfold retarget at 1. destruct (Nat.eqb_spec t i); [congruence|]. unfold alts. rewrite HL, HG. destruct (Nat.eqb_spec t i); [congruence|].
        rewrite map_edges, flat_map_app. f_equal. now destruct (t =? length n - 1). }
      now rewrite E.
  Qed.

  Lemma splice_keeps n i s p : ok n -> 0 < i < length n - 1 -> has_incoming n i = false ->
    incoming_eps n i = [(s, p)] -> trans (get n i) = [] -> nth_error (eps (get n s)) p = Some (i, ENone) -> s <> i ->
    keeps check n (modify s (splice p (eps (get n i))) (upd i (mkState (trans (get n i)) []) n)).
  Proof.
    intros Hok Hi Hinc Hin Ht Hp Hsi. set (n1 := modify _ _ _).
    assert (HL : length n1 = length n) by (unfold n1; now rewrite modify_length, upd_length).
    assert (Hs : s < length n).
    { apply (eps_range n s (i, ENone)). eapply nth_error_In; eauto. }
    assert (HG : forall x, get n1 x = if x =? s then splice p (eps (get n i)) (get n s) else if x =? i then empty_state else get n x).
    { intros x. unfold n1, get at 1. rewrite nth_modify. rewrite upd_length.
      destruct (Nat.ltb_spec s (length n)); [|lia]. rewrite andb_true_r.
      change (nth x (upd i (mkState (trans (get n i)) []) n) empty_state) with (get (upd i (mkState (trans (get n i)) []) n) x).
      change (nth s (upd i (mkState (trans (get n i)) []) n) empty_state) with (get (upd i (mkState (trans (get n i)) []) n) s).
      rewrite ?get_upd by lia. rewrite Ht.
      destruct (Nat.eqb_spec x s) as [->|]; [|reflexivity]. destruct (Nat.eqb_spec s i); [congruence|]. reflexivity. }
    (* the only edge into [i] *)
    assert (Hno : forall x a, ~ In (i, a) (trans (get n x))) by now apply has_incoming_false.
    assert (Hne : forall x q k, nth_error (eps (get n x)) q = Some (i, k) -> x = s /\ q = p).
    { intros x q k Hq. assert (H : In (x, q) (incoming_eps n i)) by (apply incoming_In; eauto). rewrite Hin in H.
      destruct H as [E|[]]. injection E as -> ->. auto. }
    set (out := map (fun e => @AEps A (fst e) (snd e)) (eps (get n i))).
    set (phi := fun x : alt A => match x with AEps t e => if t =? i then out else [x] | _ => [x] end).
    assert (Hid : forall l, (forall q k, nth_error l q <> Some (i, k)) -> flat_map phi (map (fun e => AEps (fst e) (snd e)) l) = map (fun e => AEps (fst e) (snd e)) l).
    { induction l as [|[t e] l IH]; intros Hl; [reflexivity|]. cbn [map flat_map fst snd]. rewrite IH by (intros q k; exact (Hl (S q) k)).
      unfold phi at 1. destruct (Nat.eqb_spec t i) as [->|]; [destruct (Hl 0 e); reflexivity|reflexivity]. }
    assert (Hids : forall l, flat_map phi (map (fun t : nat * A => ASym (fst t) (snd t)) l) = map (fun t => ASym (fst t) (snd t)) l).
    { induction l as [|[t e] l IH]; [reflexivity|]. cbn. now rewrite IH. }
    assert (HA : forall x, x <> i -> flat_map phi (alts n x) = alts n1 x).
    { intros x Hx. unfold alts. rewrite HL, flat_map_app. f_equal; [now destruct (x =? length n - 1)|].
      unfold edges. rewrite flat_map_app, HG, Hids. destruct (Nat.eqb_spec x s) as [->|Hxs]; cbn [trans eps splice].
      - f_equal. rewrite !map_app. rewrite <- (firstn_skipn p (eps (get n s))) at 1. rewrite map_app, flat_map_app. f_equal.
        + apply Hid. intros q k Hq. assert (Hlt : q < length (firstn p (eps (get n s)))) by (apply nth_error_Some; congruence).
          rewrite firstn_length in Hlt.
          destruct (Hne s q k) as [_ E]; [|lia]. rewrite <- (firstn_skipn p (eps (get n s))). rewrite nth_error_app1; [assumption|]. rewrite firstn_length. lia.
        + assert (Hsk : skipn p (eps (get n s)) = (i, ENone) :: skipn (S p) (eps (get n s))).
          { clear - Hp. revert Hp. generalize (eps (get n s)) as l. induction p as [|p IH]; intros [|y l] E; cbn in *; try discriminate.
            - injection E as ->. reflexivity.
            - rewrite (IH l E). destruct l; reflexivity. }
          rewrite Hsk. cbn [map flat_map fst snd]. f_equal.
          * unfold phi. now rewrite Nat.eqb_refl.
          * apply Hid. intros q k Hq. assert (E : nth_error (eps (get n s)) (S p + q) = Some (i, k)).
            { rewrite <- (firstn_skipn (S p) (eps (get n s))). assert (Hlp : p < length (eps (get n s))) by (apply nth_error_Some; congruence).
              rewrite nth_error_app2; rewrite firstn_length; [|lia]. rewrite Nat.min_l by lia. replace (S p + q - S p) with q by lia. assumption. }
            apply Hne in E as [_ E]. lia.
      - destruct (Nat.eqb_spec x i); [congruence|]. f_equal. apply Hid. intros q k Hq. apply Hne in Hq as [E _]. congruence. }
    intros T K p0 r HK Hp0 H. rewrite <- HA by lia.
    set (P := fun (x : alt A) (_ : nat) => match x with ASym t _ => t <> i | AEps t e => t = i -> e = ENone | AAcc => True end).
    assert (HP : forall x j, Forall (fun y => P y j) (alts n x)).
    { intros x j. apply Forall_forall. intros y Hy. apply alts_In in Hy as [[-> _]|[(t & a & -> & Hy)|(t & e & -> & Hy)]]; cbn; auto.
      - intros ->. now apply Hno in Hy.
      - intros ->. apply In_nth_error in Hy as [q Hq]. destruct (Hne _ _ _ Hq) as [-> ->]. congruence. }
    apply (sim_same check check T n n1 K K phi P); auto.
    - intros j r' _ Hk. apply ev_one. now apply e_acc.
    - intros t a j _ Hc. apply ev_one. now apply e_sym_no.
    - intros t a j c r' Hti Hc _ Hev. apply ev_one. apply e_sym; [assumption|]. now rewrite <- HA.
    - intros t e j Hte Hoff. cbn. destruct (Nat.eqb_spec t i) as [->|]; [cbn in Hte; rewrite (Hte eq_refl) in Hoff; discriminate|].
      apply ev_one. now apply e_eps_no.
    - intros t e j r' Hte Hon _ Hev. cbn. destruct (Nat.eqb_spec t i) as [->|Hti].
      + cbn in Hte. rewrite (Hte eq_refl). rewrite pre_nil. rewrite alts_edges in Hev by lia. unfold edges in Hev. rewrite Ht in Hev. cbn [map app] in Hev.
        rewrite Hid in Hev; [assumption|]. intros q k Hq. apply Hne in Hq as [E _]. congruence.
      + apply ev_one. apply e_eps; [assumption|]. now rewrite <- HA.
  Qed.

  Lemma step_keeps n0 n dead ch i n1 dead1 ch1 : goods good n0 -> oinv check n0 (n, dead, ch) -> In i (seq 1 (length n0 - 2)) ->
    optimize_step eqA (n, dead, ch) i = Ok (n1, dead1, ch1) -> keeps check n n1.
  Proof using eqA_sound.
    intros Hgd Hinv Hi. apply in_seq in Hi.
    assert (Hlen := st_len _ _ _ (oi_stp _ _ _ Hinv)). assert (Hok := st_ok _ _ _ (oi_stp _ _ _ Hinv)). cbn in Hlen, Hok.
    cbv beta iota zeta delta [optimize_step].
    destruct (find _ (seq 0 (length n - 1))) as [j|] eqn:Ej.
    - apply find_some in Ej as [Hj E]. apply in_seq in Hj. rewrite !andb_true_iff, !negb_true_iff in E.
      destruct E as [[E1 E2] E3]. apply Nat.eqb_neq in E2. intros E. assert (En1 : n1 = map (map_targets (retarget i j)) (upd i empty_state n)) by congruence.
      rewrite En1. apply merge_keeps; auto; try lia. exact (st_syms _ _ _ (oi_stp _ _ _ Hinv) good Hgd).
    - clear Ej. destruct (dedupe n) as [m dch] eqn:Edd. assert (Em : m = fst (dedupe n)) by now rewrite Edd.
      assert (K1 := dedupe_keeps n Hok). assert (S1 := dedupe_stp check n Hok). rewrite <- Em in K1, S1.
      assert (Hlm := st_len _ _ _ S1). assert (Hom := st_ok _ _ _ S1).
      intros E. eapply keeps_trans; [exact K1|]. clear K1 S1 Em Edd.
      assert (Hsame : forall ch', Ok (m, dead, ch') = Ok (n1, dead1, ch1) -> keeps check m n1).
      { intros ch' E'. assert (n1 = m) as -> by congruence. apply keeps_refl. }
      destruct (trans (get m i)) as [|tr0 trr] eqn:Et.
      2:{ destruct (has_incoming m i); [now apply Hsame in E|]. destruct (incoming_eps m i) as [|[s e] [|]]; now apply Hsame in E. }
      assert (Hother :
        match has_incoming m i, incoming_eps m i, @nil (nat * A) with
        | false, [(s, e)], [] =>
            match nth_error (eps (get m s)) e with
            | Some (_, ENone) =>
                if s =? i then Panic
                else Ok (modify s (fun st => mkState (trans st) (firstn e (eps st) ++ eps (get m i) ++ skipn (S e) (eps st)))
                           (upd i (mkState [] []) m), upd i true dead, true)
            | _ => Ok (m, dead, ch || dch)
            end
        | _, _, _ => Ok (m, dead, ch || dch)
        end = Ok (n1, dead1, ch1) -> keeps check m n1).
      { clear E. intros E. destruct (has_incoming m i) eqn:Einc; [now apply Hsame in E|].
        destruct (incoming_eps m i) as [|[s e] [|]] eqn:Ein; try now apply Hsame in E.
        destruct (nth_error (eps (get m s)) e) as [[t k]|] eqn:En; [|now apply Hsame in E].
        destruct k; try now apply Hsame in E.
        assert (t = i) as ->.
        { assert (H : In (s, e) (incoming_eps m i)) by (rewrite Ein; now left). apply incoming_In in H as (k & H). congruence. }
        destruct (Nat.eqb_spec s i) as [|Hne]; [discriminate|].
        assert (En1 : n1 = modify s (splice e (eps (get m i))) (upd i (mkState (trans (get m i)) []) m)) by (rewrite Et; unfold splice; congruence).
        rewrite En1. apply splice_keeps; auto. lia. }
      destruct (eps (get m i)) as [|[to k] [|]] eqn:Ee; [now apply Hother| |destruct k; now apply Hother].
      destruct k; [|now apply Hother..].
      assert (En1 : n1 = upd i empty_state (map (map_targets (retarget i to)) m)) by congruence. rewrite En1.
      apply skip_keeps; auto; [lia|]. destruct (get m i); cbn in *; congruence.
  Qed.
  Lemma steps_keep n0 is : forall n dead ch n1 dead1 ch1, goods good n0 -> oinv check n0 (n, dead, ch) -> incl is (seq 1 (length n0 - 2)) ->
    foldM (optimize_step eqA) is (n, dead, ch) = Ok (n1, dead1, ch1) -> keeps check n n1.
  Proof using eqA_sound.
    induction is as [|i is IH]; intros n dead ch n1 dead1 ch1 Hgd Hinv Hin E; cbn [foldM] in E.
    - assert (n1 = n) as -> by congruence. apply keeps_refl.
    - assert (Hi : In i (seq 1 (length n0 - 2))) by (apply Hin; now left).
      destruct (step_spec check eqA good eqA_sound n0 (n, dead, ch) i Hgd Hinv Hi) as ([[n2 dead2] ch2] & E2 & Hinv2).
      rewrite E2 in E. cbn [bind] in E. eapply keeps_trans; [eapply step_keeps; eauto|]. eapply IH; eauto. intros x Hx. apply Hin. now right.
  Qed.
  Lemma pass_keeps n n' ch : goods good n -> ok n -> 2 <= length n -> optimize_pass eqA n = Ok (n', ch) -> keeps check n n'.
  Proof using eqA_sound.
    intros Hgd Hok Hl. unfold optimize_pass. destruct (Nat.leb_spec 2 (length n)); [|lia]. cbn [guard bind].
    assert (Hinv0 : oinv check n (n, repeat false (length n), false)).
    { assert (Hr : forall d, d < length n -> live (repeat false (length n)) d).
      { intros d Hd. unfold live. rewrite (nth_indep _ _ false) by now rewrite repeat_length. apply nth_repeat_false. }
      split; cbn.
      + now apply stp_refl.
      + apply repeat_length.
      + apply Hr. lia.
      + apply Hr. lia.
      + intros d Hd Hn. destruct Hn. auto.
      + rewrite lsz_none. lia. }
    destruct (foldM_inv (optimize_step eqA) (oinv check n) (seq 1 (length n - 2)) (n, repeat false (length n), false)) as (acc & E & Hinv); [assumption| |].
    { intros b a Hb Ha. now apply (step_spec check eqA good eqA_sound). }
    rewrite E. cbn [bind]. destruct acc as [[m dead] chm].
    assert (K1 : keeps check n m) by (eapply steps_keep; eauto; apply incl_refl).
    destruct Hinv as [H1 H2 H3 H4 H5 H6]. cbn in *. destruct H1 as [L1 O1 G1 I1 S1 M1]. destruct chm; intros E'.
    - assert (n' = remove_dead_states dead m) as -> by congruence. eapply keeps_trans; [exact K1|].
      assert (Hd : length dead = length m) by lia. apply rd_keeps; auto; [|now rewrite L1].
      intros s t _. split; intros e He; (destruct (live_dec dead t) as [|Hd']; [assumption|exfalso]).
      + apply H5 in Hd'; [|rewrite <- L1; eapply wf_eps; [apply O1|exact He]]. destruct Hd' as [_ Hd']. now apply Hd' in He.
      + apply H5 in Hd'; [|rewrite <- L1; eapply wf_trans; [apply O1|exact He]]. destruct Hd' as [_ Hd']. destruct (Hd' s ENone) as [_ Hd'']. now apply Hd'' in He.
    - assert (n' = m) as -> by congruence. assumption.
  Qed.
  Lemma optimize_keeps fuel : forall n n', goods good n -> ok n -> 2 <= length n -> optimize eqA fuel n = Ok n' -> keeps check n n'.
  Proof using eqA_sound.
    induction fuel as [|f IH]; intros n n' Hgd Hok Hl E; [discriminate|]. cbn [optimize] in E.
    assert (Hw : wfb n = true) by (apply wfb_iff; apply Hok). rewrite Hw in E. cbn [guard bind] in E.
    destruct (pass_spec check eqA good eqA_sound n Hgd Hok Hl) as (m & ch & Ep & O1 & L1 & G1 & S1 & M1 & Z1). rewrite Ep in E. cbn [bind] in E.
    assert (K1 := pass_keeps n m ch Hgd Hok Hl Ep). destruct ch.
    - eapply keeps_trans; [exact K1|]. eapply IH; eauto. exact (S1 good Hgd).
    - assert (n' = m) as -> by congruence. assumption.
  Qed.
  Lemma finalize_keeps n n' : goods good n -> ok n -> 2 <= length n -> finalize eqA n = Ok n' -> n' <> [] -> keeps check n n'.
  Proof using eqA_sound.
    intros Hgd Hok Hl. unfold finalize. rewrite wfb_guard by (try apply Hok; lia). cbn [guard bind].
    destruct (zero_spec check n) as (n1 & E1 & T1 & V1); [apply Hok|lia|]. rewrite E1. cbn [bind].
    assert (O1 : ok n1) by (eapply thin_ok; eauto). assert (L1 : 2 <= length n1) by (rewrite (proj1 T1); lia).
    destruct (optimize_spec check eqA good eqA_sound (S (nfa_size n1)) n1 (thin_syms _ _ _ T1 Hgd) O1 L1) as (n2 & E2 & O2 & L2 & G2 & S2 & M2); [lia|].
    rewrite E2. cbn [bind]. rewrite wfb_guard by (try apply O2; lia). cbn [guard bind]. intros E3 Hne.
    eapply keeps_trans; [eapply zero_keeps; [apply Hok| |exact E1]; lia|].
    eapply keeps_trans; [eapply optimize_keeps; [exact (thin_syms _ _ _ T1 Hgd)|exact O1|exact L1|exact E2]|].
    destruct (remove_unreachable_spec n2) as (n3 & E4 & C3 & _); [apply O2|lia|].
    destruct (conn_dec n2) as [Hc|Hc]; [apply O2|lia| |].
    - eapply unreachable_keeps; eauto; [apply O2|lia].
    - exfalso. apply Hne. specialize (C3 Hc). congruence.
  Qed.
End Opt.
