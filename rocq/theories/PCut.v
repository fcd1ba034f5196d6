(** Cutting off text around a match of an anchor-free pattern. *)
From Verif Require Import PPrioSpec PPrioOne PLaws PLazyAll PLiteral PFree SpecCut.
From Coq Require Import ZifyBool ZifyNat ZifyN.
Open Scope nat_scope.
Open Scope list_scope.

Lemma flat_map_ext_in {X Y} (f g : X -> list Y) l : (forall x, In x l -> f x = g x) -> flat_map f l = flat_map g l.
Proof. intros H. induction l as [|x l IH]; [reflexivity|]. cbn. rewrite H by now left. f_equal. apply IH. intros; apply H; now right. Qed.
Section Cut.
  Variables U M V : list N.
  Notation W := (U ++ M ++ V).
  Notation d := (length U).
  Hypothesis HW : Forall scalar W.
  Variable has : atom -> N -> bool.
  Hypothesis Hhas : forall a c, has a c = true <-> atom_has a c.

  Definition sh_log (L : list (nat * (nat * nat))) : list (nat * (nat * nat)) := map (fun x => (fst x, (d + fst (snd x), d + snd (snd x)))) L.
  Definition sh (q : nat * list (nat * (nat * nat))) : nat * list (nat * (nat * nat)) := (d + fst q, sh_log (snd q)).
  Definition keep (q : nat * list (nat * (nat * nat))) : bool := fst q <=? d + length M.
  Notation wy := (ways (nat * (nat * nat))).
  Definition cut (w' w : nat -> wy) : Prop := forall p, p <= length M -> map sh (w' p) = filter keep (w (d + p)).
  Definition good (w : nat -> wy) : Prop := forall x q, x <= length W -> In q (w x) -> x <= fst q <= length W.
  Definition grow (w : nat -> wy) : Prop := forall x q, x <= length W -> In q (w x) -> x < fst q.
  Lemma cut_bound w' w p q : cut w' w -> p <= length M -> In q (w' p) -> fst q <= length M.
  Proof using.
    intros H Hp Hq. assert (X : In (sh q) (filter keep (w (d + p)))) by (rewrite <- (H p Hp); now apply in_map). apply filter_In in X as [_ X]. apply Nat.leb_le in X. cbn in X. lia.
  Qed.
  Lemma len_W : length W = d + (length M + length V).
  Proof using. now rewrite !app_length. Qed.
  Lemma cut_then l' l f' f : map sh l' = filter keep l -> (forall q, In q l' -> fst q <= length M) -> (forall q, In q l -> fst q <= length W) -> cut f' f -> good f ->
    map sh (then_ l' f') = filter keep (then_ l f).
  Proof using.
    intros Hl Hl' Hlw Hf Hg.
    assert (A : filter keep (then_ l f) = then_ (filter keep l) (fun y => filter keep (f y))).
    { clear Hl Hl' Hf l' f'. induction l as [|p l IH]; [reflexivity|]. cbn [filter then_ flat_map]. rewrite filter_app. fold (then_ l f). rewrite IH by (intros; apply Hlw; now right).
      assert (K : filter keep (map (fun q => (fst q, snd p ++ snd q)) (f (fst p))) = map (fun q => (fst q, snd p ++ snd q)) (filter keep (f (fst p)))).
      { generalize (f (fst p)). intros m. induction m as [|q m IHm]; [reflexivity|]. cbn [map filter]. rewrite IHm. change (keep (fst q, snd p ++ snd q)) with (keep q). destruct (keep q); reflexivity. }
      destruct (keep p) eqn:Ek.
      - cbn [then_ flat_map]. f_equal. exact K.
      - rewrite K. assert (E : filter keep (f (fst p)) = []).
        { assert (X := fun q => Hg (fst p) q (Hlw p (or_introl eq_refl))). revert X. generalize (f (fst p)). intros m X. induction m as [|q m IHm]; [reflexivity|]. cbn [filter].
          assert (Y := X q (or_introl eq_refl)). replace (keep q) with false; [apply IHm; intros; apply X; now right|]. symmetry. apply Nat.leb_gt. apply Nat.leb_gt in Ek. lia. }
        rewrite E. reflexivity. }
    rewrite A, <- Hl. clear A Hl Hlw Hg l. induction l' as [|p l IH]; [reflexivity|]. cbn [map then_ flat_map]. rewrite map_app. f_equal; [|apply IH; intros; apply Hl'; now right].
    change (fst (sh p)) with (d + fst p). rewrite <- (Hf (fst p)) by (apply Hl'; now left). rewrite !map_map. apply map_ext. intros q. unfold sh, sh_log. cbn [fst snd]. now rewrite map_app.
  Qed.
  Lemma good_then l f x : (forall q, In q l -> x <= fst q <= length W) -> good f -> forall q, In q (then_ l f) -> x <= fst q <= length W.
  Proof using. intros Hl Hf [j u] Hq. apply then_In in Hq as (k & v & v' & H1 & H2 & ->). apply Hl in H1. apply Hf in H2; cbn [fst] in *; lia. Qed.
  Lemma good_times w n : good w -> good (times w n).
  Proof using. intros Hw. induction n as [|n IH]; intros x q Hx Hq; cbn [times] in Hq; [destruct Hq as [<-|[]]; cbn; lia|]. eapply good_then; eauto. Qed.
  Lemma good_up_to w b n : good w -> good (up_to w b n).
  Proof using.
    intros Hw. induction n as [|n IH]; intros x [j u] Hx Hq; [destruct Hq as [E|[]]; injection E as <- <-; cbn; lia|]. apply up_to_In in Hq as [E|Hq]; [injection E as -> ->; cbn; lia|]. apply (good_then (w x) (up_to w b n) x (fun q H => Hw x q Hx H) IH _ Hq).
  Qed.
  Lemma cut_nil : cut (fun p => [(p, [])]) (fun x => [(x, [])]).
  Proof using. intros p Hp. cbn [map filter]. unfold keep. cbn [fst]. replace (d + p <=? d + length M) with true by (symmetry; apply Nat.leb_le; lia). reflexivity. Qed.
  Lemma cut_then_at w' w f' f p : cut w' w -> good w -> cut f' f -> good f -> p <= length M -> map sh (then_ (w' p) f') = filter keep (then_ (w (d + p)) f).
  Proof using.
    intros H1 H2 H3 H4 Hp. apply cut_then; auto; [intros q; now apply (cut_bound w' w)|]. intros q Hq. apply H2 in Hq; [lia|]. rewrite len_W. lia.
  Qed.
  Lemma cut_times w' w n : cut w' w -> good w -> cut (times w' n) (times w n).
  Proof using. intros H1 H2. induction n as [|n IH]; [exact cut_nil|]. intros p Hp. cbn [times]. apply cut_then_at; auto. now apply good_times. Qed.
  Lemma cut_up_to w' w b n : cut w' w -> good w -> cut (up_to w' b n) (up_to w b n).
  Proof using.
    intros H1 H2. induction n as [|n IH]; [exact cut_nil|]. intros p Hp. cbn [up_to]. cbv zeta. assert (X := cut_then_at w' w _ _ p H1 H2 IH (good_up_to w b n H2) Hp). assert (Y := cut_nil p Hp).
    destruct b.
    - change ((p, []) :: ?l) with ([(p, @nil (nat * (nat * nat)))] ++ then_ (w' p) (up_to w' true n)). change ((d + p, []) :: ?l) with ([(d + p, @nil (nat * (nat * nat)))] ++ then_ (w (d + p)) (up_to w true n)). rewrite map_app, filter_app. congruence.
    - rewrite map_app, filter_app. congruence.
  Qed.
  (** A loop whose body reads may take different numbers of rounds at most, if they are enough. *)
  Lemma cut_loop w' w b : cut w' w -> good w -> grow w -> forall n n' p, p <= length M -> length W - (d + p) <= n -> length M - p <= n' ->
    map sh (up_to w' b n' p) = filter keep (up_to w b n (d + p)).
  Proof using.
    intros H1 H2 H3. induction n as [|n IH]; intros n' p Hp Hn Hn'.
    - assert (Ep : p = length M) by (rewrite len_W in Hn; lia). cbn [up_to]. assert (Y := cut_nil p Hp). destruct n' as [|n']; [exact Y|]. cbn [up_to]. cbv zeta.
      assert (E : w' p = []).
      { assert (Z := H1 p Hp). assert (G : forall q, In q (w (d + p)) -> keep q = false) by (intros q Hq; apply H3 in Hq; [|rewrite len_W; lia]; apply Nat.leb_gt; lia).
        destruct (w' p) as [|q l]; [reflexivity|]. exfalso. assert (X : In (sh q) (filter keep (w (d + p)))) by (rewrite <- Z; now left). apply filter_In in X as [X1 X2]. rewrite (G _ X1) in X2. discriminate. }
      rewrite E. destruct b; exact Y.
    - assert (Y := cut_nil p Hp). destruct n' as [|n'].
      + assert (Ep : p = length M) by lia. cbn [up_to]. cbv zeta.
        assert (X : filter keep (then_ (w (d + p)) (up_to w b n)) = []).
        { assert (G : forall q, In q (then_ (w (d + p)) (up_to w b n)) -> keep q = false).
          { intros [j u] Hq. apply then_In in Hq as (k & v & v' & Q1 & Q2 & ->). assert (HX : d + p <= length W) by (rewrite len_W; lia). assert (R := H2 _ _ HX Q1). apply H3 in Q1; [|rewrite len_W; lia]. cbn [fst] in *. apply (good_up_to w b n H2) in Q2; [|lia]. apply Nat.leb_gt. cbn [fst] in *. lia. }
          revert G. generalize (then_ (w (d + p)) (up_to w b n)). intros l G. induction l as [|q l IHl]; [reflexivity|]. cbn [filter]. rewrite (G q (or_introl eq_refl)). apply IHl. intros; apply G; now right. }
        destruct b; [change ((d + p, []) :: ?l) with ([(d + p, @nil (nat * (nat * nat)))] ++ then_ (w (d + p)) (up_to w true n))|]; rewrite filter_app, X; [rewrite app_nil_r|]; exact Y.
      + cbn [up_to]. cbv zeta. assert (X : map sh (then_ (w' p) (up_to w' b n')) = filter keep (then_ (w (d + p)) (up_to w b n))).
        { (* only what lies ahead counts *)
          transitivity (filter keep (then_ (w (d + p)) (fun y => if y <=? d + p then [] else up_to w b n y))).
          - rewrite <- (cut_then (w' p) (w (d + p)) (fun y => if y <=? p then [] else up_to w' b n' y) (fun y => if y <=? d + p then [] else up_to w b n y)).
            + f_equal. unfold then_. apply flat_map_ext_in. intros q Hq. assert (Z : p < fst q).
              { assert (X : In (sh q) (filter keep (w (d + p)))) by (rewrite <- (H1 p Hp); now apply in_map). apply filter_In in X as [X _]. apply H3 in X; [|rewrite len_W; lia]. cbn in X. lia. }
              replace (fst q <=? p) with false by (symmetry; apply Nat.leb_gt; lia). reflexivity.
            + now apply H1.
            + intros q; now apply (cut_bound w' w).
            + intros q Hq. apply H2 in Hq; [lia|]. rewrite len_W. lia.
            + intros y Hy. replace (d + y <=? d + p) with (y <=? p) by (destruct (Nat.leb_spec y p), (Nat.leb_spec (d + y) (d + p)); lia). destruct (Nat.leb_spec y p); [reflexivity|]. apply IH; lia.
            + intros y q Hy Hq. destruct (y <=? d + p); [destruct Hq|]. now apply (good_up_to w b n H2).
          - f_equal. unfold then_. apply flat_map_ext_in. intros q Hq. apply H3 in Hq; [|rewrite len_W; lia]. replace (fst q <=? d + p) with false by (symmetry; apply Nat.leb_gt; lia). reflexivity. }
        destruct b.
        * change ((p, []) :: ?l) with ([(p, @nil (nat * (nat * nat)))] ++ then_ (w' p) (up_to w' true n')). change ((d + p, []) :: ?l) with ([(d + p, @nil (nat * (nat * nat)))] ++ then_ (w (d + p)) (up_to w true n)). rewrite map_app, filter_app. congruence.
        * rewrite map_app, filter_app. congruence.
  Qed.
  Lemma cut_quant w' w q : cut w' w -> good w -> (unbounded (q_type q) = true -> grow w) -> cut (quant_ways M w' q) (quant_ways W w q).
  Proof using.
    intros H1 H2 H3. assert (L : unbounded (q_type q) = true -> cut (up_to w' (q_alt q) (length M)) (up_to w (q_alt q) (length W))) by (intros Hq p Hp; apply cut_loop; auto; lia).
    intros p Hp. unfold quant_ways. destruct (q_type q) as [ | | |k|k [m|]].
    - now apply L.
    - apply cut_then_at; auto. now apply good_up_to.
    - now apply cut_up_to.
    - now apply cut_times.
    - destruct (m <? k)%N; [reflexivity|]. apply cut_then_at; auto using cut_times, good_times, cut_up_to, good_up_to.
    - apply cut_then_at; auto using cut_times, good_times, good_up_to.
  Qed.
  Lemma ways_good :
    (forall p g, loops_part p = true -> good (w_part has W p g)) /\ (forall e g, loops_expr e = true -> good (w_expr has W e g)) /\
    (forall b g, forallb loops_part b = true -> good (w_branch has W b g)) /\ (forall e g, loops_read e = true -> good (w_alts has W e g)).
  Proof using HW Hhas.
    destruct (ways_exact W HW has Hhas) as (X1 & X2 & X3 & X4). destruct (m_range W) as (R1 & _ & R2 & R4 & R3).
    split; [|split; [|split]]; intros p g H x [j L] Hx Hq; cbn [fst].
    - eapply R1. eapply X1; eauto.
    - eapply R2. eapply X2; eauto.
    - eapply R3. eapply X3; eauto.
    - eapply R4. eapply X4; eauto.
  Qed.
  Lemma ways_cut :
    (forall p g, loops_part p = true -> free_part p = true -> cut (w_part has M p g) (w_part has W p g)) /\
    (forall e g, loops_expr e = true -> free_expr e = true -> cut (w_expr has M e g) (w_expr has W e g)) /\
    (forall b g, forallb loops_part b = true -> forallb free_part b = true -> cut (w_branch has M b g) (w_branch has W b g)) /\
    (forall e g, loops_read e = true -> anchor_free e = true -> cut (w_alts has M e g) (w_alts has W e g)).
  Proof using HW Hhas.
    apply syntax_ind.
    - intros e IH g H F. exact (IH g H F).
    - intros e q IH g H F. cbn [loops_part] in H. apply andb_true_iff in H as [H1 H2]. change (cut (quant_ways M (w_expr has M e g) q) (quant_ways W (w_expr has W e g) q)). apply cut_quant; [now apply IH|now apply ways_good|].
      intros Hq x [j L] Hx Hi. rewrite Hq in H1. cbn [negb orb] in H1. eapply m_grows; [exact HW|exact H1|]. eapply (ways_exact W HW has Hhas); eauto.
    - intros g _ F. discriminate.
    - intros g _ F. discriminate.
    - intros a g _ _ p Hp. cbn [w_expr]. assert (E : nth_error M p = nth_error W (d + p) \/ p = length M).
      { destruct (Nat.eq_dec p (length M)); [now right|left]. rewrite nth_error_app2 by lia. replace (d + p - d) with p by lia. rewrite nth_error_app1 by lia. reflexivity. }
      destruct E as [E|E].
      + rewrite <- E. destruct (nth_error M p) as [c|] eqn:Ec; [|reflexivity]. assert (Hl : p < length M) by (apply nth_error_Some; congruence). destruct (has a c); [|reflexivity]. cbn [map filter]. unfold keep. cbn [fst].
        replace (S (d + p) <=? d + length M) with true by (symmetry; apply Nat.leb_le; lia). unfold sh. cbn [fst snd sh_log map]. now rewrite Nat.add_succ_r.
      + assert (N : nth_error M p = None) by (apply nth_error_None; lia). rewrite N. cbn [map]. destruct (nth_error W (d + p)) as [c|]; [|reflexivity]. destruct (has a c); [|reflexivity]. cbn [filter]. unfold keep. cbn [fst].
        replace (S (d + p) <=? d + length M) with false by (symmetry; apply Nat.leb_gt; lia). reflexivity.
    - intros bs IH g H F p Hp. rewrite !w_expr_sub. assert (X := IH (S g) H F p Hp). rewrite map_map. revert X. generalize (w_alts has M bs (S g) p) (w_alts has W bs (S g) (d + p)). intros l' l X.
      transitivity (map (fun q => (fst q, snd q ++ [(g, (d + p, fst q))])) (filter keep l)).
      + rewrite <- X, map_map. apply map_ext. intros q. unfold sh, sh_log. cbn [fst snd]. now rewrite map_app.
      + clear. induction l as [|q l IH]; [reflexivity|]. cbn [map filter]. change (keep (fst q, snd q ++ [(g, (length U + p, fst q))])) with (keep q). destruct (keep q); cbn [map]; now rewrite IH.
    - intros g _ _. exact cut_nil.
    - intros p b IHp IHb g H F. cbn [forallb] in H, F. apply andb_true_iff in H as [H1 H2]. apply andb_true_iff in F as [F1 F2]. intros x Hx. cbn [w_branch]. apply cut_then_at; [now apply IHp|now apply ways_good|now apply IHb|now apply ways_good|assumption].
    - intros g _ _ x Hx. reflexivity.
    - intros b e IHb IHe g H F. unfold loops_read, anchor_free in *. cbn [forallb] in H, F. apply andb_true_iff in H as [H1 H2]. apply andb_true_iff in F as [F1 F2]. intros x Hx. cbn [w_alts]. rewrite map_app, filter_app. f_equal; [now apply IHb|now apply IHe].
  Qed.
End Cut.

(** * Positions *)
Lemma hd_flat_map {X} (f : nat -> list X) x n : forall a, hd_error (flat_map f (seq a n)) = Some x <-> exists i, a <= i < a + n /\ hd_error (f i) = Some x /\ forall k, a <= k < i -> f k = [].
Proof.
  induction n as [|n IH]; intros a; cbn [seq flat_map].
  - split; [discriminate|intros (i & Hi & _); lia].
  - destruct (f a) as [|y l] eqn:E.
    + cbn [app]. rewrite IH. split; intros (i & Hi & H1 & H2).
      * exists i. split; [lia|]. split; [assumption|]. intros k Hk. destruct (Nat.eq_dec k a) as [->|]; [assumption|]. apply H2. lia.
      * exists i. split; [|split; [assumption|intros k Hk; apply H2; lia]]. destruct (Nat.eq_dec i a) as [->|]; [rewrite E in H1; discriminate|lia].
    + cbn [app hd_error]. split.
      * intros H. exists a. split; [lia|]. split; [now rewrite E|intros k Hk; lia].
      * intros (i & Hi & H1 & H2). destruct (Nat.eq_dec i a) as [->|]; [now rewrite E in H1|]. rewrite (H2 a) in E by lia. discriminate.
Qed.
Lemma byte_pos_in U M V x : x <= length M -> byte_pos (U ++ M ++ V) (length U + x) = bytes_of U + byte_pos M x.
Proof.
  intros H. unfold byte_pos, bytes_of. rewrite firstn_app_2, map_app, list_sum_app. f_equal. rewrite firstn_app. replace (x - length M) with 0 by lia. now rewrite app_nil_r.
Qed.
Lemma byte_at_U U M V : byte_pos (U ++ M ++ V) (length U) = bytes_of U.
Proof. rewrite <- (Nat.add_0_r (length U)), byte_pos_in by lia. unfold byte_pos. cbn. lia. Qed.
Lemma byte_at_M U M V : byte_pos (U ++ M ++ V) (length U + length M) = bytes_of (U ++ M).
Proof. rewrite byte_pos_in by lia. unfold byte_pos, bytes_of. rewrite firstn_all, map_app, list_sum_app. reflexivity. Qed.
Lemma last_of_sh U k L : last_of k (sh_log U L) = option_map (fun s => (length U + fst s, length U + snd s)) (last_of k L).
Proof.
  induction L as [|[g [x y]] L IH]; [reflexivity|]. cbn [sh_log map last_of fst snd]. change (map _ L) with (sh_log U L). rewrite IH. destruct (last_of k L); [reflexivity|]. cbn [option_map]. destruct (g =? k); reflexivity.
Qed.

(** * Engines *)
Lemma best_cut U M V e has i j L : Forall scalar (U ++ M ++ V) -> (forall a c, has a c = true <-> atom_has a c) -> anchor_free e = true -> loops_read e = true ->
  hd_error (all_matches has (U ++ M ++ V) e) = Some (i, j, L) -> length U <= i -> j <= length U + length M ->
  exists i' j' L', hd_error (all_matches has M e) = Some (i', j', L') /\ L = sh_log U L' /\ i = length U + i' /\ j = length U + j'.
Proof.
  intros HW Hh Hf Hl H Hi Hj. assert (C := proj2 (proj2 (proj2 (ways_cut U M V HW has Hh))) e 1 Hl Hf). assert (G := proj2 (proj2 (proj2 (ways_good U M V HW has Hh))) e 1 Hl).
  unfold all_matches in H. apply hd_flat_map in H as (i0 & Hi0 & H1 & H2).
  destruct (w_alts has (U ++ M ++ V) e 1 i0) as [|[j0 L0] l] eqn:E; [discriminate|]. cbn in H1. injection H1 as -> -> <-.
  assert (R : i <= j) by (specialize (G i (j, L0)); cbn [fst] in G; apply G; [lia|rewrite E; now left]).
  assert (Ci := C (i - length U) ltac:(lia)). replace (length U + (i - length U)) with i in Ci by lia. rewrite E in Ci. cbn [filter] in Ci. unfold keep at 1 in Ci. cbn [fst] in Ci.
  replace (j <=? length U + length M) with true in Ci by (symmetry; apply Nat.leb_le; lia).
  destruct (w_alts has M e 1 (i - length U)) as [|[j' L'] l'] eqn:E'; [discriminate|]. cbn [map] in Ci. injection Ci as Cj CL _. cbn [sh fst snd] in Cj, CL.
  exists (i - length U), j', (L' ++ [(0, (i - length U, j'))]). split; [|split; [|split; [lia|symmetry; exact Cj]]].
  - unfold all_matches. apply hd_flat_map. exists (i - length U). split; [lia|]. split; [now rewrite E'|]. intros k Hk. assert (Ck := C k ltac:(lia)).
    assert (Z := H2 (length U + k) ltac:(lia)). apply map_eq_nil in Z. rewrite Z in Ck. cbn [filter] in Ck. apply map_eq_nil in Ck. now rewrite Ck.
  - unfold sh_log in *. rewrite map_app. cbn [map fst snd]. rewrite CL. replace (length U + (i - length U)) with i by lia. now rewrite Cj.
Qed.
Lemma exec_cut s e en U M V cs a b : compiled s en -> Forall scalar s -> Forall scalar (U ++ M ++ V) -> G_ere e s -> anchor_free e = true -> loops_read e = true ->
  engine_exec en (U ++ M ++ V) = Ok (Some cs) -> nth_error cs 0 = Some (Some (a, b)) -> bytes_of U <= a -> b <= bytes_of (U ++ M) ->
  exists cs', engine_exec en M = Ok (Some cs') /\ cs = moved (bytes_of U) cs'.
Proof.
  intros H Hs HW Hg Hf Hl He H0 Ha Hb. assert (Ho := free_orderly s e en H Hs Hg Hf). assert (HM : Forall scalar M) by (rewrite !Forall_app in HW; tauto).
  assert (Gr : 1 <= engine_groups en) by (destruct (compiled_unique s en e H Hs Hg); assumption).
  assert (X := exec_best s e en _ atom_check H Hs HW Hg atom_check_iff Hl Ho). rewrite He in X. injection X as X.
  destruct (hd_error (all_matches atom_check (U ++ M ++ V) e)) as [[[i j] L]|] eqn:Eh; [|discriminate]. cbn [answer] in X. injection X as ->.
  assert (Hin : In (i, j, L) (all_matches atom_check (U ++ M ++ V) e)) by (destruct (all_matches atom_check (U ++ M ++ V) e); [discriminate|injection Eh as ->; now left]).
  apply (all_matches_iff _ HW atom_check atom_check_iff e i j L Hl) in Hin. assert (Rg : i <= j <= length (U ++ M ++ V)) by (destruct Hin as (L0 & Hm & _); exact (proj1 (proj2 (proj2 (proj2 (m_range _)))) _ _ _ _ _ Hm)).
  destruct (engine_groups en) as [|g] eqn:Eg; [lia|]. cbn [seq map nth_error] in H0. unfold capture in H0. rewrite (match_zero e _ i j L Hin) in H0. injection H0 as <- <-.
  assert (LW : length (U ++ M ++ V) = length U + (length M + length V)) by now rewrite !app_length.
  assert (Hi : length U <= i). { destruct (le_lt_dec (length U) i) as [|Lt]; [assumption|exfalso]. apply (byte_pos_strict (U ++ M ++ V)) in Lt; [|lia]. rewrite byte_at_U in Lt. lia. }
  assert (Hj : j <= length U + length M). { destruct (le_lt_dec j (length U + length M)) as [|Lt]; [assumption|exfalso]. apply (byte_pos_strict (U ++ M ++ V)) in Lt; [|lia]. rewrite byte_at_M in Lt. lia. }
  destruct (best_cut U M V e atom_check i j L HW atom_check_iff Hf Hl Eh Hi Hj) as (i' & j' & L' & Eh' & EL & _ & _).
  assert (Y := exec_best s e en M atom_check H Hs HM Hg atom_check_iff Hl Ho). rewrite Eh', Eg in Y. cbn [answer] in Y. eexists. split; [exact Y|].
  assert (Hin' : In (i', j', L') (all_matches atom_check M e)) by (destruct (all_matches atom_check M e); [discriminate|injection Eh' as ->; now left]).
  apply (all_matches_iff _ HM atom_check atom_check_iff e i' j' L' Hl) in Hin'. assert (Hlog := match_log_ok M e HM i' j' L' Hin'). unfold log_ok in Hlog. rewrite Forall_forall in Hlog.
  unfold moved. rewrite map_map. apply map_ext. intros k. rewrite EL. unfold capture. rewrite last_of_sh. destruct (last_of k L') as [[x y]|] eqn:Ek; [|reflexivity]. apply last_of_In in Ek. apply Hlog in Ek. cbn [fst snd] in Ek.
  cbn [option_map fst snd]. now rewrite !byte_pos_in by lia.
Qed.
(** The start without any condition on order. *)
Lemma start_cut s e en U M V cs a b : compiled s en -> Forall scalar s -> Forall scalar (U ++ M ++ V) -> G_ere e s -> anchor_free e = true ->
  engine_exec en (U ++ M ++ V) = Ok (Some cs) -> nth_error cs 0 = Some (Some (a, b)) -> bytes_of U <= a -> b <= bytes_of (U ++ M) ->
  engine_test en M = Ok true /\ exists cs' a' b', engine_exec en M = Ok (Some cs') /\ nth_error cs' 0 = Some (Some (a', b')) /\ a = bytes_of U + a'.
Proof.
  intros H Hs HW Hg Hf He H0 Ha Hb. assert (HM : Forall scalar M) by (rewrite !Forall_app in HW; tauto). assert (Hc := caret_ok_free e Hf).
  destruct (compiled_first s e en _ cs H Hs HW Hg (or_intror Hc) He) as (i & j & L & Hm & _ & E0 & Hmin). rewrite E0 in H0. injection H0 as <- <-.
  assert (Rg : i <= j <= length (U ++ M ++ V)) by (destruct Hm as (L0 & Hm & _); exact (proj1 (proj2 (proj2 (proj2 (m_range _)))) _ _ _ _ _ Hm)).
  assert (LW : length (U ++ M ++ V) = length U + (length M + length V)) by now rewrite !app_length.
  assert (Hi : length U <= i). { destruct (le_lt_dec (length U) i) as [|Lt]; [assumption|exfalso]. apply (byte_pos_strict (U ++ M ++ V)) in Lt; [|lia]. rewrite byte_at_U in Lt. lia. }
  assert (Hj : j <= length U + length M). { destruct (le_lt_dec j (length U + length M)) as [|Lt]; [assumption|exfalso]. apply (byte_pos_strict (U ++ M ++ V)) in Lt; [|lia]. rewrite byte_at_M in Lt. lia. }
  assert (Hm' : may M e (i - length U) (j - length U)).
  { apply (may_slice U M V e); [assumption|lia|]. replace (length U + (i - length U)) with i by lia. replace (length U + (j - length U)) with j by lia. now exists L. }
  destruct Hm' as (L' & Hm').
  destruct (compiled_answer s e en M H Hs HM Hg (or_intror Hc)) as (o & Eo & Ho). destruct o as [cs'|]; [|exfalso; apply Ho; now exists (i - length U), (j - length U), L'].
  split.
  - destruct (compiled_right s en H Hs) as (e' & Hg' & _ & Hr). assert (e' = e) as -> by (apply parse_iff in Hg; apply parse_iff in Hg'; congruence). destruct (right_test e en (Hr (or_intror Hc)) M HM) as (t & Et & Ht). rewrite Et. f_equal. now apply Ht.
  - destruct (compiled_first s e en _ cs' H Hs HM Hg (or_intror Hc) Eo) as (i2 & j2 & L2 & Hm2 & _ & E2 & Hmin2). exists cs', (byte_pos M i2), (byte_pos M j2). split; [assumption|]. split; [assumption|].
    assert (R2 : i2 <= j2 <= length M) by (destruct Hm2 as (L0 & Hm2 & _); exact (proj1 (proj2 (proj2 (proj2 (m_range _)))) _ _ _ _ _ Hm2)).
    assert (A : i2 <= i - length U) by (eapply Hmin2; eauto). assert (B : may (U ++ M ++ V) e (length U + i2) (length U + j2)) by (apply (may_slice U M V e); auto; now exists L2).
    destruct B as (L3 & Hm3). apply Hmin in Hm3. assert (i = length U + i2) as -> by lia. now rewrite byte_pos_in by lia.
Qed.
