(** The preferred run of the automaton built from a tree follows the ways of the tree in order. *)
From Verif Require Export PPrio SpecPriority.
From Coq Require Import ZifyBool ZifyNat ZifyN.
Open Scope nat_scope.
Open Scope list_scope.
Set Default Proof Using "Type".

(** ** The first success over a list of ways *)
Definition fs (l : ways item) (k : nat -> option word) : option word :=
  fold_right (fun p r => orelse (pre (snd p) (k (fst p))) r) None l.
Lemma fs_app l m k : fs (l ++ m) k = orelse (fs l k) (fs m k).
Proof. unfold fs. induction l as [|p l IH]; cbn; [reflexivity|]. now rewrite IH, orelse_assoc. Qed.
Lemma fs_one j u k : fs [(j, u)] k = pre u (k j).
Proof. cbn. apply orelse_none. Qed.
Lemma fs_map_pre u l k : fs (map (fun q => (fst q, u ++ snd q)) l) k = pre u (fs l k).
Proof.
  unfold fs. induction l as [|p l IH]; cbn; [reflexivity|]. rewrite IH, pre_orelse, pre_app. reflexivity.
Qed.
Lemma fs_then l f k : fs (then_ l f) k = fs l (fun j => fs (f j) k).
Proof.
  induction l as [|[j u] l IH]; [reflexivity|]. unfold then_. cbn [flat_map]. rewrite fs_app, fs_map_pre. cbn.
  f_equal. exact IH.
Qed.
Lemma fs_ext l k k' : (forall j u, In (j, u) l -> k j = k' j) -> fs l k = fs l k'.
Proof.
  intros H. unfold fs. induction l as [|[j u] l IH]; cbn; [reflexivity|]. rewrite (H j u) by now left. f_equal.
  apply IH. intros j' u' H'. apply (H j' u'). now right.
Qed.
Lemma then_In {X} (l : ways X) f j u : In (j, u) (then_ l f) <-> exists k v v', In (k, v) l /\ In (j, v') (f k) /\ u = v ++ v'.
Proof.
  unfold then_. rewrite in_flat_map. split.
  - intros ([k v] & H & Hin). apply in_map_iff in Hin as ([j' v'] & E & Hin). cbn in *. injection E as <- <-. eauto 10.
  - intros (k & v & v' & H & Hin & ->). exists (k, v). split; [assumption|]. apply in_map_iff. exists (j, v'). auto.
Qed.
Lemma fs_none l k : fs l k = None -> forall j u, In (j, u) l -> k j = None.
Proof.
  unfold fs. induction l as [|[j u] l IH]; cbn; [intros _ ? ? []|]. intros H j' u' [E|Hin].
  - injection E as <- <-. destruct (k j); [discriminate|reflexivity].
  - apply (IH) with (u := u'); [|assumption]. destruct (pre u (k j)); [discriminate|exact H].
Qed.

Section Ways_tree.
  Variable check : atom -> N -> bool.
  Variable T : list N.

  (** Sequences of ways. *)
  Fixpoint cat_ways {X} (ws : list (nat -> ways X)) (i : nat) : ways X :=
    match ws with [] => [(i, [])] | w :: ws => then_ (w i) (cat_ways ws) end.

  (** ** The ways through a tree *)
  Fixpoint tways (t : tree) (i : nat) : ways item :=
    match t with
    | TEmpty => [(i, [])]
    | TSymbol a => match canb check T i a with Some c => [(S i, [IC c])] | None => [] end
    | TUnion l => flat_map (fun w => w i) (map tways l)
    | TCapture t k => map (fun p => (fst p, IM (ESC k) :: snd p ++ [IM (EEC k)])) (tways t i)
    | TConcat l => cat_ways (map tways l) i
    | TRepeat t n => times (tways t) n i
    | TUpTo t n b => up_to (tways t) (negb b) n i
    | TStar t b => up_to (tways t) (negb b) (length T) i
    | TStart => if i =? 0 then [(i, [IM EStart])] else []
    | TEnd => if i =? length T then [(i, [IM EEnd])] else []
    | TNever => []
    end.

  (** Ways stay in the text. *)
  Definition inr (w : nat -> ways item) : Prop := forall i j u, i <= length T -> In (j, u) (w i) -> i <= j <= length T.
  Definition grows (w : nat -> ways item) : Prop := forall i j u, i <= length T -> In (j, u) (w i) -> i < j.
  Lemma inr_then w f i j u : i <= length T -> inr w -> inr f -> In (j, u) (then_ (w i) f) -> i <= j <= length T.
  Proof.
    intros Hi Hw Hf H. apply then_In in H as (k & v & v' & H1 & H2 & _). apply Hw in H1; [|assumption].
    apply Hf in H2; lia.
  Qed.
  Lemma inr_times w n : inr w -> inr (times w n).
  Proof.
    intros H. induction n as [|n IH]; intros i j u Hi Hin; cbn in Hin.
    - destruct Hin as [E|[]]. injection E as <- <-. lia.
    - eapply (inr_then w (times w n)); eauto.
  Qed.
  Lemma inr_up_to w b n : inr w -> inr (up_to w b n).
  Proof.
    intros H. induction n as [|n IH]; intros i j u Hi Hin; cbn in Hin.
    - destruct Hin as [E|[]]. injection E as <- <-. lia.
    - assert (In (j, u) [(i, [])] \/ In (j, u) (then_ (w i) (up_to w b n))) as [Hj|Hj].
      { destruct b; [destruct Hin as [E|Hin]; [left; now left|now right]|]. apply in_app_iff in Hin. tauto. }
      + destruct Hj as [E|[]]. injection E as <- <-. lia.
      + eapply (inr_then w (up_to w b n)); eauto.
  Qed.
  Lemma inr_cat ws : Forall inr ws -> inr (cat_ways ws).
  Proof.
    intros H. induction H as [|w ws Hw Hws IH]; intros i j u Hi Hin; cbn in Hin.
    - destruct Hin as [E|[]]. injection E as <- <-. lia.
    - eapply (inr_then w (cat_ways ws)); eauto.
  Qed.

  Lemma tways_inr t : inr (tways t).
  Proof.
    induction t as [ |a|l IH|t k IH|l IH|t n IH|t n b IH|t b IH| | | ] using tree_ind'; intros i j u Hi Hin; cbn in Hin.
    - destruct Hin as [E|[]]. injection E as <- <-. lia.
    - destruct (canb check T i a) as [c|] eqn:E; [|destruct Hin]. apply canb_iff in E as [E _].
      destruct Hin as [E'|[]]. injection E' as <- <-. assert (i < length T) by (apply nth_error_Some; congruence). lia.
    - apply in_flat_map in Hin as (w & Hw & Hin). apply in_map_iff in Hw as (t & <- & Ht).
      rewrite Forall_forall in IH. eapply IH; eauto.
    - apply in_map_iff in Hin as ([j' u'] & E & Hin). cbn in E. injection E as <- <-. eapply IH; eauto.
    - eapply (inr_cat (map tways l)); eauto. apply Forall_map. exact IH.
    - eapply inr_times; eauto.
    - eapply inr_up_to; eauto.
    - eapply inr_up_to; eauto.
    - destruct (i =? 0); [|destruct Hin]. destruct Hin as [E|[]]. injection E as <- <-. lia.
    - destruct (i =? length T); [|destruct Hin]. destruct Hin as [E|[]]. injection E as <- <-. lia.
    - destruct Hin.
  Qed.

  (** ** Automata that follow ways *)
  Definition follows (n : nfa atom) (w : nat -> ways item) : Prop :=
    forall (K : nat -> option word -> Prop) k i, i <= length T -> (forall j u, In (j, u) (w i) -> K j (k j)) ->
      ev check T n K (alts n 0) i (fs (w i) k).

  Lemma ev_jump N K t j r : ev check T N K (alts N t) j r -> ev check T N K [AEps t ENone] j r.
  Proof. intros H. apply ev_one. rewrite <- (pre_nil r). apply (e_eps check T N K t ENone); [reflexivity|assumption]. Qed.
  Lemma ev_final N (K : nat -> option word -> Prop) j r : fin N -> K j r -> ev check T N K (alts N (length N - 1)) j r.
  Proof.
    intros Hf H. unfold alts. rewrite Nat.eqb_refl, (proj1 (fin_last _ Hf)). cbn. apply ev_one. now apply e_acc.
  Qed.
  Lemma alts_eps (N : nfa atom) s es : s <> length N - 1 -> get N s = mkState [] es -> alts N s = map (fun e => AEps (fst e) (snd e)) es.
  Proof. intros H E. unfold alts. destruct (Nat.eqb_spec s (length N - 1)); [congruence|]. now rewrite E. Qed.

  Lemma empty_follows : follows nfa_empty (fun i => [(i, [])]).
  Proof. intros K k i Hi HK. rewrite fs_one, pre_nil. apply ev_one. apply e_acc. apply (HK i []). now left. Qed.
  Lemma symbol_follows a : follows (nfa_symbol1 a) (tways (TSymbol a)).
  Proof.
    intros K k i Hi HK. cbn [tways] in *. destruct (canb check T i a) as [c|] eqn:E.
    - rewrite fs_one. apply ev_one. cbn. apply (e_sym check T _ K 1 a i c); [assumption|].
      apply (ev_final (nfa_symbol1 a)); [now exists [mkState [(1, a)] []]|]. apply (HK _ [IC c]). now left.
    - apply ev_one. cbn. now apply e_sym_no.
  Qed.
  Lemma one_eps_follows e : follows [mkState [] [(1, e)]; empty_state]
                                    (fun i => if on T i e then [(i, mark e)] else []).
  Proof.
    intros K k i Hi HK. destruct (on T i e) eqn:E.
    - rewrite fs_one. apply ev_one. cbn. apply (e_eps check T _ K 1 e i); [assumption|].
      apply (ev_final [mkState [] [(1, e)]; empty_state]); [now exists [mkState [] [(1, e)]]|]. apply (HK _ (mark e)). now left.
    - apply ev_one. cbn. now apply e_eps_no.
  Qed.
  Lemma never_follows : follows nfa_never (fun _ => []).
  Proof. intros K k i Hi HK. constructor. Qed.

  Lemma capture_follows n w k : fin n -> wf n -> follows n w -> inr w ->
    follows (nfa_capture n k) (fun i => map (fun p => (fst p, IM (ESC k) :: snd p ++ [IM (EEC k)])) (w i)).
  Proof.
    intros Hf Hw HF HR K kf i Hi HK. destruct (fin_last _ Hf) as [_ Hl1]. rewrite nfa_capture_eq by assumption. set (N := _ ++ _ ++ _).
    assert (HS : sub_at N n 1 [(S (length n), EEC k)]) by now apply (sub_at_seg [_]).
    assert (HN : length N = 2 + length n) by (unfold N; rewrite !app_length, seg_length; cbn; lia).
    assert (HfN : fin N) by (unfold N; rewrite app_assoc; eexists; reflexivity).
    assert (HG : get N 0 = mkState [] [(1, ESC k)]) by reflexivity.
    rewrite (alts_eps N 0 [(1, ESC k)]) by (assumption || lia). cbn [map fst snd].
    set (k' := fun j => pre [IM (EEC k)] (kf j)).
    assert (E : fs (map (fun p => (fst p, IM (ESC k) :: snd p ++ [IM (EEC k)])) (w i)) kf = pre (mark (ESC k)) (fs (w i) k')).
    { clear HK. unfold fs. induction (w i) as [|[j u] l IH]; [reflexivity|]. cbn [map fold_right fst snd]. rewrite IH, pre_orelse.
      change (k' j) with (pre [IM (EEC k)] (kf j)). cbn [mark]. rewrite <- !pre_app. reflexivity. }
    rewrite E. apply ev_one. apply e_eps; [reflexivity|].
    change (alts N 1) with (alts N (1 + 0)). eapply (ev_sub check T N n); eauto; [lia|]. apply HF; [assumption|]. intros j u Hin.
    apply ev_one. cbn [fst snd]. unfold k'. change [IM (EEC k)] with (mark (EEC k)). apply e_eps; [reflexivity|].
    replace (S (length n)) with (length N - 1) by lia. apply ev_final; [assumption|].
    apply (HK j (IM (ESC k) :: u ++ [IM (EEC k)])). apply in_map_iff. exists (j, u). auto.
  Qed.

  Lemma cl_follows ns ws : Forall2 follows ns ws -> Forall fin ns -> Forall wf ns -> Forall inr ws ->
    forall pr (K : nat -> option word -> Prop) k i, let N := pr ++ cl (length pr) ns ++ [empty_state] in
    i <= length T -> (forall j u, In (j, u) (cat_ways ws i) -> K j (k j)) ->
    ev check T N K (alts N (length pr)) i (fs (cat_ways ws i) k).
  Proof.
    induction 1 as [|n w ns ws Hn Hns IH]; intros Hf Hw HR pr K k i; cbv zeta; intros Hi HK.
    - cbn [cl app cat_ways] in *. rewrite fs_one, pre_nil. set (N := pr ++ [empty_state]).
      replace (length pr) with (length N - 1) by (unfold N; rewrite app_length; cbn; lia).
      apply ev_final; [now exists pr|]. apply (HK i []). now left.
    - inv Hf. inv Hw. inv HR. cbn [cl]. cbn [cat_ways] in *.
      destruct (fin_last _ H1) as [_ Hl1].
      set (x := (length pr + length n, ENone)).
      set (N := pr ++ (seg (length pr) n x ++ cl (length pr + length n) ns) ++ [empty_state]).
      assert (EN : N = (pr ++ seg (length pr) n x) ++ cl (length (pr ++ seg (length pr) n x)) ns ++ [empty_state]).
      { unfold N. rewrite app_length, seg_length. now rewrite <- !app_assoc. }
      assert (HS : sub_at N n (length pr) [x]).
      { unfold N. rewrite <- app_assoc. now apply sub_at_seg. }
      assert (HL : length N = length pr + length n + sumlen ns + 1).
      { unfold N. rewrite !app_length, seg_length, cl_length. cbn. lia. }
      rewrite fs_then. rewrite <- (Nat.add_0_r (length pr)). eapply (ev_sub check T N n); eauto; [lia|].
      apply Hn; [assumption|]. intros j u Hin. cbn [map x fst snd]. apply ev_jump.
      assert (HI := IH H2 H4 H6 (pr ++ seg (length pr) n x) K k j). cbv zeta in HI.
      rewrite <- EN, app_length, seg_length in HI. apply HI.
      + assert (i <= j <= length T) by (eapply H5; eauto). lia.
      + intros j' v Hj'. apply (HK j' (u ++ v)). apply then_In. eauto 10.
  Qed.
  Lemma concat_follows ns ws : Forall2 follows ns ws -> Forall fin ns -> Forall wf ns -> Forall inr ws ->
    follows (nfa_concat ns) (cat_ways ws).
  Proof.
    intros H Hf Hw HR K k i Hi HK. rewrite nfa_concat_eq by assumption.
    assert (HC := cl_follows ns ws H Hf Hw HR [mkState [] [(1, ENone)]] K k i). cbv zeta in HC. cbn [length] in HC.
    set (N := _ ++ _ ++ _) in *. assert (HG : get N 0 = mkState [] [(1, ENone)]) by reflexivity.
    assert (HN : length N = 2 + sumlen ns) by (unfold N; rewrite !app_length, cl_length; cbn; lia).
    rewrite (alts_eps N 0 [(1, ENone)]) by (assumption || lia). cbn [map fst snd]. apply ev_jump. now apply HC.
  Qed.

  Lemma ul_follows acc ns ws : Forall2 follows ns ws -> Forall fin ns -> Forall wf ns ->
    forall pr (K : nat -> option word -> Prop) k i, let N := pr ++ ul acc (length pr) ns ++ [empty_state] in
    acc = length pr + sumlen ns ->
    i <= length T -> (forall j u, In (j, u) (flat_map (fun w => w i) ws) -> K j (k j)) ->
    ev check T N K (map (fun e => AEps (fst e) (snd e)) (uh (length pr) ns)) i (fs (flat_map (fun w => w i) ws) k).
  Proof.
    induction 1 as [|n w ns ws Hn Hns IH]; intros Hf Hw pr K k i; cbv zeta; intros Hacc Hi HK.
    - constructor.
    - apply Forall_cons_iff in Hf as [H1 H2]. apply Forall_cons_iff in Hw as [H3 H4]. cbn [ul uh] in *. cbn [flat_map] in *.
      destruct (fin_last _ H1) as [_ Hl1]. rewrite sumlen_cons in Hacc.
      set (x := (acc, ENone)).
      set (N := pr ++ (seg (length pr) n x ++ ul acc (length pr + length n) ns) ++ [empty_state]).
      assert (EN : N = (pr ++ seg (length pr) n x) ++ ul acc (length (pr ++ seg (length pr) n x)) ns ++ [empty_state]).
      { unfold N. rewrite app_length, seg_length. now rewrite <- !app_assoc. }
      assert (HS : sub_at N n (length pr) [x]).
      { unfold N. rewrite <- app_assoc. now apply sub_at_seg. }
      assert (HL : length N = length pr + length n + sumlen ns + 1).
      { unfold N. rewrite !app_length, seg_length, ul_length. cbn. lia. }
      assert (HfN : fin N) by (unfold N; rewrite app_assoc; eexists; reflexivity).
      assert (Eacc : acc = length N - 1) by lia.
      rewrite fs_app. cbn [map fst snd]. constructor.
      + apply ev_one_inv. apply ev_jump. rewrite <- (Nat.add_0_r (length pr)). eapply (ev_sub check T N n); eauto; [lia|].
        apply Hn; [assumption|]. intros j u Hin. cbn [map x fst snd]. apply ev_jump. rewrite Eacc. apply ev_final; [assumption|].
        apply (HK j u). apply in_app_iff. now left.
      + assert (HI := IH H2 H4 (pr ++ seg (length pr) n x) K k i). cbv zeta in HI.
        rewrite <- EN, app_length, seg_length in HI. apply HI; [lia|assumption|].
        intros j u Hj. apply (HK j u). apply in_app_iff. now right.
  Qed.
  Lemma union_follows ns ws : Forall2 follows ns ws -> Forall fin ns -> Forall wf ns ->
    follows (nfa_union ns) (fun i => flat_map (fun w => w i) ws).
  Proof.
    intros H Hf Hw K k i Hi HK. rewrite nfa_union_eq by assumption.
    assert (HC := ul_follows (1 + sumlen ns) ns ws H Hf Hw [mkState [] (uh 1 ns)] K k i). cbv zeta in HC. cbn [length app] in HC.
    set (N := _ :: _ ++ _) in *. assert (HG : get N 0 = mkState [] (uh 1 ns)) by reflexivity.
    assert (HN : length N = 2 + sumlen ns) by (unfold N; cbn; rewrite !app_length, ul_length; cbn; lia).
    rewrite (alts_eps N 0 (uh 1 ns)) by (assumption || lia). now apply HC.
  Qed.

  (** A choice between going on and stopping. *)
  Lemma choice_ev N K (b : bool) x y i r1 r2 : ev check T N K (alts N x) i r1 -> ev check T N K (alts N y) i r2 ->
    ev check T N K (map (fun e => AEps (fst e) (snd e)) (choice b x y)) i (if b then orelse r1 r2 else orelse r2 r1).
  Proof.
    intros H1 H2. apply ev_jump in H1, H2. destruct b; cbn.
    - exact (ev_app _ _ _ _ _ _ _ _ _ H1 H2).
    - exact (ev_app _ _ _ _ _ _ _ _ _ H2 H1).
  Qed.
  Lemma fs_up_to w b n i k : fs (up_to w (negb b) (S n) i) k =
    let more := fs (w i) (fun j => fs (up_to w (negb b) n j) k) in
    if b then orelse more (k i) else orelse (k i) more.
  Proof.
    cbn [up_to]. cbv zeta. destruct b; cbn [negb].
    - rewrite fs_app, fs_one, pre_nil, fs_then. reflexivity.
    - change ((i, []) :: ?l) with ([(i, @nil item)] ++ l). rewrite fs_app, fs_one, pre_nil, fs_then. reflexivity.
  Qed.
  Lemma up_to_In {X} (w : nat -> ways X) b n i j u : In (j, u) (up_to w b (S n) i) <->
    (j, u) = (i, []) \/ In (j, u) (then_ (w i) (up_to w b n)).
  Proof. cbn [up_to]. cbv zeta. destruct b; cbn [In]; [|rewrite in_app_iff; cbn [In]]; intuition congruence. Qed.

  Lemma pl_follows b n w e : fin n -> wf n -> follows n w -> inr w -> forall r pr (K : nat -> option word -> Prop) k i,
    let N := pr ++ pl b n e (length pr) r in
    e = length N - 1 -> i <= length T -> (forall j u, In (j, u) (up_to w (negb b) r i) -> K j (k j)) ->
    ev check T N K (alts N (length pr)) i (fs (up_to w (negb b) r i) k).
  Proof.
    intros Hf Hw HF HR. destruct (fin_last _ Hf) as [Hl1 Hl2].
    induction r as [|r IH]; intros pr K k i; cbv zeta; intros He Hi HK.
    - cbn [pl up_to] in *. rewrite fs_one, pre_nil. set (N := pr ++ [empty_state]).
      replace (length pr) with (length N - 1) by (unfold N; rewrite app_length; cbn; lia).
      apply ev_final; [now exists pr|]. apply (HK i []). now left.
    - cbn [pl] in *. set (s := length pr) in *.
      set (x := (S s + length n, ENone)) in *.
      set (N := pr ++ mkState [] (choice b (S s) e) :: seg (S s) n x ++ pl b n e (S s + length n) r) in *.
      set (pr' := pr ++ mkState [] (choice b (S s) e) :: seg (S s) n x).
      assert (Ek : length pr' = S s + length n).
      { unfold pr'. rewrite app_length. cbn. rewrite seg_length. fold s. lia. }
      assert (EN : N = pr' ++ pl b n e (length pr') r).
      { unfold N. rewrite Ek. unfold pr'. rewrite <- app_assoc. reflexivity. }
      assert (HS : sub_at N n (S s) [x]).
      { unfold N. change (mkState [] (choice b (S s) e) :: seg (S s) n x ++ ?z) with ([mkState [] (choice b (S s) e)] ++ seg (S s) n x ++ z).
        rewrite app_assoc. apply sub_at_seg; [assumption|]. rewrite app_length. cbn. fold s. lia. }
      assert (HL : e = S s + length n + (length n + 1) * r).
      { rewrite He. unfold N. rewrite app_length. cbn [length]. rewrite app_length, seg_length, pl_length. fold s. lia. }
      assert (HG : get N s = mkState [] (choice b (S s) e)).
      { unfold get, N, s. rewrite app_nth2 by lia. rewrite Nat.sub_diag. reflexivity. }
      assert (HfN : fin N).
      { rewrite EN. destruct (pl_fin b n e r (length pr')) as [m ->]. rewrite app_assoc. eexists; reflexivity. }
      rewrite (alts_eps N s (choice b (S s) e)) by (assumption || lia).
      rewrite fs_up_to. cbv zeta.
      apply choice_ev.
      + rewrite <- (Nat.add_0_r (S s)). eapply (ev_sub check T N n); eauto; [lia|]. apply HF; [assumption|]. intros j u Hin.
        cbn [map x fst snd]. apply ev_jump.
        assert (HI := IH pr' K k j). cbv zeta in HI. rewrite <- EN, Ek in HI. apply HI; [assumption| |].
        * assert (i <= j <= length T) by (eapply HR; eauto). lia.
        * intros j' v Hj'. apply (HK j' (u ++ v)). apply up_to_In. right. apply then_In. eauto 10.
      + rewrite He. apply ev_final; [assumption|]. apply (HK i []). apply up_to_In. now left.
  Qed.
  Lemma upto_follows n w r b : fin n -> wf n -> follows n w -> inr w -> 1 <= r ->
    follows (nfa_upto n r b) (up_to w (negb b) r).
  Proof.
    intros Hf Hw HF HR Hr K k i Hi HK. rewrite nfa_upto_eq by assumption.
    assert (H := pl_follows b n w ((length n + 1) * r) Hf Hw HF HR r [] K k i). cbv zeta in H. cbn [app length] in H.
    apply H; auto. rewrite pl_length. lia.
  Qed.

  Lemma star_follows n w b : fin n -> wf n -> follows n w -> inr w -> grows w ->
    follows (nfa_star n b) (up_to w (negb b) (length T)).
  Proof.
    intros Hf Hw HF HR HS0 K k i Hi. destruct (fin_last _ Hf) as [_ Hl1]. rewrite nfa_star_eq by assumption. set (N := _ ++ _ ++ _).
    assert (HS : sub_at N n 1 [(0, ENone)]) by now apply (sub_at_seg [_]).
    assert (HN : length N = 2 + length n) by (unfold N; rewrite !app_length, seg_length; cbn; lia).
    assert (HfN : fin N) by (unfold N; rewrite app_assoc; eexists; reflexivity).
    assert (H0 : get N 0 = mkState [] (choice b 1 (S (length n)))) by reflexivity.
    assert (G : forall m d i, d = length T - i -> d <= m -> i <= length T ->
      (forall j u, In (j, u) (up_to w (negb b) m i) -> K j (k j)) ->
      ev check T N K (alts N 0) i (fs (up_to w (negb b) m i) k)).
    { clear i Hi. induction m as [|m IH]; intros d i Hd Hdm Hi HK.
      - assert (i = length T) by lia. subst i. cbn [up_to] in *. rewrite fs_one, pre_nil.
        rewrite (alts_eps N 0 (choice b 1 (S (length n)))) by (assumption || lia).
        assert (E : k (length T) = if b then orelse None (k (length T)) else orelse (k (length T)) None).
        { destruct b; cbn; [reflexivity|]. now rewrite orelse_none. }
        rewrite E. apply choice_ev.
        + change (alts N 1) with (alts N (1 + 0)). eapply (ev_sub check T N n); eauto; [lia|].
          assert (Ew : w (length T) = []).
          { destruct (w (length T)) as [|[j u] l] eqn:El; [reflexivity|exfalso].
            assert (Hin : In (j, u) (w (length T))) by (rewrite El; now left).
            assert (length T <= j <= length T) by (eapply HR; eauto). apply HS0 in Hin; lia. }
          assert (HF' := HF (ev check T N K (map (fun e => AEps (fst e) (snd e)) [(0, ENone)])) k (length T)). rewrite Ew in HF'. apply HF'; [lia|intros ? ? []].
        + replace (S (length n)) with (length N - 1) by lia. apply ev_final; [assumption|]. apply (HK _ []). now left.
      - rewrite (alts_eps N 0 (choice b 1 (S (length n)))) by (assumption || lia). rewrite fs_up_to. cbv zeta.
        apply choice_ev.
        + change (alts N 1) with (alts N (1 + 0)). eapply (ev_sub check T N n); eauto; [lia|]. apply HF; [assumption|]. intros j u Hin. cbn [map fst snd]. apply ev_jump.
          assert (i <= j <= length T) by (eapply HR; eauto). assert (Hg := HS0 _ _ _ Hi Hin).
          apply (IH (length T - j)); try lia. intros j' v Hj'. apply (HK j' (u ++ v)). apply up_to_In. right. apply then_In. eauto 10.
        + replace (S (length n)) with (length N - 1) by lia. apply ev_final; [assumption|]. apply (HK i []). apply up_to_In. now left. }
    intros HK. apply (G (length T) (length T - i)); auto. lia.
  Qed.

  (** ** Trees whose loops read *)
  Fixpoint tloops (t : tree) : Prop :=
    match t with
    | TUnion l | TConcat l => Forall (fun x => x) (map tloops l)
    | TCapture t _ | TRepeat t _ | TUpTo t _ _ => tloops t
    | TStar t _ => grows (tways t) /\ tloops t
    | _ => True
    end.
  Lemma times_cat {X} (w : nat -> ways X) n i : times w n i = cat_ways (repeat w n) i.
  Proof.
    revert i; induction n as [|n IH]; intros i; cbn [times repeat cat_ways]; [reflexivity|].
    unfold then_. apply flat_map_ext. intros p. now rewrite IH.
  Qed.
  Lemma follows_ext n w w' : (forall i, w i = w' i) -> follows n w -> follows n w'.
  Proof. intros E H K k i Hi HK. rewrite <- E in *. now apply H. Qed.

  Lemma build_follows t : tree_ok t -> tloops t -> follows (build t) (tways t).
  Proof.
    induction t as [ |a|l IH|t k IH|l IH|t n IH|t n b IH|t b IH| | | ] using tree_ind'; intros Hok Hlo; cbn [build].
    - apply empty_follows.
    - apply symbol_follows.
    - inv Hok. cbn [tloops] in Hlo. rewrite Forall_map in Hlo. assert (HO : Forall ok (map build l)).
      { apply Forall_map. eapply Forall_impl; [apply build_ok|assumption]. }
      apply ok_all in HO as (Hf & Hw & _ & _). apply (union_follows (map build l) (map tways l)); auto.
      clear Hf Hw. induction IH as [|t l Ht IHt IHl]; cbn; [constructor|]. inv H0. inv Hlo. constructor; auto.
    - inv Hok. assert (HO := build_ok _ H0). apply capture_follows; [apply HO|apply HO|auto|apply tways_inr].
    - inv Hok. cbn [tloops] in Hlo. rewrite Forall_map in Hlo. assert (HO : Forall ok (map build l)).
      { apply Forall_map. eapply Forall_impl; [apply build_ok|assumption]. }
      apply ok_all in HO as (Hf & Hw & _ & _). apply (concat_follows (map build l) (map tways l)); auto.
      + clear Hf Hw. induction IH as [|t l Ht IHt IHl]; cbn; [constructor|]. inv H0. inv Hlo. constructor; auto.
      + apply Forall_map. apply Forall_forall. intros; apply tways_inr.
    - inv Hok. assert (HO := build_ok _ H0). unfold nfa_repeat.
      apply (follows_ext _ (cat_ways (repeat (tways t) n))); [intros i; symmetry; apply times_cat|].
      apply concat_follows.
      + induction n as [|n IHn]; cbn; constructor; auto.
      + apply Forall_forall. intros x Hx. apply repeat_spec in Hx as ->. apply HO.
      + apply Forall_forall. intros x Hx. apply repeat_spec in Hx as ->. apply HO.
      + apply Forall_forall. intros x Hx. apply repeat_spec in Hx as ->. apply tways_inr.
    - assert (HO' : tree_ok t) by now inv Hok. assert (HO := build_ok _ HO'). apply upto_follows; [apply HO|apply HO|auto|apply tways_inr|now inv Hok].
    - assert (HO : tree_ok t) by (inv Hok; now constructor). destruct Hlo as [Hg Hlo].
      apply star_follows; [apply (build_ok _ HO)|apply (build_ok _ HO)|auto|apply tways_inr|assumption].
    - apply (follows_ext _ (fun i => if on T i EStart then [(i, mark EStart)] else [])); [reflexivity|]. apply one_eps_follows.
    - apply (follows_ext _ (fun i => if on T i EEnd then [(i, mark EEnd)] else [])); [reflexivity|]. apply one_eps_follows.
    - apply never_follows.
  Qed.
End Ways_tree.
