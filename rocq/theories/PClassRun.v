(** A character class with a quantifier. *)
From Coq Require Import String.
From Verif Require Import PToken PStrip PAll PCompile PAnchored PCount PLazyAll PRoom PLiteral PropPriority PropCount SpecGroups SpecLaws SpecPriority SpecLiteral SpecCaret SpecToken.
From Coq Require Import ZifyBool ZifyNat ZifyN Sorted.
Open Scope nat_scope.
Open Scope list_scope.
Notation length := List.length.

(** ** The ways of one quantified step, sorted *)
Definition downwards (p q : nat * list (nat * (nat * nat))) : Prop := fst q < fst p.
Definition upwards (p q : nat * list (nat * (nat * nat))) : Prop := fst p < fst q.
Definition sorted_ways (lazy : bool) (l : ways (nat * (nat * nat))) : Prop := StronglySorted (if lazy then upwards else downwards) l.
Section Sorted_ways.
  Variable w : nat -> ways (nat * (nat * nat)).
  Hypothesis Hw : forall i, w i = [] \/ w i = [(S i, [])].
  Lemma then_one i (f : nat -> ways (nat * (nat * nat))) : then_ [(i, [])] f = f i.
  Proof. cbn. rewrite app_nil_r. rewrite <- (map_id (f i)) at 2. apply map_ext. now intros []. Qed.
  Lemma times_one n : forall i, times w n i = [] \/ times w n i = [(i + n, [])].
  Proof using Hw.
    induction n as [|n IH]; intros i; cbn [times]; [right; now rewrite Nat.add_0_r|]. destruct (Hw i) as [->| ->]; [now left|]. rewrite then_one. replace (i + S n) with (S i + n) by lia. apply IH.
  Qed.
  Lemma SS_app_one {A} (R : A -> A -> Prop) l x : StronglySorted R l -> Forall (fun y => R y x) l -> StronglySorted R (l ++ [x]).
  Proof.
    induction 1 as [|a l Hl IH Ha]; intros HF; cbn; [repeat constructor|]. inversion HF; subst. constructor; [auto|]. apply Forall_app. split; [assumption|]. now repeat constructor.
  Qed.
  Lemma up_to_sorted lazy n : forall i, sorted_ways lazy (up_to w lazy n i) /\ Forall (fun p => i <= fst p) (up_to w lazy n i).
  Proof using Hw.
    induction n as [|n IH]; intros i; cbn [up_to]; [destruct lazy; repeat constructor|].
    assert (M : sorted_ways lazy (then_ (w i) (up_to w lazy n)) /\ Forall (fun p => S i <= fst p) (then_ (w i) (up_to w lazy n))) by (destruct (Hw i) as [->| ->]; [split; constructor|]; rewrite then_one; apply IH).
    destruct M as [M1 M2]. unfold sorted_ways in *. destruct lazy.
    - split; (constructor; [assumption || (cbn; lia)|]); (eapply Forall_impl; [|exact M2]); intros p Hp; cbv beta in Hp; unfold upwards; cbn [fst]; lia.
    - split; [apply SS_app_one; [assumption|]|apply Forall_app; split; [|repeat constructor]]; (eapply Forall_impl; [|exact M2]); intros p Hp; cbv beta in Hp; unfold downwards; cbn [fst]; lia.
  Qed.
  Lemma quant_sorted T q i : sorted_ways (q_alt q) (quant_ways T w q i).
  Proof using Hw.
    unfold quant_ways. assert (U := fun n i => proj1 (up_to_sorted (q_alt q) n i)). destruct (q_type q) as [| | |n|n [m|]].
    - apply U.
    - destruct (Hw i) as [->| ->]; [constructor|]. rewrite then_one. apply U.
    - apply U.
    - destruct (times_one (N.to_nat n) i) as [->| ->]; repeat constructor.
    - destruct (m <? n)%N; [constructor|]. destruct (times_one (N.to_nat n) i) as [->| ->]; [constructor|]. rewrite then_one. apply U.
    - destruct (times_one (N.to_nat n) i) as [->| ->]; [constructor|]. rewrite then_one. apply U.
  Qed.
End Sorted_ways.
Lemma sorted_hd lazy x l : sorted_ways lazy l -> hd_error l = Some x -> forall y, In y l -> if lazy then fst x <= fst y else fst y <= fst x.
Proof.
  intros Hs Hh y Hy. destruct l as [|z l]; [discriminate|]. cbn in Hh. injection Hh as ->. destruct Hy as [->|Hy]; [destruct lazy; lia|]. inversion Hs as [|? ? _ HF]; subst. rewrite Forall_forall in HF. specialize (HF y Hy).
  destruct lazy; [unfold upwards in HF|unfold downwards in HF]; lia.
Qed.

(** ** What it matches *)
Definition run (a : atom) (q : quant) : ere := [[PQuant (XAtom a) q]].
Lemma iter_match T a n : forall g i j L, m_iter T (XAtom a) n g i j L <-> L = [] /\ j = i + n /\ j <= length T /\ Forall (atom_has a) (firstn n (skipn i T)).
Proof.
  induction n as [|n IH]; intros g i j L; split.
  - intros H. inversion H; subst. split; [reflexivity|]. rewrite Nat.add_0_r. split; [reflexivity|]. split; [assumption|constructor].
  - intros (-> & -> & H & _). rewrite Nat.add_0_r in *. now constructor.
  - intros H. inversion H as [|e0 n0 g0 i0 k j0 L1 L2 H1 H2]; subst. inversion H1 as [a0 g1 i1 c Hc Ha|]; subst. apply IH in H2 as (-> & -> & H3 & H4). split; [reflexivity|]. split; [lia|]. split; [lia|].
    rewrite (skipn_nth_cons i T c Hc). cbn [firstn]. now constructor.
  - intros (-> & -> & Hl & HF). destruct (nth_error T i) as [c|] eqn:Ec; [|apply nth_error_None in Ec; lia]. rewrite (skipn_nth_cons i T c Ec) in HF. cbn [firstn] in HF. inversion HF; subst.
    change (@nil (nat * (nat * nat))) with (@nil (nat * (nat * nat)) ++ []). apply mi_more with (j := S i); [now apply me_atom with c|]. apply IH. split; [reflexivity|]. split; [lia|]. split; [lia|assumption].
Qed.
Lemma run_match T a q i j L : matches T (run a q) i j L <-> exists U R, run_of a q T U R /\ i = length U /\ j = i + length R /\ L = [(0, (i, j))].
Proof.
  split.
  - intros (L' & H & ->). inversion H as [b bs g0 i0 j0 L0 Hb|b bs g0 i0 j0 L0 Hb]; subst; [|inversion Hb]. inversion Hb as [|p b g1 i1 k j1 L1 L2 H1 H2]; subst. inversion H2; subst. inversion H1 as [|e0 q0 n g2 i2 j2 L3 Hq Hi| |]; subst.
    apply iter_match in Hi as (-> & -> & Hl & HF). exists (firstn i T), (firstn n (skipn i T)).
    assert (E1 : length (firstn i T) = i) by (rewrite firstn_length; lia). assert (E2 : length (firstn n (skipn i T)) = n) by (rewrite firstn_length, skipn_length; lia).
    split; [|rewrite E1, E2; auto]. split; [exists (skipn n (skipn i T)); now rewrite !firstn_skipn|]. rewrite E2. auto.
  - intros (U & R & ((V & ->) & HF & Hq) & -> & -> & ->). exists []. split; [|reflexivity]. apply ma_here. change (@nil (nat * (nat * nat))) with (@nil (nat * (nat * nat)) ++ []).
    apply mb_cons with (j := length U + length R); [|constructor; rewrite !app_length; lia]. apply mp_quant with (length R); [assumption|]. apply iter_match. split; [reflexivity|]. split; [reflexivity|]. rewrite !app_length. split; [lia|].
    rewrite skipn_app, skipn_all, Nat.sub_diag. cbn [app skipn]. rewrite firstn_app, firstn_all, Nat.sub_diag. cbn [firstn]. now rewrite app_nil_r.
Qed.
Lemma run_ways T a q g i : w_alts atom_check T (run a q) g i = quant_ways T (w_expr atom_check T (XAtom a) g) q i.
Proof.
  unfold run. cbn [w_alts w_branch]. rewrite app_nil_r. change (w_part atom_check T (PQuant (XAtom a) q) g i) with (quant_ways T (w_expr atom_check T (XAtom a) g) q i).
  unfold then_. induction (quant_ways T _ q i) as [|[j L] l IH]; [reflexivity|]. cbn [flat_map]. rewrite IH. cbn. now rewrite app_nil_r.
Qed.
Lemma run_sorted T a q g i : sorted_ways (q_alt q) (w_alts atom_check T (run a q) g i).
Proof.
  rewrite run_ways. apply quant_sorted. intros k. cbn [w_expr]. destruct (nth_error T k) as [c|]; [|now left]. destruct (atom_check a c); auto.
Qed.
Lemma run_loops a q : loops_read (run a q) = true.
Proof. cbn. now rewrite !orb_true_r. Qed.
Lemma run_groups a q : groups (run a q) = 0.
Proof. reflexivity. Qed.
Lemma run_carets a q : carets (run a q) = Some 0.
Proof. reflexivity. Qed.
Lemma run_grammar a q t u : G_atom a t -> G_quant q u -> G_ere (run a q) (t ++ u).
Proof. intros Ha Hq. apply Ge_one. rewrite <- (app_nil_r (t ++ u)). apply Gbr_cons; [|constructor]. apply Gp_quant; [now apply Gx_atom|assumption]. Qed.
Theorem run_finds a q t u en T : compiled (t ++ u) en -> G_atom a t -> G_quant q u -> Forall scalar (t ++ u) -> Forall scalar T ->
  exists o, engine_exec en T = Ok o /\ engine_test en T = Ok (match o with Some _ => true | None => false end) /\
    match o with
    | Some cs => exists U R, best_run a q T U R /\ cs = [Some (bytes_of U, bytes_of U + bytes_of R)]
    | None => forall U R, ~ run_of a q T U R
    end.
Proof.
  intros H Ha Hq Hs HT. assert (Hg := run_grammar a q t u Ha Hq). set (e := run a q) in *.
  assert (X := best_answer _ e en T H Hs HT Hg (run_loops _ _) eq_refl eq_refl).
  assert (A : forall i j L, In (i, j, L) (all_matches atom_check T e) <-> matches T e i j L) by (intros; apply C25_order; [exact atom_check_iff|assumption|apply run_loops]).
  destruct (hd_error (all_matches atom_check T e)) as [[[i j] L]|] eqn:Eh.
  - destruct X as (X1 & X2 & _). eexists. split; [exact X2|]. split; [exact X1|]. destruct (best_hd atom_check T e i j L Eh) as (L' & B1 & B2 & B3).
    assert (M : matches T e i j L) by (apply A; destruct (all_matches atom_check T e); [discriminate|injection Eh as ->; now left]).
    apply run_match in M as (U & R & M1 & M2 & M3 & M4). exists U, R. split; [split; [assumption|]|].
    + intros U' R' HR. assert (M' : matches T e (length U') (length U' + length R') [(0, (length U', length U' + length R'))]) by (apply run_match; exists U', R'; auto).
      apply A, B3 in M' as [Hlt|[Heq (L'' & Hin)]]; [left; lia|]. right. split; [lia|]. assert (Hx := sorted_hd _ _ _ (run_sorted T a q 1 i) B1 _ Hin). cbn [fst] in Hx. destruct (q_alt q); lia.
    + assert (G2 : engine_groups en = 1) by (destruct (C32_groups_partial _ en e H Hs Hg) as [C _]; unfold e in C; rewrite run_groups in C; destruct (compiled_right _ en H Hs) as (_ & _ & C' & _); lia).
      rewrite G2. cbn [seq map]. destruct M1 as ((V & ->) & _). unfold capture. rewrite M4. cbn [last_of Nat.eqb]. subst i j. rewrite byte_pos_prefix. rewrite <- app_length, app_assoc, byte_pos_prefix, bytes_app. reflexivity.
  - destruct X as [X1 X2]. exists None. split; [assumption|]. split; [assumption|]. intros U R HR.
    assert (M' : matches T e (length U) (length U + length R) [(0, (length U, length U + length R))]) by (apply run_match; exists U, R; auto). apply A in M'. destruct (all_matches atom_check T e); [destruct M'|discriminate].
Qed.
Theorem run_compiles a q t u T U R : G_atom a t -> G_quant q u -> Forall scalar (t ++ u) -> Forall scalar T -> run_of a q T U R ->
  (exists en, compile_flat_u8 (t ++ u) = Ok en) /\ (named_well a -> (exists en, compile_regex (t ++ u) = Ok en) /\ exists en, compile_flat (t ++ u) = Ok en).
Proof.
  intros Ha Hq Hs HT HR. assert (Hp : parse_str (t ++ u) = ROk (run a q)) by now apply parse_iff, run_grammar.
  assert (Ho : occurs (run a q) T) by (eexists _, _, _; apply run_match; exists U, R; eauto). split; [exact (flat_u8_compiles _ _ Hp Hs T HT Ho)|].
  intros Hn. assert (Hat : forall x, In x (atoms (run a q)) -> named_well x) by (intros x [<-|[]]; assumption).
  split; [|exact (flat_compiles _ _ Hp Hs T Hat HT Ho)]. apply (anchors_compile _ _ T _ Hp Hs (run_carets _ _)); auto.
Qed.
