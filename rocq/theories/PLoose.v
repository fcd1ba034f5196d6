(** Sequences of repetitions of pieces of a fixed width. *)
From Coq Require Import String.
From Verif Require Import PTemplate PFields PClassRun PToken PStrip PAll PCompile PAnchored PCount PLazyAll PRoom PLiteral PPrioOne PPrioSpec PropPriority PropCount PFixedAll SpecGroups SpecLaws SpecPriority SpecLiteral SpecCaret SpecFixed SpecTemplate.
From Coq Require Import ZifyBool ZifyNat ZifyN.
Open Scope nat_scope.
Open Scope list_scope.
Notation length := List.length.

Lemma counted_steady b ks b' : counted_as b ks b' -> loose_branch b = true -> steady_branch b' = true.
Proof.
  induction 1 as [|e b ks b' H IH|e q n b ks b' Hn H IH]; intros Hb; [reflexivity| |]; cbn in Hb |- *; apply andb_true_iff in Hb as [H1 H2]; rewrite H1; now apply IH.
Qed.
Lemma counted_groups b ks b' : counted_as b ks b' -> groups_branch b' = groups_branch b.
Proof.
  induction 1 as [|e b ks b' H IH|e q n b ks b' Hn H IH]; [reflexivity| |]; unfold groups_branch in *; cbn [map list_sum fold_right groups_part] in *; unfold list_sum in *; now rewrite IH.
Qed.
Lemma counted_unique : forall b ks b' b'', counted_as b ks b' -> counted_as b ks b'' -> b' = b''.
Proof.
  intros b ks b' b'' H. revert b''. induction H as [|e b ks b' H IH|e q n b ks b' Hn H IH]; intros b'' H'; inversion H' as [|? ? ? ? H2|? ? n' ? ? ? Hn' H2]; subst; [reflexivity| |]; f_equal; now apply IH.
Qed.
Section Text.
  Variable T : list N.
  (** What follows the sequence may be anything. *)
  Lemma counted_match c b : loose_branch b = true -> forall g i j L, m_branch T (b ++ c) g i j L <-> exists ks b', counted_as b ks b' /\ m_branch T (b' ++ c) g i j L.
  Proof.
    induction b as [|p b IH]; intros Hb g i j L.
    - split; [intros H; exists [], []; split; [constructor|assumption]|]. intros (ks & b' & H & Hm). inversion H; subst. assumption.
    - cbn in Hb. apply andb_true_iff in Hb as [Hp Hb]. specialize (IH Hb). split.
      + intros H. inversion H as [|p0 b0 g0 i0 k j0 L1 L2 M1 M2]; subst. apply IH in M2 as (ks & b' & C & M2). destruct p as [e|e q| |]; try discriminate Hp.
        * exists ks, (PSingle e :: b'). split; [now constructor|]. cbn [app]. now apply mb_cons with k.
        * inversion M1 as [|e0 q0 n g1 i1 j1 L3 Hq Hi| |]; subst. exists (n :: ks). eexists. split; [constructor; eassumption|]. cbn [app]. apply mb_cons with k; [|assumption]. apply mp_quant with n; [reflexivity|assumption].
      + intros (ks & b' & C & H). inversion C as [|e b0 ks0 b1 C'|e q n b0 ks0 b1 Hn C']; subst; cbn [app] in H; inversion H as [|p0 b0 g0 i0 k j0 L1 L2 M1 M2]; subst; cbn [app]; apply mb_cons with k; auto.
        * apply IH. eauto.
        * inversion M1 as [|e0 q0 m g1 i1 j1 L3 Hq Hi| |]; subst. cbn in Hq. apply Nat2N.inj in Hq. subst m. now apply mp_quant with n.
        * apply IH. eauto.
  Qed.
  Lemma loose_match a z b i j L : loose_branch b = true -> matches T (template a z b) i j L <-> exists ks b', counted_as b ks b' /\ matches T (template a z b') i j L.
  Proof.
    intros Hb. set (c := if z then [PEnd] else []). assert (K := counted_match c b Hb).
    assert (D : forall b' L0 g i j, m_alts T [(if a then [PStart] else []) ++ b' ++ c] g i j L0 <-> m_branch T (b' ++ c) g i j L0 /\ (a = true -> i = 0)).
    { intros b' L0 g i' j'. split.
      - intros H. inversion H as [b1 bs g0 i0 j0 L1 Hm|b1 bs g0 i0 j0 L1 Hm]; subst; [|inversion Hm]. destruct a; cbn [app] in Hm; [|split; [assumption|discriminate]].
        inversion Hm as [|p0 b0 g1 i1 k j1 L2 L3 M1 M2]; subst. inversion M1; subst. cbn [groups_part] in M2. rewrite Nat.add_0_r in M2. auto.
      - intros [H Ha]. apply ma_here. destruct a; cbn [app]; [|assumption]. rewrite (Ha eq_refl) in *. change L0 with ([] ++ L0). apply mb_cons with 0; [constructor|]. cbn [groups_part]. now rewrite Nat.add_0_r. }
    unfold matches, template. fold c. split.
    - intros (L' & H & ->). apply D in H as [H Ha]. apply K in H as (ks & b' & C & H). exists ks, b'. split; [assumption|]. exists L'. split; [|reflexivity]. now apply D.
    - intros (ks & b' & C & L' & H & ->). exists L'. split; [|reflexivity]. apply D in H as [H Ha]. apply D. split; [|assumption]. apply K. eauto.
  Qed.
End Text.
Lemma loose_free b : loose_branch b = true -> forall p, In p b -> carets_part p = Some 0 /\ dollars_part p = Some 0.
Proof.
  intros Hb p Hp. unfold loose_branch in Hb. rewrite forallb_forall in Hb. specialize (Hb p Hp). destruct p as [e|e q| |]; try discriminate Hb; cbn [loose_part] in Hb; destruct (proj1 (proj2 steady_free) e Hb) as (H1 & H2 & _); cbn [carets_part dollars_part]; rewrite H1, H2; auto.
Qed.
Lemma loose_carets a z b : loose_branch b = true -> carets (template a z b) = Some (if a then 1 else 0).
Proof.
  intros Hb. assert (K := loose_free b Hb). unfold carets, template. cbn [map common forallb]. unfold carets_branch. rewrite map_app. destruct a; cbn [map app carets_part]; rewrite ?total_cons, total_zero by (intros p Hp; now apply K); now destruct z.
Qed.
Lemma loose_dollars a z b : loose_branch b = true -> dollars (template a z b) = Some (if z then 1 else 0).
Proof.
  intros Hb. assert (K := loose_free b Hb). unfold dollars, template. cbn [map common forallb]. unfold dollars_branch. rewrite map_app. destruct a; cbn [map app dollars_part]; rewrite ?total_skip, total_zero by (intros p Hp; now apply K); now destruct z.
Qed.

(** ** Some numbers *)
(** The captures of a place, as far as the engine has room. *)
Definition reads_off (T : list N) (b' : branch) (d : nat) (cs : list (option (nat * nat))) : Prop := forall k, nth k cs None = nth k (in_bytes T (moved d (all_places b'))) None.
Lemma last_off T L b' d : (forall k, last_of k L = nth k (moved d (all_places b')) None) -> forall k, nth k (in_bytes T (moved d (all_places b'))) None = capture T L k.
Proof. intros H k. unfold in_bytes. rewrite (map_nth (option_map (fun s : nat * nat => (byte_pos T (fst s), byte_pos T (snd s)))) _ None k), <- H. unfold capture. now destruct (last_of k L) as [[]|]. Qed.
Lemma nth_captures T L n k : k < n -> nth k (map (capture T L) (seq 0 n)) None = capture T L k.
Proof. intros Hk. apply nth_error_nth. rewrite nth_error_map, nth_error_nth' with (d := 0) by (rewrite seq_length; lia). rewrite seq_nth by lia. reflexivity. Qed.
Lemma roomy_off T L b' d n : (forall k, last_of k L = nth k (moved d (all_places b')) None) -> (forall k, last_of k L <> None -> k < n) -> reads_off T b' d (map (capture T L) (seq 0 n)).
Proof.
  intros HL Hr k. rewrite (last_off T L b' d HL). destruct (Nat.ltb_spec k n) as [Hk|Hk]; [now apply nth_captures|]. rewrite nth_overflow by (rewrite map_length, seq_length; lia). unfold capture. destruct (last_of k L) eqn:E; [|reflexivity]. exfalso. assert (k < n) by (apply Hr; congruence). lia.
Qed.
Theorem loose_finds a z b s en T : compiled s en -> Forall scalar s -> G_ere (template a z b) s -> loose_branch b = true -> Forall scalar T ->
  exists o, engine_exec en T = Ok o /\ engine_test en T = Ok (match o with Some _ => true | None => false end) /\
    match o with
    | Some cs => exists ks b' U R, counted_as b ks b' /\ fits_at a z b' T U R /\ (forall ks' b'' U' R', counted_as b ks' b'' -> fits_at a z b'' T U' R' -> length U <= length U') /\
        length cs <= S (groups_branch b) /\ length cs = engine_groups en /\ reads_off T b' (length U) cs
    | None => forall ks b' U R, counted_as b ks b' -> ~ fits_at a z b' T U R
    end.
Proof.
  intros H Hs Hg Hb HT. assert (Hc : caret_ok (template a z b) = true) by (unfold caret_ok; now rewrite loose_carets).
  destruct (compiled_unique _ en _ H Hs Hg) as (G1 & R & _). specialize (R (or_intror Hc)).
  destruct (right_test _ en R T HT) as (x & Eb & Hx). destruct (right_exec _ en R T HT) as (o & Eo & Ho). exists o. split; [assumption|].
  assert (Fits : forall ks b' U R, counted_as b ks b' -> fits_at a z b' T U R -> exists L, matches T (template a z b) (length U) (length U + length R) L).
  { intros ks b' U R0 C HU. apply template_fits in HU as (L & HL); [|eapply counted_steady; eauto]. exists L. apply loose_match; [assumption|]. eauto. }
  destruct o as [cs|].
  - destruct (compiled_first _ _ en T cs H Hs HT Hg (or_intror Hc) Eo) as (i & j & L & Hm & Ec & E0 & Hf). rewrite Eb. split; [f_equal; apply Hx; now exists i, j, L|].
    destruct (exec_room _ _ en T cs H Hs HT Hg (or_intror Hc) Eo) as (i' & j' & L' & Hm' & Ec' & Hr).
    assert (Hlog := match_log_ok T _ HT i j L Hm). assert (Hlog' := match_log_ok T _ HT i' j' L' Hm').
    assert (Ei : i' = i).
    { assert (G0 : 0 < engine_groups en) by (destruct cs; [discriminate E0|]; apply (f_equal (@length _)) in Ec; rewrite map_length, seq_length in Ec; cbn in Ec; lia).
      rewrite Ec', nth_error_map, nth_error_nth' with (d := 0) in E0 by (rewrite seq_length; lia). rewrite seq_nth in E0 by lia. cbn [option_map] in E0. injection E0 as E0.
      unfold capture in E0. destruct Hm' as (L0 & Hm0 & ->). rewrite last_of_split in E0. cbn [last_of Nat.add Nat.eqb] in E0. injection E0 as E0 _.
      destruct Hm as (L1 & Hm1 & ->). unfold log_ok in Hlog, Hlog'. apply Forall_app in Hlog as [_ Hlog]. apply Forall_app in Hlog' as [_ Hlog']. inversion Hlog as [|? ? B _]; inversion Hlog' as [|? ? B' _]; subst. cbn in B, B'.
      destruct (Nat.lt_trichotomy i i') as [Hl|[Hl|Hl]]; [|auto|]; exfalso; apply (byte_pos_strict T) in Hl; lia. }
    subst i'. assert (Hm2 := Hm'). apply loose_match in Hm2 as (ks & b' & C & Hm2); [|assumption]. assert (Sb := counted_steady _ _ _ C Hb).
    destruct (template_at T a z b' i j' L' Sb Hm2) as ((U & R0 & HU & Ei & ER) & Ej & HL). exists ks, b', U, R0. split; [assumption|]. split; [assumption|].
    split; [intros ks' b'' U' R' C' H'; destruct (Fits _ _ _ _ C' H') as (L2 & H2); apply Hf in H2; lia|].
    split; [rewrite Ec', map_length, seq_length; destruct (C32_groups_partial _ en _ H Hs Hg) as [C0 _]; now rewrite template_groups in C0|]. split; [now rewrite Ec', map_length, seq_length|]. rewrite Ec', Ei. apply roomy_off; assumption.
  - rewrite Eb. split; [f_equal; destruct x; [exfalso; apply Ho; now apply Hx|reflexivity]|]. intros ks b' U R0 C HU. apply Ho. destruct (Fits _ _ _ _ C HU) as (L & HL). eexists _, _, _. exact HL.
Qed.

(** ** The preferred numbers *)
Definition pref (lazy : bool) (j j' : nat) : Prop := if lazy then j < j' else j' < j.
(** What is preferred comes first, except for repetitions of what has come before. *)
Definition firsts (lazy : bool) (l : list nat) : Prop := forall l1 x l2 y, l = l1 ++ x :: l2 -> In y l2 -> pref lazy y x -> In y l1.
Lemma firsts_nil lazy : firsts lazy [].
Proof. intros [|] x l2 y E; discriminate E. Qed.
Lemma firsts_app lazy l m : firsts lazy l -> firsts lazy m -> (forall y x, In y m -> In x l -> pref lazy y x -> In y l) -> (forall y x, In y m -> In x m -> pref lazy y x -> True) -> firsts lazy (l ++ m).
Proof.
  intros Hl Hm H _ l1 x l2 y E Hy Hp. apply app_eq_app in E as (d & [[E1 E2]|[E1 E2]]).
  - destruct d as [|x' d].
    + rewrite app_nil_r in E1. cbn in E2. apply (Hm [] x l2 y) in Hp; auto. destruct Hp.
    + cbn in E2. injection E2 as <- E2. subst l l2. apply in_app_or in Hy as [Hy|Hy]; [now apply (Hl l1 x d)|].
      assert (Hi : In y (l1 ++ x :: d)) by (apply H with x; [assumption|apply in_or_app; right; now left|assumption]). apply in_app_or in Hi as [Hi|[<-|Hi]]; [assumption|destruct lazy; cbn in Hp; lia|]. now apply (Hl l1 x d).
  - subst l1. apply in_or_app. right. now apply (Hm d x l2).
Qed.
Lemma firsts_copies lazy l n : firsts lazy l -> firsts lazy (concat (repeat l n)).
Proof.
  intros Hl. induction n as [|n IH]; [apply firsts_nil|]. cbn. apply firsts_app; auto. intros y x Hy _ _. apply in_concat in Hy as (l' & Hl' & Hy). apply repeat_spec in Hl'. now subst l'.
Qed.
Lemma firsts_same lazy l j : (forall x, In x l -> x = j) -> firsts lazy l.
Proof. intros H l1 x l2 y E Hy Hp. rewrite (H x), (H y) in Hp by (subst l; apply in_or_app; right; cbn; auto). destruct lazy; cbn in Hp; lia. Qed.
Section Ends.
  Context {X : Type}.
  Implicit Types (l : ways X) (f : nat -> ways X).
  Lemma then_ends l f j : (forall p, In p l -> fst p = j) -> map fst (then_ l f) = concat (repeat (map fst (f j)) (length l)).
  Proof.
    induction l as [|p l IH]; intros H; [reflexivity|]. unfold then_ in *. cbn [flat_map length repeat concat]. rewrite map_app, map_map, IH by (intros; apply H; now right). f_equal. rewrite (H p) by (now left). reflexivity.
  Qed.
  Variable w : nat -> ways X.
  Variable d : nat.
  Hypothesis Hw : forall i p, In p (w i) -> fst p = i + d.
  Lemma times_ends n : forall i p, In p (times w n i) -> fst p = i + n * d.
  Proof using Hw.
    induction n as [|n IH]; intros i p H; cbn [times] in H; [destruct H as [<-|[]]; cbn; lia|]. unfold then_ in H. apply in_flat_map in H as (x & Hx & H). apply in_map_iff in H as (y & <- & Hy). apply Hw in Hx. apply IH in Hy. cbn. lia.
  Qed.
  Lemma up_to_firsts lazy n : forall i, firsts lazy (map fst (up_to w lazy n i)) /\ forall x, In x (map fst (up_to w lazy n i)) -> i <= x.
  Proof using Hw.
    induction n as [|n IH]; intros i; cbn [up_to]; [split; [apply (firsts_same _ _ i)|]; intros x [<-|[]]; cbn; lia|].
    assert (M : firsts lazy (map fst (then_ (w i) (up_to w lazy n))) /\ forall x, In x (map fst (then_ (w i) (up_to w lazy n))) -> i <= x).
    { rewrite (then_ends _ _ (i + d)) by apply Hw. destruct (IH (i + d)) as [I1 I2]. split; [now apply firsts_copies|]. intros x Hx. apply in_concat in Hx as (l' & Hl' & Hx). apply repeat_spec in Hl'. subst l'. apply I2 in Hx. lia. }
    destruct M as [M1 M2]. destruct lazy.
    - cbn [map fst]. split; [|intros x [<-|Hx]; [lia|auto]]. apply (firsts_app true [i]); auto; [apply (firsts_same _ _ i); now intros x [<-|[]]|]. intros y x Hy [<-|[]] Hp. cbn in Hp. apply M2 in Hy. lia.
    - rewrite map_app. cbn [map fst]. split; [|intros x Hx; apply in_app_or in Hx as [Hx|[<-|[]]]; [auto|lia]]. apply firsts_app; auto; [apply (firsts_same _ _ i); now intros x [<-|[]]|]. intros y x [<-|[]] Hx Hp. cbn in Hp. apply M2 in Hx. lia.
  Qed.
  Lemma quant_firsts T q i : firsts (q_alt q) (map fst (quant_ways T w q i)).
  Proof using Hw.
    assert (U := fun n i => proj1 (up_to_firsts (q_alt q) n i)).
    assert (K : forall l j f, (forall p, In p l -> fst p = j) -> firsts (q_alt q) (map fst (f j)) -> firsts (q_alt q) (map fst (then_ l f))) by (intros l j f Hl Hf; rewrite (then_ends _ _ j) by assumption; now apply firsts_copies).
    unfold quant_ways. destruct (q_type q) as [| | |n|n [m|]].
    - apply U.
    - apply (K _ (i + d)); [apply Hw|apply U].
    - apply U.
    - apply (firsts_same _ _ (i + N.to_nat n * d)). intros x Hx. apply in_map_iff in Hx as (p & <- & Hp). now apply times_ends.
    - destruct (m <? n)%N; [apply firsts_nil|]. apply (K _ (i + N.to_nat n * d)); [apply times_ends|apply U].
    - apply (K _ (i + N.to_nat n * d)); [apply times_ends|apply U].
  Qed.
End Ends.
(** The first of a sequence of ways. *)
Lemma then_hd {X} (l : ways X) f j L : hd_error (then_ l f) = Some (j, L) ->
  exists l1 p l2 L', l = l1 ++ p :: l2 /\ (forall x, In x l1 -> f (fst x) = []) /\ hd_error (f (fst p)) = Some (j, L') /\ L = snd p ++ L'.
Proof.
  induction l as [|p l IH]; intros H; [discriminate H|]. unfold then_ in *. cbn [flat_map] in H. destruct (f (fst p)) as [|q r] eqn:E.
  - cbn in H. apply IH in H as (l1 & p' & l2 & L' & -> & H1 & H2 & H3). exists (p :: l1), p', l2, L'. split; [reflexivity|]. split; [|auto]. intros x [<-|Hx]; auto.
  - cbn in H. injection H as <- <-. exists [], p, l, (snd q). split; [reflexivity|]. split; [intros x []|]. rewrite E. split; [|reflexivity]. cbn. now destruct q.
Qed.
Lemma steady_consumes : (forall p, steady_part p = true -> 0 < width_part p -> consumes_part p = true) /\ (forall e, steady_expr e = true -> 0 < width_expr e -> consumes_expr e = true) /\
  (forall b, steady_branch b = true -> 0 < width_branch b -> existsb consumes_part b = true) /\ (forall e : ere, Forall (fun b => steady_branch b = true -> 0 < width_branch b -> existsb consumes_part b = true) e).
Proof.
  apply syntax_ind.
  - intros e H. exact H.
  - intros e q H Hs Hw. cbn in Hs, Hw |- *. destruct (q_type q) as [| | |k|k [k'|]]; cbn [exactly at_least_once] in *; try discriminate.
    + rewrite H; [lia|assumption|nia].
    + destruct (k =? k')%N; [|discriminate]. rewrite H; [lia|assumption|nia].
  - discriminate.
  - discriminate.
  - reflexivity.
  - intros bs H Hs Hw. destruct (sub_steady bs Hs) as (S1 & _ & _). rewrite Forall_forall in H. cbn. apply forallb_forall. intros b Hb. destruct (S1 b Hb) as [Sb Wb]. apply H; auto. lia.
  - unfold width_branch. cbn. lia.
  - intros p b H1 H2 Hs Hw. cbn in Hs |- *. apply andb_true_iff in Hs as [Hs1 Hs2]. unfold width_branch in *. cbn [map list_sum fold_right] in Hw. destruct (width_part p) as [|x] eqn:E; [rewrite H2; [now rewrite orb_true_r|assumption|exact Hw]|]. rewrite H1; [reflexivity|assumption|lia].
  - constructor.
  - intros b e H1 H2. now constructor.
Qed.
Lemma loose_loops b : loose_branch b = true -> wide_branch b = true -> forallb loops_part b = true.
Proof.
  intros Hb Hw. apply forallb_forall. intros p Hp. unfold loose_branch, wide_branch in *. rewrite forallb_forall in Hb, Hw. specialize (Hb p Hp). specialize (Hw p Hp). destruct p as [e|e q| |]; try discriminate Hb; cbn [loose_part] in Hb; cbn [loops_part].
  - now apply (proj1 (proj2 steady_free)).
  - cbv beta iota in Hw. rewrite (proj1 (proj2 steady_consumes) e Hb) by lia. rewrite orb_true_r. now apply (proj1 (proj2 steady_free)).
Qed.
Section Best.
  Variable T : list N.
  Hypothesis HT : Forall scalar T.
  Variable has : atom -> N -> bool.
  Hypothesis Hhas : forall a c, has a c = true <-> atom_has a c.
  Lemma ways_ends : (forall p, steady_part p = true -> forall g i x, In x (w_part has T p g i) -> fst x = i + width_part p) /\
    (forall e, steady_expr e = true -> forall g i x, In x (w_expr has T e g i) -> fst x = i + width_expr e) /\
    (forall b, steady_branch b = true -> forall g i x, In x (w_branch has T b g i) -> fst x = i + width_branch b) /\
    (forall e : ere, forall w, (forall b, In b e -> steady_branch b = true /\ width_branch b = w) -> forall g i x, In x (w_alts has T e g i) -> fst x = i + w).
  Proof using Hhas HT.
    apply syntax_ind.
    - intros e H. exact H.
    - intros e q H Hs g i x Hx. cbn in Hs |- *. change (w_part has T (PQuant e q) g i) with (quant_ways T (w_expr has T e g) q i) in Hx. unfold quant_ways in Hx.
      destruct (q_type q) as [| | |k|k [k'|]]; cbn [exactly] in *; try discriminate.
      + apply (times_ends _ (width_expr e)) in Hx; [assumption|]. intros i' p. now apply H.
      + destruct (k =? k')%N eqn:Ek; [|discriminate]. apply N.eqb_eq in Ek. subst k'. rewrite N.ltb_irrefl, N.sub_diag in Hx. unfold then_ in Hx. apply in_flat_map in Hx as (y & Hy & Hx). cbn in Hx. destruct Hx as [<-|[]]. cbn.
        apply (times_ends _ (width_expr e)) in Hy; [assumption|]. intros i' p. now apply H.
    - discriminate.
    - discriminate.
    - intros a _ g i x Hx. cbn in Hx |- *. destruct (nth_error T i) as [c|]; [|destruct Hx]. destruct (has a c); [|destruct Hx]. destruct Hx as [<-|[]]. cbn. lia.
    - intros bs H Hs g i x Hx. destruct (sub_steady bs Hs) as (S1 & _ & _). rewrite w_expr_sub in Hx. apply in_map_iff in Hx as (y & <- & Hy). cbn [fst]. apply (H (width_expr (XSub bs))) in Hy; assumption.
    - intros _ g i x [<-|[]]. unfold width_branch. cbn. lia.
    - intros p b H1 H2 Hs g i x Hx. cbn in Hs. apply andb_true_iff in Hs as [Hs1 Hs2]. cbn [w_branch] in Hx. unfold then_ in Hx. apply in_flat_map in Hx as (y & Hy & Hx). apply in_map_iff in Hx as (u & <- & Hu). apply H1 in Hy; [|assumption]. apply H2 in Hu; [|assumption]. unfold width_branch in *. cbn [map list_sum fold_right fst] in *. unfold list_sum in *. lia.
    - intros w _ g i x [].
    - intros b e H1 H2 w Hw g i x Hx. cbn [w_alts] in Hx. apply in_app_or in Hx as [Hx|Hx].
      + destruct (Hw b (or_introl eq_refl)) as [Hb <-]. now apply (H1 Hb g).
      + apply (H2 w) in Hx; [assumption|]. intros b' Hb'. apply Hw. now right.
  Qed.
  Lemma hd_in {A} (l : list A) x : hd_error l = Some x -> In x l.
  Proof using Type. destruct l; intros E; [discriminate|]. injection E as ->. now left. Qed.
  Lemma loose_best c b : forallb loops_part c = true -> loose_branch b = true -> wide_branch b = true -> forall g i j L, i <= length T -> hd_error (w_branch has T (b ++ c) g i) = Some (j, L) ->
    exists ks b', counted_as b ks b' /\ m_branch T (b' ++ c) g i j L /\ forall ks' b'' j' L', counted_as b ks' b'' -> m_branch T (b'' ++ c) g i j' L' -> prefers b ks ks'.
  Proof using HT Hhas.
    intros Hc. induction b as [|p b IH]; intros Hb Hw g i j L Hi Hh.
    - exists [], []. split; [constructor|]. split; [|intros; exact I]. apply hd_in in Hh. now apply (proj1 (proj2 (proj2 (ways_exact T HT has Hhas))) c g Hc) in Hh.
    - assert (Hb0 := Hb). assert (Hw0 := Hw). unfold loose_branch, wide_branch in Hb, Hw. cbn [forallb] in Hb, Hw. apply andb_true_iff in Hb as [Hp Hb]. apply andb_true_iff in Hw as [Hpw Hw]. specialize (IH Hb Hw). cbn [app w_branch] in Hh.
      apply then_hd in Hh as (l1 & x & l2 & L2 & El & H1 & H2 & ->). destruct x as [k L1]. cbn [fst snd] in *.
      assert (Hlb := loose_loops _ Hb Hw). assert (Hlp : loops_part p = true) by (assert (X := loose_loops _ Hb0 Hw0); cbn in X; now apply andb_true_iff in X).
      assert (Hlc : forallb loops_part (b ++ c) = true) by (rewrite forallb_app, Hlb, Hc; reflexivity).
      assert (Hx : In (k, L1) (w_part has T p g i)) by (rewrite El; apply in_or_app; right; now left). assert (Hm := Hx). apply (proj1 (ways_exact T HT has Hhas) p g Hlp) in Hm; [|assumption].
      assert (Hk : i <= k <= length T) by (exact (proj1 (m_range T) _ _ _ _ _ Hm)).
      destruct (IH (g + groups_part p) k j L2 ltac:(lia) H2) as (ks & b' & C & M & P).
      destruct p as [e|e q| |]; try discriminate Hp; cbn [loose_part] in Hp.
      + exists ks, (PSingle e :: b'). split; [now constructor|]. split; [cbn [app]; now apply mb_cons with k|]. intros ks' b'' j' L' C' M'. cbn [prefers]. inversion C' as [|? ? ? b1 C1|]; subst. cbn [app] in M'. inversion M' as [|p0 b0 g0 i0 k' j0 L3 L4 M1 M2]; subst.
        assert (Ek : k' = k).
        { assert (A := proj1 ways_ends (PSingle e) Hp g i (k, L1) Hx). assert (B : In (k', L3) (w_part has T (PSingle e) g i)) by (now apply (proj1 (ways_exact T HT has Hhas) (PSingle e) g Hlp)). apply (proj1 ways_ends (PSingle e) Hp) in B. cbn [fst] in A, B. congruence. }
        subst k'. eapply P; eauto.
      + assert (We : 0 < width_expr e) by (cbv beta iota in Hpw; now apply Nat.ltb_lt in Hpw).
        assert (Ends : forall n k0 L0, m_iter T e n g i k0 L0 -> k0 = i + n * width_expr e).
        { intros n k0 L0 Hit. destruct (iter_says T e Hp (proj1 (proj2 (steady_match T)) e Hp) n) as [I1 _]. apply I1 in Hit as (sh & Hsh & _ & -> & _). f_equal. apply (power_length (shapes_expr e)); [|assumption]. intros y Hy. now apply (proj1 (proj2 shape_width)). }
        inversion Hm as [|e0 q0 n g1 i1 j1 L3 Hq Hit| |]; subst. assert (En := Ends _ _ _ Hit).
        exists (n :: ks). eexists. split; [constructor; eassumption|]. split; [cbn [app]; apply mb_cons with k; [apply mp_quant with n; [reflexivity|assumption]|assumption]|].
        intros ks' b'' j' L' C' M'. cbn [prefers]. inversion C' as [| |e8 q8 n' b8 ks1 b1 Hn' C1]; subst. cbn [app] in M'. inversion M' as [|p0 b0 g0 i0 k' j0 L5 L6 M1 M2]; subst. cbn [groups_part] in *.
        inversion M1 as [|e0 q0 m g1 i1 j1 L7 Hqm Hit'| |]; subst. cbn in Hqm. apply Nat2N.inj in Hqm. subst m. assert (En' := Ends _ _ _ Hit').
        destruct (Nat.eq_dec n n') as [<-|Hne]; [right; split; [reflexivity|]; assert (i + n * width_expr e = k') by lia; subst k'; eapply P; eauto|]. left.
        assert (D : (if q_alt q then n < n' else n' < n) \/ pref (q_alt q) k' (i + n * width_expr e)) by (unfold pref; destruct (q_alt q); nia). destruct D as [D|D]; [assumption|]. exfalso.
        assert (Fi : firsts (q_alt q) (map fst (w_part has T (PQuant e q) g i))) by (apply (quant_firsts (w_expr has T e g) (width_expr e)); intros i' p'; now apply (proj1 (proj2 ways_ends))).
        assert (Iy : In (k', L5) (w_part has T (PQuant e q) g i)) by (apply (proj1 (ways_exact T HT has Hhas) (PQuant e q) g Hlp); [assumption|]; now apply mp_quant with n').
        assert (Ne : w_branch has T (b ++ c) (g + groups_expr e) k' <> []).
        { assert (Hk' : i <= k' <= length T) by (exact (proj1 (m_range T) _ _ _ _ _ M1)). assert (Y : In (j', L6) (w_branch has T (b ++ c) (g + groups_expr e) k')).
          { apply (proj1 (proj2 (proj2 (ways_exact T HT has Hhas))) (b ++ c) _ Hlc); [lia|]. apply counted_match; [assumption|]. eauto. }
          intros E. rewrite E in Y. destruct Y. }
        assert (Iy1 : In k' (map fst l1)).
        { rewrite El in Iy. apply in_app_or in Iy as [Iy|[Iy|Iy]].
          - now apply (in_map fst) in Iy.
          - injection Iy as Iy _. nia.
          - apply (Fi (map fst l1) (i + n * width_expr e) (map fst l2)); [rewrite El, map_app; reflexivity|now apply (in_map fst) in Iy|assumption]. }
        apply in_map_iff in Iy1 as (y & Ey & Hy). apply H1 in Hy. rewrite Ey in Hy. contradiction.
  Qed.
End Best.
Lemma flat_hd {A B} (f : A -> list B) l y : hd_error (flat_map f l) = Some y -> exists l1 x l2, l = l1 ++ x :: l2 /\ (forall u, In u l1 -> f u = []) /\ hd_error (f x) = Some y.
Proof.
  induction l as [|x l IH]; intros H; [discriminate H|]. cbn in H. destruct (f x) as [|z r] eqn:E.
  - cbn in H. apply IH in H as (l1 & x' & l2 & -> & H1 & H2). exists (x :: l1), x', l2. split; [reflexivity|]. split; [|assumption]. intros u [<-|Hu]; auto.
  - exists [], x, l. split; [reflexivity|]. split; [intros u []|]. rewrite E. exact H.
Qed.
Lemma seq_split n l1 x l2 : seq 0 n = l1 ++ x :: l2 -> x = length l1 /\ forall y, y < x -> In y l1.
Proof.
  intros E. assert (L : length (seq 0 n) = n) by apply seq_length. rewrite E, app_length in L. cbn [length] in L.
  assert (F : forall k, k < n -> nth k (l1 ++ x :: l2) 0 = k) by (intros k Hk; rewrite <- E; rewrite seq_nth by assumption; reflexivity).
  assert (X : x = length l1) by (rewrite <- (F (length l1)) by lia; rewrite app_nth2 by lia; now rewrite Nat.sub_diag). split; [assumption|]. intros y Hy. rewrite <- (F y) by lia. rewrite app_nth1 by lia. apply nth_In. lia.
Qed.
(** When the one-pass engine has one way of accepting at each state; the other engines always. *)
Definition keeps_order (en : engine) : Prop := match en with EOnePass op => one_accept op = true | _ => True end.
Theorem loose_preferred a z b s en T cs : compiled s en -> Forall scalar s -> G_ere (template a z b) s -> loose_branch b = true -> wide_branch b = true -> keeps_order en -> Forall scalar T ->
  engine_exec en T = Ok (Some cs) ->
  exists ks b' U R, counted_as b ks b' /\ fits_at a z b' T U R /\
    (forall ks' b'' U' R', counted_as b ks' b'' -> fits_at a z b'' T U' R' -> length U < length U' \/ length U = length U' /\ prefers b ks ks') /\
    (forall k, k < length cs -> nth k cs None = nth k (in_bytes T (moved (length U) (all_places b'))) None) /\ (~ is_dfa en -> reads_off T b' (length U) cs).
Proof.
  intros H Hs Hg Hb Hw Ho HT E. set (c := if z then [PEnd] else []). set (e := template a z b) in *.
  assert (Hc : caret_ok e = true) by (unfold caret_ok, e; now rewrite loose_carets).
  assert (Hl : loops_read e = true) by (unfold loops_read, e, template; cbn [forallb]; rewrite !forallb_app, (loose_loops b Hb Hw); now destruct a, z).
  assert (Hor : orderly e en = true).
  { assert (Ev : anchors_even e = true) by (unfold anchors_even, e; now rewrite loose_carets, loose_dollars). destruct en as [op|d|n|n|en0 offs]; cbn; auto. now destruct en0. }
  rewrite (exec_best s e en T atom_check H Hs HT Hg atom_check_iff Hl Hor) in E. injection E as E. destruct (hd_error (all_matches atom_check T e)) as [[[i j] L]|] eqn:Eh; [|discriminate E]. cbn [answer] in E. injection E as E.
  unfold all_matches in Eh. apply flat_hd in Eh as (l1 & i' & l2 & El & Hfirst & Hhd). destruct (seq_split _ _ _ _ El) as [_ Hl1].
  destruct (w_alts atom_check T e 1 i') as [|[j0 L0] rest] eqn:Ew; [discriminate Hhd|]. cbn [map hd_error fst snd] in Hhd. injection Hhd as -> -> <-.
  assert (Hh : hd_error (w_branch atom_check T (b ++ c) 1 i) = Some (j, L0) /\ (a = true -> i = 0)).
  { unfold e, template in Ew. fold c in Ew. cbn [w_alts] in Ew. rewrite app_nil_r in Ew. destruct a; cbn [app] in Ew; [|split; [now rewrite Ew|discriminate]]. cbn [w_branch w_part groups_part] in Ew. rewrite Nat.add_0_r in Ew.
    destruct (Nat.eqb_spec i 0) as [->|]; [|discriminate Ew]. rewrite then_one in Ew. split; [now rewrite Ew|auto]. }
  destruct Hh as [Hh Ha].
  assert (Hi : i <= length T). { assert (In i (seq 0 (S (length T)))) by (rewrite El; apply in_or_app; right; now left). rename H0 into Hin0; apply in_seq in Hin0. lia. }
  assert (Hlc : forallb loops_part c = true) by (unfold c; now destruct z).
  destruct (loose_best T HT atom_check atom_check_iff c b Hlc Hb Hw 1 i j L0 Hi Hh) as (ks & b' & C & M & P). assert (Sb := counted_steady _ _ _ C Hb).
  assert (Hm : matches T (template a z b') i j (L0 ++ [(0, (i, j))])).
  { exists L0. split; [|reflexivity]. apply ma_here. fold c. destruct a; cbn [app]; [|assumption]. rewrite (Ha eq_refl) in *. change L0 with ([] ++ L0). apply mb_cons with 0; [constructor|]. cbn [groups_part]. now rewrite Nat.add_0_r. }
  destruct (template_at T a z b' i j _ Sb Hm) as ((U & R & HU & Ei & ER) & Ej & HL). exists ks, b', U, R. split; [assumption|]. split; [assumption|].
  assert (Hm2 : matches T e i j (L0 ++ [(0, (i, j))])) by (apply loose_match; eauto).
  assert (Hin : forall i0, i0 <= length T -> w_alts atom_check T e 1 i0 <> [] -> i <= i0).
  { intros i0 Hi0 Hne. destruct (Nat.le_gt_cases i i0) as [|Hlt]; [assumption|]. exfalso. apply Hne. specialize (Hfirst i0 (Hl1 i0 Hlt)). now destruct (w_alts atom_check T e 1 i0). }
  split.
  - intros ks' b'' U' R' C' HU'. assert (Sb' := counted_steady _ _ _ C' Hb). destruct (template_fits T a z b'' U' R' Sb' HU') as (L2 & Hm'). assert (Hm3 : matches T e (length U') (length U' + length R') L2) by (apply loose_match; eauto).
    assert (B : length U' <= length T) by (destruct HU' as [(V & -> & _) _]; rewrite app_length; lia).
    assert (I' : i <= length U'). { destruct Hm3 as (L3 & Hm3 & _). apply Hin; [assumption|]. apply (proj2 (proj2 (proj2 (ways_exact T HT atom_check atom_check_iff))) e 1 Hl) in Hm3; [|assumption]. intros E0. rewrite E0 in Hm3. destruct Hm3. }
    destruct (Nat.eq_dec i (length U')) as [Eq|]; [right|left; lia]. split; [congruence|]. destruct Hm' as (L3 & Hm' & _). inversion Hm' as [b1 bs g0 i0 j0 L4 Hmb|b1 bs g0 i0 j0 L4 Hmb]; subst; [|inversion Hmb]. fold c in Hmb.
    destruct a; cbn [app] in Hmb; [|apply (P ks' b'' (length U' + length R') L3 C'); now rewrite Eq]. inversion Hmb as [|p0 b0 g1 i1 k j1 L5 L6 M1 M2]; subst. inversion M1; subst. cbn [groups_part] in M2. rewrite Nat.add_0_r in M2. apply (P ks' b'' (length U' + length R') L6 C'). rewrite (Ha eq_refl). assumption.
  - subst cs. rewrite Ei. split.
    + intros k Hk. rewrite map_length, seq_length in Hk. rewrite nth_captures by assumption. symmetry. now apply last_off.
    + intros Hd. apply roomy_off; [assumption|]. destruct (compiled_counted s en H Hs) as (e' & Hg' & Hcn). assert (e' = e) as -> by (apply parse_iff in Hg, Hg'; congruence). intros k Hk. eapply counted_uses; eauto.
Qed.
