(** The one-pass and fixed-offset engines: all accepted words leave the same captures. *)
From Verif Require Import PStrip.
From Verif Require Export PPrioDfa.
From Verif Require Export PPrio.
From Coq Require Import ZifyBool ZifyNat ZifyN.
Open Scope nat_scope.
Open Scope list_scope.
Set Default Proof Using "Type".

Section Unique.
  Variable n : nfa range.
  Hypothesis Hok : ok n.
  Hypothesis Hlen : 1 <= length n.
  Hypothesis Hgr : groups_ok n.
  Notation g := (num_capture_groups n).
  Variable tab : op_tables.
  Hypothesis Htab : tables n tab.
  Variable T : list N.
  Notation rests := (rest T byte_check n).
  Notation marks1 := (run_marks (fun _ => 1)).

  Lemma end_marks s w : s < length n -> rests (length T) s w -> exists tu, In tu (nth s (op_accs tab) []) /\ forall b, marks1 (length T) w b = apply_tu (length T) tu b.
  Proof using Hok Hlen Hgr Htab.
    intros Hs Hr. destruct (rest_now T byte_check n _ s w Hr) as (u & q & v & -> & Hz & Hu & [(-> & -> & _)|(t & a & c & w' & -> & Hc & _)]).
    - rewrite app_nil_r. exists (tu_of g (length n - 1) u). split; [apply (proj2 (t_accs _ _ Htab s _ Hs)); exists u; auto|]. intros b. symmetry. apply apply_tu_of; [|eapply zpath_chars; eauto].
      intros k Hk. exact (zpath_groups n Hgr s u (length n - 1) k Hz Hk).
    - assert (X : nth_error T (length T) <> None) by congruence. apply nth_error_Some in X. lia.
  Qed.
  Lemma row_marks s j w : s < length n -> rests j s w -> j < length T -> exists r tu c w', In (r, tu) (nth s (op_syms tab) []) /\ nth_error T j = Some c /\ in_range c r = true /\
    rests (S j) (tu_state tu) w' /\ forall b, marks1 j w b = marks1 (S j) w' (apply_tu j tu b).
  Proof using Hok Hlen Hgr Htab.
    intros Hs Hr Hj. destruct (rest_now T byte_check n j s w Hr) as (u & q & v & -> & Hz & Hu & [(_ & _ & Ej)|(t & a & c & w' & -> & Hc & Ha & Hca & Hr')]); [lia|].
    exists a, (tu_of g t u), c, w'. split; [apply (proj2 (t_syms _ _ Htab s _ _ Hs)); exists u, q, t; auto|]. split; [assumption|]. split; [assumption|]. split; [exact Hr'|].
    intros b. assert (Hcu := zpath_chars _ _ _ _ Hz). rewrite run_marks_app. unfold wwidth. rewrite Hcu. cbn [run_marks]. rewrite (apply_tu_of g t u j b); [|intros k Hk; exact (zpath_groups n Hgr s u q k Hz Hk)|assumption].
    f_equal. cbn. lia.
  Qed.
  (** With at most one way to accept everywhere. *)
  Lemma vm_unique : (forall s, s < length n -> entered n s -> length (nth s (op_accs tab) []) <= 1) ->
    forall k j s w1 w2 b, length T - j <= k -> j <= length T -> s < length n -> entered n s -> rests j s w1 -> rests j s w2 -> marks1 j w1 b = marks1 j w2 b.
  Proof using Hok Hlen Hgr Htab.
    intros Hone. induction k as [|k IH]; intros j s w1 w2 b Hk Hj Hs He H1 H2.
    - assert (j = length T) as -> by lia. destruct (end_marks s w1 Hs H1) as (t1 & T1 & E1), (end_marks s w2 Hs H2) as (t2 & T2 & E2). rewrite E1, E2. specialize (Hone s Hs He).
      destruct (nth s (op_accs tab) []) as [|x [|]]; cbn in Hone; [destruct T1| |lia]. destruct T1 as [<-|[]], T2 as [<-|[]]. reflexivity.
    - destruct (Nat.eq_dec j (length T)) as [->|Hne]; [apply (IH (length T) s); auto; lia|]. assert (Hj' : j < length T) by lia.
      destruct (row_marks s j w1 Hs H1 Hj') as (r1 & u1 & c & v1 & A1 & A2 & A3 & A4 & A5), (row_marks s j w2 Hs H2 Hj') as (r2 & u2 & c2 & v2 & B1 & B2 & B3 & B4 & B5).
      assert (c2 = c) as -> by congruence. assert (X := t_unique _ _ Htab s _ _ c A1 B1 A3 B3). injection X as <- <-. rewrite A5, B5. destruct (row_entered n Hok Hlen Hgr tab Htab s r1 u1 Hs A1) as [E1 E2].
      apply (IH (S j) (tu_state u1)); auto; lia.
  Qed.
  Lemma fun_unique runs : compute_runs (op_syms tab) = Ok runs -> fun_compiles n tab runs = true ->
    forall k j s w1 w2 b, length T - j <= k -> j <= length T -> s < length n -> entered n s -> fun_emitted (op_excluded n) runs s = true ->
    rests j s w1 -> rests j s w2 -> marks1 j w1 b = marks1 j w2 b.
  Proof using Hok Hlen Hgr Htab.
    intros Hruns Hcomp. induction k as [|k IH]; intros j s w1 w2 b Hk Hj Hs He Hem H1 H2;
    (assert (HC := compiles_at n Hok Hlen Hgr tab Htab runs Hcomp s Hs He Hem)); (assert (HR := compute_runs_spec n Hok Hlen Hgr tab Htab runs Hruns s)).
    - assert (j = length T) as -> by lia. destruct (end_marks s w1 Hs H1) as (t1 & T1 & E1), (end_marks s w2 Hs H2) as (t2 & T2 & E2). rewrite E1, E2.
      destruct (nth s runs RNone) as [r| | |].
      + exfalso. destruct (HR Hs) as (R1 & R2 & R3 & R4). assert (X := chain_rest n Hok Hlen Hgr tab Htab T (run_symbols r) s (run_end r) (length T) w1 [] Hs R1 Hj (skipn_all T)).
        destruct (run_symbols r); [congruence|]. cbn [match_run] in X. contradiction.
      + contradiction.
      + destruct HC as [HC _]. destruct (nth s (op_accs tab) []) as [|x [|]]; cbn in HC; [destruct T1| |lia]. destruct T1 as [<-|[]], T2 as [<-|[]]. reflexivity.
      + destruct HC as [HC _]. destruct (nth s (op_accs tab) []) as [|x [|]]; cbn in HC; [destruct T1| |lia]. destruct T1 as [<-|[]], T2 as [<-|[]]. reflexivity.
    - destruct (Nat.eq_dec j (length T)) as [->|Hne]; [apply (IH (length T) s); auto; lia|]. assert (Hj' : j < length T) by lia.
      assert (Gen : (forall r tu, In (r, tu) (nth s (op_syms tab) []) -> fun_emitted (op_excluded n) runs (tu_state tu) = true) -> marks1 j w1 b = marks1 j w2 b).
      { intros Hem'. destruct (row_marks s j w1 Hs H1 Hj') as (r1 & u1 & c & v1 & A1 & A2 & A3 & A4 & A5), (row_marks s j w2 Hs H2 Hj') as (r2 & u2 & c2 & v2 & B1 & B2 & B3 & B4 & B5).
        assert (c2 = c) as -> by congruence. assert (X := t_unique _ _ Htab s _ _ c A1 B1 A3 B3). injection X as <- <-. rewrite A5, B5. destruct (row_entered n Hok Hlen Hgr tab Htab s r1 u1 Hs A1) as [E1 E2].
        apply (IH (S j) (tu_state u1)); auto; [lia|]. eapply Hem'; eauto. }
      destruct (nth s runs RNone) as [r| | |].
      + destruct (HR Hs) as (R1 & R2 & R3 & R4). assert (X := fun w => chain_rest n Hok Hlen Hgr tab Htab T (run_symbols r) s (run_end r) j w (skipn j T) Hs R1 Hj eq_refl).
        destruct (match_run (run_symbols r) (skipn j T)) as [text'|]; [|exfalso; exact (X w1 H1)].
        destruct (X w1) as (_ & L1 & c1 & X1 & Y1). destruct (X w2) as (_ & _ & c2 & X2 & Y2). apply X1 in H1 as (v1 & -> & V1). apply X2 in H2 as (v2 & -> & V2).
        assert (Hpos : 0 < length (run_symbols r)) by (destruct (run_symbols r); [congruence|cbn; lia]).
        rewrite !run_marks_app, !run_marks_chars. unfold wwidth. rewrite !chars_IC.
        assert (Et : forall l : list N, total_width (fun _ => 1) l = length l) by (induction l as [|x l IHl]; [reflexivity|unfold total_width in *; cbn; f_equal; exact IHl]).
        rewrite !Et, Y1, Y2. apply (IH (j + length (run_symbols r)) (run_end r)); auto; [lia|]. exact (chain_entered n Hok Hlen Hgr tab Htab s (run_symbols r) (run_end r) Hs R1 R3).
      + contradiction.
      + apply Gen, HC.
      + apply Gen, HC.
  Qed.
End Unique.

(** The table-driven form keeps only one of several ways to accept; here there is never more than one. *)
Definition one_accept (en : op_engine) : bool :=
  match op_k en with
  | OpFun _ => true
  | OpVm => forallb (fun s => length (nth s (op_accs (op_tab en)) []) <=? 1) (0 :: map (fun x : strans => tu_state (snd x)) (concat (op_syms (op_tab en))))
  end.
Lemma op_unique n op T W1 W2 b : ok n -> 1 <= length n -> groups_ok n -> (forall s t r, In (t, r) (trans (get n s)) -> byte_ok r) -> op_make n = Ok (Some op) -> one_accept op = true ->
  lang byte_check n W1 -> reads T 0 W1 (length T) -> lang byte_check n W2 -> reads T 0 W2 (length T) -> run_marks (fun _ => 1) 0 W1 b = run_marks (fun _ => 1) 0 W2 b.
Proof.
  intros Hok Hlen Hgr Hb H Hone L1 R1 L2 R2. unfold op_make in H. destruct (guard _) as [u| | |] eqn:Eg; try discriminate. cbn [bind] in H.
  destruct (op_analyse_spec n (ok_wf _ Hok) Hb) as (o & Eo & Ho). rewrite Eo in H. cbn [bind] in H. destruct o as [tab|]; [|discriminate].
  destruct (topological_ordering n) as [to| | |] eqn:Et; try discriminate. cbn [bind] in H.
  destruct to as [ord|].
  - destruct (compute_runs (op_syms tab)) as [runs| | |] eqn:Er; try discriminate. cbn [bind] in H.
    destruct (fun_compiles n tab runs) eqn:Ec; [|discriminate]. clear Hone.
    assert (E0 : fun_emitted (op_excluded n) runs 0 = true) by (unfold fun_compiles in Ec; now apply andb_true_iff in Ec as [Ec _]).
    apply (fun_unique n Hok Hlen Hgr tab Ho T runs Er Ec (length T) 0 0); auto; [lia|lia|now left|split; auto|split; auto].
  - destruct (vm_compiles n tab) eqn:Ec; [|discriminate]. injection H as <-. unfold one_accept in Hone. cbn [op_k op_tab] in Hone.
    apply (vm_unique n Hok Hlen Hgr tab Ho T) with (k := length T) (s := 0); auto; [|lia|lia|now left|split; auto|split; auto].
    intros s Hs He. rewrite forallb_forall in Hone. apply Nat.leb_le, Hone. destruct He as [->|(q & a & Ha)]; [now left|right].
    assert (Hq := trans_range _ _ _ Ha). assert (X : In (a, tu_of (num_capture_groups n) s []) (nth q (op_syms tab) [])) by (apply (t_syms _ _ Ho); [assumption|]; exists [], q, s; repeat split; auto; constructor).
    apply in_map_iff. exists (a, tu_of (num_capture_groups n) s []). split; [reflexivity|]. apply in_concat. exists (nth q (op_syms tab) []). split; [|assumption].
    apply nth_In. rewrite (t_syms_len _ _ Ho). assumption.
Qed.

Section Best.
  Variable s : list N.
  Variable e : ere.
  Hypothesis Hp : parse_str s = ROk e.
  Hypothesis Hs : Forall scalar s.
  Hypothesis Hloops : loops_read e = true.
  Variable T : list N.
  Hypothesis HT : Forall scalar T.
  Variable has : atom -> N -> bool.
  Hypothesis Hhas : forall a c, has a c = true <-> atom_has a c.
  Variable n : nfa atom.
  Variable m : nfa range.
  Hypothesis En : working_new (tree_of e) = Ok n.
  Hypothesis Em : u8_new n = Ok m.
  Hypothesis Hm : m <> [].
  Notation bw := (best T (tways acheck T (tree_of e))).
  (** The preferred word is one of the accepted ones, and there is one if any is accepted. *)
  Lemma best_accepted W : bw = Some W -> lang byte_check m (enc W) /\ reads (utf8 T) 0 (enc W) (length (utf8 T)).
  Proof using Hp Hs Hloops HT Em En Hm.
    intros E. assert (H := byte_best s e Hp Hs Hloops T HT n m En Em Hm). rewrite E in H. cbn [option_map] in H.
    assert (G := ev_sound byte_check (utf8 T) m (K0 (utf8 T)) 0 0 (enc W) H ltac:(lia)).
    destruct G as (u & v & j' & E' & G1 & G2 & G3). unfold K0, k0 in G3. destruct (Nat.eqb_spec j' (length (utf8 T))) as [->|]; [|discriminate]. injection G3 as ->.
    rewrite app_nil_r in E'. subst u. split; assumption.
  Qed.
  Lemma best_exists W : lang byte_check m W -> reads (utf8 T) 0 W (length (utf8 T)) -> bw <> None.
  Proof using Hp Hs Hloops HT Em En Hm Hhas.
    intros H1 H2 E. assert (Hb := parsed_u8_ne s e Hp Hs n m En Em Hm). assert (Ho : occurs e T) by (apply (byte_occurs e m T Hb HT); eauto).
    destruct Ho as (i & j & L & Hma). apply (all_matches_iff T HT has Hhas e i j L Hloops) in Hma.
    assert (X := best_picks T HT has Hhas e). rewrite E in X. destruct (all_matches has T e) as [|[[i0 j0] L0] l]; [destruct Hma|]. exact X.
  Qed.
  Lemma found_best g o : found byte_check (fun _ => 1) m g (utf8 T) o ->
    (forall W1 W2, lang byte_check m W1 -> reads (utf8 T) 0 W1 (length (utf8 T)) -> lang byte_check m W2 -> reads (utf8 T) 0 W2 (length (utf8 T)) ->
      run_marks (fun _ => 1) 0 W1 (no_bounds g) = run_marks (fun _ => 1) 0 W2 (no_bounds g)) ->
    run_finish T o = Ok (answer T g (hd_error (all_matches has T e))).
  Proof using Hp Hs Hloops HT Em En Hm Hhas.
    intros Hf Hu. rewrite <- (best_finish e Hloops T HT has Hhas). f_equal. destruct bw as [W|] eqn:E; cbn [option_map].
    - destruct (best_accepted W E) as [A1 A2]. destruct o as [b|]; cbn in Hf; [|exfalso; eapply Hf; eauto]. destruct Hf as (W' & B1 & B2 & ->).
      f_equal. rewrite (Hu W' (enc W)) by assumption. apply run_marks_enc.
    - destruct o as [b|]; [|reflexivity]. exfalso. destruct Hf as (W & B1 & B2 & _). exact (best_exists W B1 B2 E).
  Qed.
  Lemma one_pass_best op : op_make m = Ok (Some op) -> one_accept op = true -> op_exec op T = Ok (answer T (op_groups op) (hd_error (all_matches has T e))).
  Proof using Hp Hs Hloops HT Em En Hm Hhas.
    intros E Hone. destruct (parsed_u8_ne s e Hp Hs n m En Em Hm) as (M1 & M2 & M3 & M4 & M5 & M6 & M7).
    destruct (op_make_spec m M1 ltac:(lia) M5 M6 op E) as (Hg & H). destruct (H (utf8 T)) as (o & H1 & H2 & H3). unfold op_exec. rewrite H1. cbn [bind]. rewrite <- Hg in H3.
    apply found_best; [exact H3|]. intros W1 W2 A1 A2 B1 B2. eapply op_unique; eauto. lia.
  Qed.
End Best.

(** * Every engine *)
(** When an engine keeps the order of preference. *)
Definition orderly (e : ere) (en : engine) : bool :=
  match en with
  | EFlat _ | EFlatU8 _ => anchors_even e
  | EDfa _ => caret_ok e
  | EOnePass op => one_accept op
  | EFixed (EDfa _) _ => caret_ok e
  | EFixed _ _ => true
  end.
Section All.
  Variable s : list N.
  Variable e : ere.
  Hypothesis Hp : parse_str s = ROk e.
  Hypothesis Hs : Forall scalar s.
  Hypothesis Hloops : loops_read e = true.
  Variable T : list N.
  Hypothesis HT : Forall scalar T.
  Variable has : atom -> N -> bool.
  Hypothesis Hhas : forall a c, has a c = true <-> atom_has a c.
  Notation is_best en := (engine_exec en T = Ok (answer T (engine_groups en) (hd_error (all_matches has T e)))).
  Lemma make_dfa_best n m max d en : working_new (tree_of e) = Ok n -> u8_new n = Ok m -> tdfa_from_nfa m max = Ok (Some d) -> make_dfa d = Ok en -> orderly e en = true -> is_best en.
  Proof using Hp Hs Hloops HT Hhas.
    intros En Em Ed H Ho. unfold make_dfa in H. destruct (dfa_from_tagged d); try discriminate. cbn [bind] in H. injection H as <-. cbn [engine_exec engine_groups orderly] in *.
    apply (dfa_best s e n m max d T has); auto. intros ->. discriminate.
  Qed.
  Lemma make_flat_best n en : working_new (tree_of e) = Ok n -> make_flat n = Ok en -> orderly e en = true -> is_best en.
  Proof using Hp Hs Hloops HT Hhas.
    intros En H Ho. unfold make_flat in H. destruct (flat_make n) as [t| | |] eqn:Ef; try discriminate. cbn [bind] in H. destruct (nfa_compiles n); [|discriminate]. injection H as <-. cbn [engine_exec engine_groups orderly] in *.
    apply (flat_char_best s e); auto. intros ->. discriminate.
  Qed.
  Lemma make_flat_u8_best n m en : working_new (tree_of e) = Ok n -> u8_new n = Ok m -> make_flat_u8 m = Ok en -> orderly e en = true -> is_best en.
  Proof using Hp Hs Hloops HT Hhas.
    intros En Em H Ho. unfold make_flat_u8 in H. destruct (flat_make m) as [t| | |] eqn:Ef; try discriminate. cbn [bind] in H. injection H as <-. cbn [engine_exec engine_groups orderly] in *.
    eapply (flat_u8_best s e); eauto. intros ->. discriminate.
  Qed.
  Lemma one_best n m op : working_new (tree_of e) = Ok n -> u8_new n = Ok m -> op_make m = Ok (Some op) -> orderly e (EOnePass op) = true -> is_best (EOnePass op).
  Proof using Hp Hs Hloops HT Hhas.
    intros En Em H Ho. cbn [engine_exec engine_groups orderly] in *. apply (one_pass_best s e Hp Hs Hloops T HT has Hhas n m En Em); auto. intros ->. discriminate.
  Qed.
  Lemma base_best b u : pick_base_engine e = Ok (b, u) -> orderly e b = true -> is_best b.
  Proof using Hp Hs Hloops HT Hhas.
    intros H Ho. unfold pick_base_engine in H.
    destruct (working_new (tree_of e)) as [n| | |] eqn:En; try discriminate. cbn [bind] in H.
    destruct (u8_new n) as [m| | |] eqn:Em; try discriminate. cbn [bind] in H.
    destruct (op_make m) as [[o|]| | |] eqn:Eo; try discriminate; cbn [bind] in H; [injection H as <- <-; eapply one_best; eauto|].
    destruct (tdfa_from_nfa m _) as [[d|]| | |] eqn:Ed; try discriminate; cbn [bind] in H.
    - apply bind_ok in H as (x & Hx & H). injection H as -> _. eapply make_dfa_best; eauto.
    - apply bind_ok in H as (x & Hx & H). injection H as -> _. destruct (nfa_is_ascii n); [eapply make_flat_u8_best; eauto|eapply make_flat_best; eauto].
  Qed.
  Lemma fixed_best b u offs : pick_base_engine e = Ok (b, u) -> fixed_offsets u = Ok (Some offs) -> orderly e (EFixed b offs) = true -> is_best (EFixed b offs).
  Proof using Hp Hs Hloops HT Hhas.
    intros Eb Ef Ho. destruct (base_any_right s e b u Hp Hs Eb) as (Hu & _ & Hr). destruct (fixed_every e u offs Hu Ef) as [_ Every].
    assert (Hb : engine_right e b) by (apply Hr; cbn [orderly] in Ho; destruct b; auto). destruct (Hb T HT) as [Ht _]. cbn [engine_exec engine_groups]. unfold test_right in Ht.
    assert (I := all_matches_iff T HT has Hhas e). destruct (engine_test b T) as [[|]| | |]; try contradiction; cbn [bind].
    - destruct (proj1 Ht eq_refl) as (i & j & L & Hma). apply I in Hma; [|assumption]. destruct (all_matches has T e) as [|[[i0 j0] L0] l] eqn:E; [destruct Hma|]. cbn [hd_error answer].
      apply (Every T i0 j0 L0 HT). apply I; [assumption|now left].
    - destruct (all_matches has T e) as [|[[i0 j0] L0] l] eqn:E; [reflexivity|]. exfalso. assert (X : occurs e T) by (exists i0, j0, L0; apply I; [assumption|now left]). apply Ht in X. discriminate.
  Qed.
End All.
Lemma exec_best s e en T has : compiled s en -> Forall scalar s -> Forall scalar T -> G_ere e s -> (forall a c, has a c = true <-> atom_has a c) -> loops_read e = true -> orderly e en = true ->
  engine_exec en T = Ok (answer T (engine_groups en) (hd_error (all_matches has T e))).
Proof.
  intros H Hs HT Hg Hhas Hl Ho. apply parse_iff in Hg.
  destruct H as [H|[H|[H|[H|[H|H]]]]]; apply with_ere_ok in H as (e' & Hp & H); rewrite Hg in Hp; injection Hp as <-.
  - unfold pick_engine in H. destruct (pick_base_engine e) as [[b u]| | |] eqn:Eb; try discriminate. cbn [bind] in H.
    destruct (fixed_offsets u) as [[offs|]| | |] eqn:Ef; try discriminate; cbn [bind] in H.
    + destruct (length offs =? num_capture_groups u) eqn:El; [|discriminate]. injection H as <-. eapply fixed_best; eauto.
    + injection H as <-. eapply base_best; eauto.
  - destruct (working_new (tree_of e)) as [n| | |] eqn:En; try discriminate. cbn [bind] in H. destruct (u8_new n) as [m| | |] eqn:Em; try discriminate. cbn [bind] in H.
    destruct (tdfa_from_nfa m _) as [[d|]| | |] eqn:Ed; try discriminate; cbn [bind] in H. eapply make_dfa_best; eauto.
  - apply bind_ok in H as (n & En & H). eapply make_flat_best; eauto.
  - apply bind_ok in H as (n & En & H). apply bind_ok in H as (m & Em & H). eapply make_flat_u8_best; eauto.
  - apply bind_ok in H as (n & En & H). apply bind_ok in H as (m & Em & H). destruct (op_make m) as [[op|]| | |] eqn:Eo; try discriminate. cbn [bind] in H. injection H as <-. eapply one_best; eauto.
  - destruct (pick_base_engine e) as [[b u]| | |] eqn:Eb; try discriminate. cbn [bind] in H.
    destruct (fixed_offsets u) as [[offs|]| | |] eqn:Ef; try discriminate; cbn [bind] in H.
    destruct (length offs =? num_capture_groups u) eqn:El; [|discriminate]. injection H as <-. eapply fixed_best; eauto.
Qed.

Lemma map_nth_error_inv {A B} (f : A -> B) l : forall k y, nth_error (map f l) k = Some y -> exists x, nth_error l k = Some x /\ f x = y.
Proof. induction l as [|a l IH]; intros [|k] y H; cbn in H; try discriminate; [injection H as <-; exists a; auto|apply IH in H; exact H]. Qed.
Lemma nth_seq_inv n k : forall a x, nth_error (seq a n) k = Some x -> x = a + k.
Proof. revert k. induction n as [|n IH]; intros [|k] a x H; cbn in H; try discriminate; [injection H as <-; lia|]. apply IH in H. lia. Qed.
Lemma hd_flat_map {A B} (f : A -> list B) l x : hd_error (flat_map f l) = Some x -> exists l1 a l2, l = l1 ++ a :: l2 /\ hd_error (f a) = Some x /\ forall b, In b l1 -> f b = [].
Proof.
  induction l as [|a l IH]; [discriminate|]. cbn. destruct (f a) as [|y r] eqn:E; cbn.
  - intros H. destruct (IH H) as (l1 & b & l2 & -> & H1 & H2). exists (a :: l1), b, l2. split; [reflexivity|]. split; [assumption|]. intros c [<-|Hc]; auto.
  - intros H. exists [], a, l. split; [reflexivity|]. rewrite E. split; [exact H|intros b []].
Qed.
Lemma exec_leftmost s e en T cs : compiled s en -> Forall scalar s -> Forall scalar T -> G_ere e s -> loops_read e = true -> orderly e en = true ->
  engine_exec en T = Ok (Some cs) ->
  exists i j L, matches T e i j L /\ nth_error cs 0 = Some (Some (byte_pos T i, byte_pos T j)) /\ (forall i' j' L', matches T e i' j' L' -> i <= i').
Proof.
  intros H Hs HT Hg Hl Ho E. rewrite (exec_best s e en T atom_check H Hs HT Hg atom_check_iff Hl Ho) in E. injection E as E.
  assert (I := all_matches_iff T HT atom_check atom_check_iff e). destruct (hd_error (all_matches atom_check T e)) as [[[i j] L]|] eqn:Eh; [|discriminate]. injection E as <-.
  exists i, j, L. assert (Hin : In (i, j, L) (all_matches atom_check T e)) by (destruct (all_matches atom_check T e); [discriminate|injection Eh as ->; now left]).
  split; [now apply I|]. destruct (compiled_right s en H Hs) as (_ & _ & Hgr & _).
  assert (S : exists L', L = L' ++ [(0, (i, j))]).
  { unfold all_matches in Hin. apply in_flat_map in Hin as (a & _ & Hin). apply in_map_iff in Hin as ((j0 & L0) & Ex & _). cbn in Ex. injection Ex as <- <- <-. eauto. }
  split.
  - destruct S as (L' & ->). destruct (engine_groups en); [lia|]. cbn [seq map nth_error]. f_equal. unfold capture. 
    replace (last_of 0 (L' ++ [(0, (i, j))])) with (Some (i, j)); [reflexivity|]. clear. induction L' as [|[k p] L' IH]; [reflexivity|]. cbn. now rewrite <- IH.
  - intros i' j' L' Hm. apply (I i' j' L' Hl) in Hm. unfold all_matches in Eh. apply hd_flat_map in Eh as (l1 & a & l2 & Ea & Eh & Hno).
    assert (a = i) by (destruct (w_alts atom_check T e 1 a) as [|[j0 L0]]; [discriminate|cbn in Eh; now injection Eh]). subst a.
    destruct (le_lt_dec i i') as [|Hlt]; [assumption|exfalso]. unfold all_matches in Hm. apply in_flat_map in Hm as (a & Ha & Hm). apply in_map_iff in Hm as ((j0 & L0) & Ex & Hm). cbn in Ex.
    injection Ex as <- _ _. assert (Hi : In a l1).
    { rewrite Ea in Ha. apply in_app_iff in Ha as [Ha|Ha]; [assumption|]. exfalso. assert (X : forall l1 n b, seq b n = l1 ++ i :: l2 -> forall x, In x (i :: l2) -> i <= x).
      { clear. induction l1 as [|y l1 IH]; intros n b E x Hx; destruct n as [|n]; try discriminate; cbn in E; injection E as -> E.
        - destruct Hx as [<-|Hx]; [lia|]. rewrite <- E in Hx. apply in_seq in Hx. lia.
        - eapply IH; eauto. }
      specialize (X _ _ _ Ea a Ha). lia. }
    specialize (Hno a Hi). destruct (w_alts atom_check T e 1 a); [destruct Hm|discriminate].
Qed.
