(** The fields of a record. *)
From Coq Require Import String.
From Verif Require Import PClassRun PToken PStrip PAll PCompile PAnchored PCount PLazyAll PRoom PLiteral PropPriority PropCount SpecGroups SpecLaws SpecPriority SpecLiteral SpecCaret SpecToken.
From Coq Require Import ZifyBool ZifyNat ZifyN.
Open Scope nat_scope.
Open Scope list_scope.
Notation length := List.length.

Section Fields.
  Variable s : N.
  Definition no_sep : atom := NonmatchingList [Single s].
  Definition field : part := PSingle (XSub [[PQuant (XAtom no_sep) {| q_type := QStar; q_alt := false |}]]).
  Fixpoint more (k : nat) (b : branch) : branch := match k with 0 => b | S k' => chr s :: field :: more k' b end.
  Definition fields (k : nat) : ere := [PStart :: field :: more k [PEnd]].
  Lemma no_sep_has c : atom_has no_sep c <-> c <> s.
  Proof.
    cbn. split.
    - intros H ->. apply H. exists (Single s). split; [now left|reflexivity].
    - intros H (t & [<-|[]] & E). cbn in E. congruence.
  Qed.
  Lemma no_sep_grammar : G_atom no_sep (s2l "[^" ++ [s] ++ s2l "]").
  Proof.
    apply Ga_nlist. cbn [app]. destruct (N.eq_dec s (ch "]")) as [->|Hs]; [apply Gl_bracket, Gb_end|]. apply Gl_plain.
    - intros (r & E). now injection E as ->.
    - apply Gb_single; [assumption| | |apply Gb_end].
      + intros (k & r & E). destruct k; discriminate E.
      + intros (r & E). discriminate E.
  Qed.
  Lemma field_grammar : G_part field (field_text s).
  Proof.
    unfold field, field_text. replace (s2l "([^" ++ [s] ++ s2l "]*)") with (s2l "(" ++ ((s2l "[^" ++ [s] ++ s2l "]") ++ s2l "*") ++ s2l ")") by reflexivity.
    apply Gp_single, Gx_sub. apply run_grammar; [apply no_sep_grammar|]. apply Gq_default, Gq_star.
  Qed.
  Lemma more_grammar k b t : G_branch b t -> G_branch (more k b) (more_fields s k ++ t).
  Proof.
    intros Hb. induction k as [|k IH]; cbn [more more_fields]; [assumption|]. rewrite <- !app_assoc. apply Gbr_cons; [apply Gp_single, Gx_atom, quote1_atom|]. apply Gbr_cons; [apply field_grammar|assumption].
  Qed.
  Lemma fields_grammar k : G_ere (fields k) (fields_text s k).
  Proof.
    apply Ge_one. unfold fields_text. apply Gbr_cons; [constructor|]. rewrite <- app_assoc. apply Gbr_cons; [apply field_grammar|]. apply more_grammar.
    rewrite <- (app_nil_r (s2l "$")). apply Gbr_cons; constructor.
  Qed.
  Lemma fields_scalar k : scalar s -> Forall scalar (fields_text s k).
  Proof.
    intros Hs. assert (F : Forall scalar (field_text s)) by (repeat (constructor || assumption)).
    unfold fields_text. apply Forall_app. split; [repeat constructor|]. apply Forall_app. split; [|repeat constructor]. apply Forall_app. split; [assumption|].
    induction k as [|k IH]; cbn [more_fields]; [constructor|]. apply Forall_app. split; [unfold quote1; destruct (existsb _ _); repeat constructor; assumption|]. now apply Forall_app.
  Qed.

  (** *** What it matches *)
  Variable T : list N.
  Lemma field_match b g i j L : m_branch T (field :: b) g i j L <->
    exists n L2, i + n <= length T /\ ~ In s (firstn n (skipn i T)) /\ m_branch T b (S g) (i + n) j L2 /\ L = (g, (i, i + n)) :: L2.
  Proof.
    assert (NS : forall l, Forall (atom_has no_sep) l <-> ~ In s l).
    { intros l. rewrite Forall_forall. split; [intros H Hi; apply H, no_sep_has in Hi; now apply Hi|]. intros H x Hx. apply no_sep_has. intros ->. contradiction. }
    split.
    - intros H. inversion H as [|p b0 g0 i0 k j0 L1 L2 H1 H2]; subst. inversion H1 as [e0 g1 i1 j1 L3 Hx| | |]; subst. inversion Hx as [|bs g2 i2 j2 L4 Ha]; subst.
      inversion Ha as [b1 bs g3 i3 j3 L5 Hb|b1 bs g3 i3 j3 L5 Hb]; subst; [|inversion Hb]. inversion Hb as [|p b1 g4 i4 k1 j4 L6 L7 H3 H4]; subst. inversion H4; subst. inversion H3 as [|e1 q0 n g5 i5 j5 L8 Hq Hi| |]; subst.
      apply iter_match in Hi as (-> & -> & Hl & HF). exists n, L2. split; [assumption|]. split; [now apply NS|]. split; [|reflexivity].
      change (groups_part field) with 1 in H2. now rewrite Nat.add_1_r in H2.
    - intros (n & L2 & Hl & HF & Hb & ->). change ((g, (i, i + n)) :: L2) with (([] ++ [(g, (i, i + n))]) ++ L2). apply mb_cons with (j := i + n).
      + apply mp_single, me_group, ma_here. change (@nil (nat * (nat * nat))) with (@nil (nat * (nat * nat)) ++ []). apply mb_cons with (j := i + n); [|now constructor]. apply mp_quant with n; [exact I|].
        apply iter_match. split; [reflexivity|]. split; [reflexivity|]. split; [assumption|]. now apply NS.
      + change (groups_part field) with 1. now rewrite Nat.add_1_r.
  Qed.
  Fixpoint field_log (g i : nat) (Fs : list (list N)) : log :=
    match Fs with [] => [] | F :: r => (g, (i, i + length F)) :: field_log (S g) (S (i + length F)) r end.
  Definition no_seps (Fs : list (list N)) : Prop := Forall (fun F => ~ In s F) Fs.
  Lemma skipn_add {A} n : forall i (l : list A), skipn n (skipn i l) = skipn (i + n) l.
  Proof. induction i as [|i IH]; intros l; [reflexivity|]. destruct l as [|x l]; [now rewrite !skipn_nil|]. cbn. apply IH. Qed.
  Lemma skipn_app_len {A} i (l u v : list A) : skipn i l = u ++ v -> firstn (length u) (skipn i l) = u /\ skipn (i + length u) l = v /\ (i <= length l -> i + length u <= length l).
  Proof.
    intros E. rewrite <- skipn_add, E. split; [now rewrite firstn_app, Nat.sub_diag, firstn_all, app_nil_r|]. split; [now rewrite skipn_app, Nat.sub_diag, skipn_all|].
    intros Hi. apply (f_equal (@length A)) in E. rewrite skipn_length, app_length in E. lia.
  Qed.
  Lemma more_match k : forall g i j L, i <= length T -> m_branch T (field :: more k [PEnd]) g i j L <->
    exists Fs, length Fs = S k /\ no_seps Fs /\ skipn i T = join s Fs /\ j = length T /\ L = field_log g i Fs.
  Proof.
    induction k as [|k IH]; intros g i j L Hi; rewrite field_match; cbn [more].
    - split.
      + intros (n & L2 & Hn & HF & Hb & ->). apply (end_match T true) in Hb as (-> & _ & He & ->). specialize (He eq_refl). assert (El : length (skipn i T) = n) by (rewrite skipn_length; lia).
        rewrite <- El, firstn_all in HF. exists [skipn i T]. split; [reflexivity|]. split; [repeat constructor; assumption|]. split; [reflexivity|]. split; [assumption|]. cbn. now rewrite El.
      + intros (Fs & Hl & HF & E & -> & ->). destruct Fs as [|F [|F' Fs]]; try discriminate Hl. cbn [join] in E. inversion HF; subst. assert (El : i + length (skipn i T) = length T) by (rewrite skipn_length; lia).
        exists (length (skipn i T)), []. split; [lia|]. split; [now rewrite firstn_all|]. split; [|reflexivity]. rewrite El. apply (end_match T true). auto.
    - split.
      + intros (n & L2 & Hn & HF & Hb & ->). change (chr s :: field :: more k [PEnd]) with (map chr [s] ++ field :: more k [PEnd]) in Hb. apply chars_match in Hb as [Hb Hw]. cbn [length] in Hb, Hw. rewrite Nat.add_1_r in Hb.
        destruct (skipn (i + n) T) as [|x r] eqn:Es; [discriminate Hw|]. cbn in Hw. injection Hw as ->.
        assert (Hlt : S (i + n) <= length T) by (apply (f_equal (@length N)) in Es; rewrite skipn_length in Es; cbn in Es; lia).
        apply IH in Hb as (Fs & F1 & F2 & F3 & F4 & ->); [|assumption]. exists (firstn n (skipn i T) :: Fs).
        assert (En : length (firstn n (skipn i T)) = n) by (rewrite firstn_length, skipn_length; lia).
        split; [cbn; lia|]. split; [constructor; assumption|]. split; [|split; [assumption|cbn [field_log]; now rewrite En]].
        destruct Fs as [|F Fs]; [discriminate F1|]. change (join s (firstn n (skipn i T) :: F :: Fs)) with (firstn n (skipn i T) ++ s :: join s (F :: Fs)). rewrite <- F3. rewrite <- (firstn_skipn n (skipn i T)) at 1. f_equal. rewrite skipn_add, Es. f_equal.
        replace (S (i + n)) with (i + n + 1) by lia. rewrite <- skipn_add, Es. reflexivity.
      + intros (Fs & Hl & HF & E & -> & ->). destruct Fs as [|F [|F' Fs]]; try discriminate Hl. inversion HF as [|? ? HF1 HF2]; subst. change (join s (F :: F' :: Fs)) with (F ++ s :: join s (F' :: Fs)) in E.
        destruct (skipn_app_len i T F _ E) as (E1 & E2 & E3). exists (length F), (field_log (S g) (S (i + length F)) (F' :: Fs)). split; [auto|]. split; [now rewrite E1|]. split; [|reflexivity].
        change (chr s :: field :: more k [PEnd]) with (map chr [s] ++ field :: more k [PEnd]). apply chars_match. cbn [length]. rewrite E2. split; [|reflexivity]. rewrite Nat.add_1_r.
        assert (E4 : skipn (S (i + length F)) T = join s (F' :: Fs)) by (replace (S (i + length F)) with (i + length F + 1) by lia; rewrite <- skipn_add, E2; reflexivity).
        apply IH; [|exists (F' :: Fs); cbn [length] in *; auto]. apply (f_equal (@length N)) in E2. rewrite skipn_length in E2. cbn [length] in E2. lia.
  Qed.
  Lemma fields_match k i j L : matches T (fields k) i j L <->
    exists Fs, length Fs = S k /\ no_seps Fs /\ T = join s Fs /\ i = 0 /\ j = length T /\ L = field_log 1 0 Fs ++ [(0, (0, length T))].
  Proof.
    split.
    - intros (L' & H & ->). inversion H as [b bs g0 i0 j0 L0 Hb|b bs g0 i0 j0 L0 Hb]; subst; [|inversion Hb]. inversion Hb as [|p b g1 i1 k1 j1 L1 L2 H1 H2]; subst. inversion H1; subst.
      cbn [groups_part] in H2. rewrite Nat.add_0_r in H2. apply more_match in H2 as (Fs & F1 & F2 & F3 & -> & ->); [|lia]. exists Fs. cbn [skipn] in F3. auto 10.
    - intros (Fs & F1 & F2 & F3 & -> & -> & ->). exists (field_log 1 0 Fs). split; [|reflexivity]. apply ma_here. change (field_log 1 0 Fs) with ([] ++ field_log 1 0 Fs). apply mb_cons with (j := 0); [constructor|].
      cbn [groups_part]. rewrite Nat.add_0_r. apply more_match; [lia|]. exists Fs. auto.
  Qed.
  Lemma split_sep U V U' V' : ~ In s U -> ~ In s U' -> U ++ s :: V = U' ++ s :: V' -> U = U' /\ V = V'.
  Proof.
    revert U'. induction U as [|x U IH]; intros [|y U'] H H' E; cbn in *.
    - injection E as ->. auto.
    - injection E as E _. exfalso. apply H'. now left.
    - injection E as E _. exfalso. apply H. now left.
    - injection E as -> E. destruct (IH U') as [-> ->]; auto.
  Qed.
  Lemma join_inj Fs : forall Fs', length Fs = length Fs' -> no_seps Fs -> no_seps Fs' -> join s Fs = join s Fs' -> Fs = Fs'.
  Proof.
    induction Fs as [|F Fs IH]; intros [|F' Fs'] Hl H H' E; try discriminate Hl; [reflexivity|]. inversion H as [|? ? H1 H2]; inversion H' as [|? ? H1' H2']; subst. destruct Fs as [|G Fs], Fs' as [|G' Fs']; try discriminate Hl.
    - cbn in E. now rewrite E.
    - change (F ++ s :: join s (G :: Fs) = F' ++ s :: join s (G' :: Fs')) in E. apply split_sep in E as [-> E]; [|assumption|assumption]. f_equal. apply IH; auto.
  Qed.
  Lemma field_last k : forall Fs g i M, g + length Fs <= k -> last_of k M = None -> last_of k (field_log g i Fs ++ M) = None.
  Proof.
    induction Fs as [|F Fs IH]; intros g i M Hk HM; cbn [field_log app last_of length] in *; [assumption|]. rewrite IH by (lia || assumption). replace (g =? k) with false by lia. reflexivity.
  Qed.
  Lemma field_before k : forall Fs g i M, k < g -> last_of k (field_log g i Fs ++ M) = last_of k M.
  Proof.
    induction Fs as [|F Fs IH]; intros g i M Hk; cbn [field_log app last_of]; [reflexivity|]. rewrite IH by lia. destruct (last_of k M); [reflexivity|]. now replace (g =? k) with false by lia.
  Qed.
  Lemma byte_pos_add i n : i + n <= length T -> byte_pos T (i + n) = byte_pos T i + bytes_of (firstn n (skipn i T)).
  Proof.
    intros H. unfold byte_pos, bytes_of. rewrite <- list_sum_app, <- map_app. do 2 f_equal. rewrite <- (firstn_skipn i (firstn (i + n) T)). rewrite firstn_firstn, Nat.min_l by lia. f_equal.
    rewrite firstn_skipn_comm. reflexivity.
  Qed.
  Lemma field_captures : forall Fs g i M, i <= length T -> skipn i T = join s Fs -> (forall k, g <= k -> last_of k M = None) ->
    map (capture T (field_log g i Fs ++ M)) (seq g (length Fs)) = field_spans s (byte_pos T i) Fs.
  Proof.
    induction Fs as [|F Fs IH]; intros g i M Hi E HM; [reflexivity|]. cbn [length seq map field_spans].
    assert (E' : exists v, skipn i T = F ++ v /\ (Fs = [] \/ v = s :: join s Fs)) by (destruct Fs as [|G Fs]; [exists []; cbn in E; rewrite app_nil_r; auto|exists (s :: join s (G :: Fs)); auto]).
    destruct E' as (v & Ev & Hv). destruct (skipn_app_len i T F v Ev) as (E1 & E2 & E3). specialize (E3 Hi). assert (Eb : byte_pos T (i + length F) = byte_pos T i + bytes_of F) by (rewrite byte_pos_add, E1 by lia; reflexivity). f_equal.
    - unfold capture. cbn [field_log app last_of]. rewrite field_before by lia. rewrite HM by lia. rewrite Nat.eqb_refl. now rewrite Eb.
    - destruct Hv as [->|Hv]; [reflexivity|]. assert (Hlt : i + length F < length T) by (apply (f_equal (@length N)) in E2; rewrite skipn_length, Hv in E2; cbn in E2; lia).
      assert (E4 : skipn (S (i + length F)) T = join s Fs) by (replace (S (i + length F)) with (i + length F + 1) by lia; rewrite <- skipn_add, E2, Hv; reflexivity).
      replace (byte_pos T i + bytes_of F + char_bytes s) with (byte_pos T (S (i + length F))).
      2:{ replace (S (i + length F)) with (i + length F + 1) by lia. rewrite (byte_pos_add (i + length F) 1) by lia. rewrite Eb, E2, Hv. cbn. lia. }
      rewrite <- (IH (S g) (S (i + length F)) M) by (lia || assumption || (intros; apply HM; lia)). apply map_ext_in. intros k Hk. apply in_seq in Hk. unfold capture. cbn [field_log app last_of].
      destruct (last_of k (field_log (S g) (S (i + length F)) Fs ++ M)) as [[x y]|]; [reflexivity|]. now replace (g =? k) with false by lia.
  Qed.
End Fields.
Lemma fields_carets s k : carets (fields s k) = Some 1.
Proof.
  assert (M : SpecCaret.total (map carets_part (more s k [PEnd])) = Some 0) by (induction k as [|k IH]; [reflexivity|]; cbn [more map]; change (SpecCaret.total (Some 0 :: Some 0 :: map carets_part (more s k [PEnd])) = Some 0); now rewrite !total_skip).
  unfold carets, fields. cbn [map common forallb]. unfold carets_branch. cbn [map]. change (carets_part PStart) with (Some 1). change (carets_part (field s)) with (Some 0). now rewrite total_cons, total_skip, M.
Qed.
Lemma fields_dollars s k : dollars (fields s k) = Some 1.
Proof.
  assert (M : SpecCaret.total (map dollars_part (more s k [PEnd])) = Some 1) by (induction k as [|k IH]; [reflexivity|]; cbn [more map]; change (SpecCaret.total (Some 0 :: Some 0 :: map dollars_part (more s k [PEnd])) = Some 1); now rewrite !total_skip).
  unfold dollars, fields. cbn [map common forallb]. unfold dollars_branch. cbn [map]. change (dollars_part PStart) with (Some 0). change (dollars_part (field s)) with (Some 0). now rewrite !total_skip, M.
Qed.
Lemma fields_groups s k : groups (fields s k) = S k.
Proof.
  assert (M : list_sum (map groups_part (more s k [PEnd])) = k) by (induction k as [|k IH]; [reflexivity|]; cbn [more map]; change (S (list_sum (map groups_part (more s k [PEnd]))) = S k); now rewrite IH).
  unfold groups, fields. cbn [map]. unfold groups_branch. cbn [map]. change (S (list_sum (map groups_part (more s k [PEnd]))) + 0 = S k). rewrite M. lia.
Qed.
Lemma fields_atoms s k a : In a (atoms (fields s k)) -> a = NormalChar s \/ a = no_sep s.
Proof.
  assert (M : forall x, In x (flat_map atoms_part (more s k [PEnd])) -> x = NormalChar s \/ x = no_sep s) by (induction k as [|k IH]; intros x; cbn; [tauto|]; intros [<-|[<-|H]]; auto).
  unfold atoms, fields. cbn [flat_map]. rewrite app_nil_r. unfold atoms_branch. cbn. intros [<-|H]; auto.
Qed.
Lemma fields_one s k : one_answer (fields s k).
Proof.
  intros T i j L i' j' L' m HT H H'. apply fields_match in H as (Fs & F1 & F2 & F3 & _ & _ & ->). apply fields_match in H' as (Fs' & F1' & F2' & F3' & _ & _ & ->).
  assert (Fs = Fs') as -> by (apply (join_inj s); congruence || assumption). reflexivity.
Qed.
Theorem fields_find s k en T : compiled (fields_text s k) en -> scalar s -> Forall scalar T ->
  exists o, engine_exec en T = Ok o /\ engine_test en T = Ok (match o with Some _ => true | None => false end) /\
    match o with
    | Some cs => exists Fs, length Fs = S k /\ Forall (fun F => ~ In s F) Fs /\ T = join s Fs /\ cs = Some (0, bytes_of T) :: field_spans s 0 Fs
    | None => forall Fs, length Fs = S k -> Forall (fun F => ~ In s F) Fs -> T <> join s Fs
    end.
Proof.
  intros H Hs0 HT. assert (Hs := fields_scalar s k Hs0). assert (Hg := fields_grammar s k). set (e := fields s k) in *.
  assert (Hc : caret_ok e = true) by (unfold caret_ok, e; now rewrite fields_carets).
  destruct (compiled_unique _ en e H Hs Hg) as (G1 & R & _). specialize (R (or_intror Hc)).
  destruct (right_test e en R T HT) as (b & Eb & Hb). destruct (right_exec e en R T HT) as (o & Eo & Ho). exists o. split; [assumption|]. destruct o as [cs|].
  - destruct (exec_room _ e en T cs H Hs HT Hg (or_intror Hc) Eo) as (i & j & L & Hm & Ec & Hr). rewrite Eb. split; [f_equal; apply Hb; now exists i, j, L|].
    apply fields_match in Hm as (Fs & F1 & F2 & F3 & -> & -> & ->). exists Fs. split; [assumption|]. split; [assumption|]. split; [assumption|].
    assert (G2 : engine_groups en = S (S k)).
    { destruct (C32_groups_partial _ en e H Hs Hg) as [C _]. unfold e in C. rewrite fields_groups in C. enough (S k < engine_groups en) by lia. apply Hr.
      clear - F1. assert (A : forall Fs g i k, length Fs = S k -> last_of (g + k) (field_log g i Fs ++ [(0, (0, length T))]) <> None).
      { clear. induction Fs as [|F Fs IH]; intros g i k Hl; [discriminate|]. cbn [field_log app last_of]. destruct k as [|k].
        - destruct (last_of (g + 0) _); [discriminate|]. rewrite Nat.add_0_r, Nat.eqb_refl. discriminate.
        - cbn in Hl. injection Hl as Hl. specialize (IH (S g) (S (i + length F)) k Hl). replace (g + S k) with (S g + k) by lia. destruct (last_of (S g + k) _); [discriminate|congruence]. }
      exact (A Fs 1 0 k F1). }
    rewrite Ec, G2. change (seq 0 (S (S k))) with (0 :: seq 1 (S k)). cbn [map]. f_equal.
    + unfold capture. rewrite field_before by lia. cbn [last_of Nat.eqb]. do 2 f_equal. unfold byte_pos, bytes_of. now rewrite firstn_all.
    + rewrite <- F1. change 0 with (byte_pos T 0) at 3. apply field_captures; [lia|exact F3|]. intros [|m] Hm; [lia|reflexivity].
  - rewrite Eb. split; [f_equal; destruct b; [exfalso; apply Ho; now apply Hb|reflexivity]|]. intros Fs F1 F2 F3. apply Ho. eexists _, _, _. apply fields_match. exists Fs. eauto 10.
Qed.
Theorem fields_compile s k : scalar s -> (0 < k -> exists en, compile_regex (fields_text s k) = Ok en) /\ (exists en, compile_flat (fields_text s k) = Ok en) /\ exists en, compile_flat_u8 (fields_text s k) = Ok en.
Proof.
  intros Hs0. assert (Hs := fields_scalar s k Hs0). assert (Hp : parse_str (fields_text s k) = ROk (fields s k)) by apply parse_iff, fields_grammar.
  assert (Ha : forall x, In x (atoms (fields s k)) -> named_well x) by (intros x Hx; apply fields_atoms in Hx as [->| ->]; [exact I|split; intros [E|[]]; discriminate E]).
  set (T := join s (repeat [] (S k))). assert (HT : Forall scalar T).
  { unfold T. clear - Hs0. induction k as [|k IH]; [constructor|]. change (repeat [] (S (S k))) with (@nil N :: repeat [] (S k)). change (join s ([] :: repeat [] (S k))) with (s :: join s (repeat [] (S k))). now constructor. }
  assert (Ho : occurs (fields s k) T).
  { eexists _, _, _. apply fields_match. exists (repeat [] (S k)). split; [apply repeat_length|]. split; [|auto]. unfold no_seps. apply Forall_forall. intros F HF. apply repeat_spec in HF. now subst F. }
  split; [|split; [exact (flat_compiles _ _ Hp Hs T Ha HT Ho)|exact (flat_u8_compiles _ _ Hp Hs T HT Ho)]].
  intros Hk. apply (anchors_compile _ _ T _ Hp Hs (fields_carets s k)); auto. right. split.
  - intros (i & j & L & Hm). apply fields_match in Hm as (Fs & F1 & _ & F3 & _). destruct Fs as [|F [|F' Fs]]; [discriminate F1|cbn in F1; lia|]. change (join s (F :: F' :: Fs)) with (F ++ s :: join s (F' :: Fs)) in F3. destruct F; discriminate F3.
  - right. exists 1. split; [apply fields_dollars|apply fields_one].
Qed.
