(** Records. *)
From Coq Require Import String.
From Verif Require Import PClassRun PToken PStrip PAll PCompile PAnchored PCount PLazyAll PRoom PLiteral PLaws PFields PTemplate PReadme PropPriority PropCount SpecGroups SpecLaws SpecPriority SpecLiteral SpecCaret SpecTemplate SpecRecord.
From Coq Require Import ZArith Lia ZifyBool ZifyNat ZifyN.
Open Scope nat_scope.
Open Scope list_scope.
Local Notation length := List.length.

Definition numbered (g n : nat) (L : log) : Prop := Forall (fun x => g <= fst x < g + n) L.
Lemma numbered_wide g n g' n' L : g' <= g -> g + n <= g' + n' -> numbered g n L -> numbered g' n' L.
Proof. intros H1 H2. apply Forall_impl. intros x Hx. lia. Qed.
Lemma log_numbers T : (forall p g i j L, m_part T p g i j L -> numbered g (groups_part p) L) /\
  (forall e n g i j L, m_iter T e n g i j L -> numbered g (groups_expr e) L) /\
  (forall e g i j L, m_expr T e g i j L -> numbered g (groups_expr e) L) /\
  (forall e g i j L, m_alts T e g i j L -> numbered g (groups e) L) /\
  (forall b g i j L, m_branch T b g i j L -> numbered g (groups_branch b) L).
Proof.
  apply match_ind; intros; try (constructor; fail); auto.
  - now apply Forall_app.
  - change (groups_expr (XSub bs)) with (S (groups bs)). apply Forall_app. split; [eapply numbered_wide; [| |eassumption]; lia|]. repeat constructor; cbn; lia.
  - change (groups (b :: bs)) with (groups_branch b + groups bs). eapply numbered_wide; [| |eassumption]; lia.
  - change (groups (b :: bs)) with (groups_branch b + groups bs). eapply numbered_wide; [| |eassumption]; lia.
  - change (groups_branch (p :: b)) with (groups_part p + groups_branch b). apply Forall_app. split; (eapply numbered_wide; [| |eassumption]; lia).
Qed.
Lemma no_log T e g i j L : groups e = 0 -> m_alts T e g i j L -> L = [].
Proof. intros H Hm. apply (log_numbers T) in Hm. rewrite H in Hm. destruct Hm as [|x L Hx]; [reflexivity|lia]. Qed.
(** The characters of a match belong to atoms. *)
Lemma match_atoms T (P : atom -> Prop) :
  (forall p g i j L, m_part T p g i j L -> (forall a, In a (atoms_part p) -> P a) -> forall x c, i <= x < j -> nth_error T x = Some c -> exists a, P a /\ atom_has a c) /\
  (forall e n g i j L, m_iter T e n g i j L -> (forall a, In a (atoms_expr e) -> P a) -> forall x c, i <= x < j -> nth_error T x = Some c -> exists a, P a /\ atom_has a c) /\
  (forall e g i j L, m_expr T e g i j L -> (forall a, In a (atoms_expr e) -> P a) -> forall x c, i <= x < j -> nth_error T x = Some c -> exists a, P a /\ atom_has a c) /\
  (forall e g i j L, m_alts T e g i j L -> (forall a, In a (atoms e) -> P a) -> forall x c, i <= x < j -> nth_error T x = Some c -> exists a, P a /\ atom_has a c) /\
  (forall b g i j L, m_branch T b g i j L -> (forall a, In a (atoms_branch b) -> P a) -> forall x c, i <= x < j -> nth_error T x = Some c -> exists a, P a /\ atom_has a c).
Proof.
  apply match_ind; intros; auto; try lia; try (eauto; fail).
  - destruct (Nat.lt_ge_cases x j); [eapply H|eapply H0]; eauto; lia.
  - assert (x = i) as -> by lia. exists a. split; [apply H; now left|congruence].
  - eapply H; eauto. intros a Ha. apply H0. apply in_or_app. now left.
  - eapply H; eauto. intros a Ha. apply H0. apply in_or_app. now right.
  - destruct (Nat.lt_ge_cases x j); [eapply H|eapply H0]; eauto; try lia; intros a Ha; apply H1; apply in_or_app; auto.
Qed.
Lemma spells_atoms e F c : spells e F -> In c F -> exists a, In a (atoms e) /\ atom_has a c.
Proof.
  intros (L & L' & Hm & _) Hc. apply In_nth_error in Hc as (x & Hx). eapply (proj1 (proj2 (proj2 (proj2 (match_atoms F (fun a => In a (atoms e))))))); eauto. split; [lia|]. apply nth_error_Some. congruence.
Qed.

Definition plain (e : ere) : Prop := anchor_free e = true /\ groups e = 0.
Definition apart_from (f : ere * N) : Prop := forall a, In a (atoms (fst f)) -> ~ atom_has a (snd f).
Lemma apart_spells f F : apart_from f -> spells (fst f) F -> ~ In (snd f) F.
Proof. intros H HF Hc. destruct (spells_atoms _ _ _ HF Hc) as (a & Ha & Hh). exact (H a Ha Hh). Qed.
Lemma group_match T e b g i j L : plain e -> m_branch T (PSingle (XSub e) :: b) g i j L <->
  exists F v L2, skipn i T = F ++ v /\ i <= length T /\ spells e F /\ m_branch T b (S g) (i + length F) j L2 /\ L = (g, (i, i + length F)) :: L2.
Proof.
  intros [Hf Hg]. assert (G : g + groups_part (PSingle (XSub e)) = S g) by (change (g + S (groups e) = S g); rewrite Hg; lia). split.
  - intros H. inversion H as [|p b0 g0 i0 k j0 L1 L2 H1 H2]; subst. rewrite G in H2. inversion H1 as [e0 g1 i1 j1 L3 Hx| | |]; subst. inversion Hx as [|bs g2 i2 j2 L4 Ha]; subst. assert (E := no_log _ _ _ _ _ _ Hg Ha). subst L4.
    assert (M : may T e i k) by (apply may_alts; eauto). apply may_split in M as (U & F & V & -> & <- & <- & HF); [|assumption].
    exists F, V, L2. split; [now rewrite skipn_app, Nat.sub_diag, skipn_all|]. split; [rewrite app_length; lia|]. auto.
  - intros (F & v & L2 & E & Hi & HF & Hb & ->). assert (ET : T = firstn i T ++ F ++ v) by (rewrite <- E; symmetry; apply firstn_skipn). assert (Li : length (firstn i T) = i) by (rewrite firstn_length; lia).
    assert (M : may T e i (i + length F)) by (apply may_split; [assumption|]; exists (firstn i T), F, v; rewrite Li; auto).
    apply may_alts in M as (g' & L' & M). destruct (proj1 (proj2 (proj2 (proj2 (regroup T)))) _ _ _ _ _ M (S g)) as (L1 & M1). assert (L1 = []) as -> by (eapply no_log; eauto).
    change ((g, (i, i + length F)) :: L2) with (([] ++ [(g, (i, i + length F))]) ++ L2). apply mb_cons with (j := i + length F); [now apply mp_single, me_group|]. now rewrite G.
Qed.
Notation seps fs := (map snd fs).
Lemma record_match T z : plain z -> forall fs, Forall (fun f => plain (fst f)) fs -> forall g i j L, i <= length T -> m_branch T (record_body fs z) g i j L <->
  exists Fs, record_of fs z Fs /\ skipn i T = joined (seps fs) Fs /\ j = length T /\ L = field_log g i Fs.
Proof.
  intros Hz. induction fs as [|f fs IH]; intros Hp g i j L Hi; cbn [record_body].
  - rewrite group_match by assumption. split.
    + intros (F & v & L2 & E & _ & HF & Hb & ->). apply (end_match T true) in Hb as (-> & _ & He & ->). specialize (He eq_refl). exists [F]. split; [repeat constructor; assumption|]. destruct (skipn_app_len i T F v E) as (_ & E2 & _). rewrite He, skipn_all in E2. subst v. split; [exact E|]. split; [assumption|reflexivity].
    + intros (Fs & HF & E & -> & ->). inversion HF as [|? F ? Fs' H1 H2]; subst. inversion H2; subst. cbn [joined map] in E. destruct (skipn_app_len i T F [] E) as (E1 & E2 & E3). specialize (E3 Hi).
      assert (EL : i + length F = length T) by (apply (f_equal (@length N)) in E2; rewrite skipn_length in E2; cbn in E2; lia).
      exists F, [], []. split; [assumption|]. split; [assumption|]. split; [assumption|]. split; [|reflexivity]. rewrite EL. apply (end_match T true). auto.
  - inversion Hp as [|? ? P1 P2]; subst. rewrite group_match by assumption. split.
    + intros (F & v & L2 & E & _ & HF & Hb & ->). change (PSingle (XAtom (NormalChar (snd f))) :: record_body fs z) with (map chr [snd f] ++ record_body fs z) in Hb. apply chars_match in Hb as [Hb Hw]. cbn [length] in Hb, Hw. rewrite Nat.add_1_r in Hb.
      destruct (skipn_app_len i T F v E) as (E1 & E2 & E3). rewrite E2 in Hw. destruct v as [|x v]; [discriminate Hw|]. cbn in Hw. injection Hw as ->.
      assert (Hlt : S (i + length F) <= length T) by (apply (f_equal (@length N)) in E2; rewrite skipn_length in E2; cbn in E2; lia).
      apply IH in Hb as (Fs & F1 & F3 & F4 & ->); [|assumption|assumption]. exists (F :: Fs). split; [now constructor|]. split; [|split; [assumption|reflexivity]].
      cbn [joined map]. rewrite E. do 2 f_equal. rewrite <- F3. replace (S (i + length F)) with (i + length F + 1) by lia. rewrite <- skipn_add, E2. reflexivity.
    + intros (Fs & HF & E & -> & ->). inversion HF as [|? F ? Fs' H1 H2]; subst. cbn [joined map] in E. destruct (skipn_app_len i T F _ E) as (E1 & E2 & E3). exists F, (snd f :: joined (seps fs) Fs'), (field_log (S g) (S (i + length F)) Fs').
      split; [assumption|]. split; [assumption|]. split; [assumption|]. split; [|reflexivity].
      change (PSingle (XAtom (NormalChar (snd f))) :: record_body fs z) with (map chr [snd f] ++ record_body fs z). apply chars_match. cbn [length]. rewrite E2. split; [|reflexivity]. rewrite Nat.add_1_r.
      apply IH; [assumption| |exists Fs'; split; [assumption|split; [|auto]]].
      * apply (f_equal (@length N)) in E2. rewrite skipn_length in E2. cbn [length] in E2. lia.
      * replace (S (i + length F)) with (i + length F + 1) by lia. rewrite <- skipn_add, E2. reflexivity.
Qed.
Lemma records_match T fs z i j L : plain z -> Forall (fun f => plain (fst f)) fs -> matches T (record fs z) i j L <->
  exists Fs, record_of fs z Fs /\ T = joined (seps fs) Fs /\ i = 0 /\ j = length T /\ L = field_log 1 0 Fs ++ [(0, (0, length T))].
Proof.
  intros Hz Hp. split.
  - intros (L' & H & ->). inversion H as [b bs g0 i0 j0 L0 Hb|b bs g0 i0 j0 L0 Hb]; subst; [|inversion Hb]. inversion Hb as [|p b g1 i1 k1 j1 L1 L2 H1 H2]; subst. inversion H1; subst.
    cbn [groups_part] in H2. rewrite Nat.add_0_r in H2. apply record_match in H2 as (Fs & F1 & F3 & -> & ->); [|assumption|assumption|lia]. exists Fs. cbn [skipn] in F3. auto 10.
  - intros (Fs & F1 & F3 & -> & -> & ->). exists (field_log 1 0 Fs). split; [|reflexivity]. apply ma_here. change (field_log 1 0 Fs) with ([] ++ field_log 1 0 Fs). apply mb_cons with (j := 0); [constructor|].
    cbn [groups_part]. rewrite Nat.add_0_r. apply record_match; [assumption|assumption|lia|]. exists Fs. auto.
Qed.
Lemma joined_inj z : forall fs Fs Fs', Forall apart_from fs -> record_of fs z Fs -> record_of fs z Fs' -> joined (seps fs) Fs = joined (seps fs) Fs' -> Fs = Fs'.
Proof.
  induction fs as [|f fs IH]; intros Fs Fs' Ha H H' E; inversion H as [|? F ? Fs1 H1 H2]; inversion H' as [|? F' ? Fs1' H1' H2']; subst.
  - inversion H2; inversion H2'; subst. cbn in E. rewrite !app_nil_r in E. now subst.
  - inversion Ha as [|? ? A1 A2]; subst. cbn [joined map] in E. apply split_sep in E as [-> E]; [|eapply apart_spells; eauto|eapply apart_spells; eauto]. f_equal. now apply IH.
Qed.
Lemma record_length fs z Fs : record_of fs z Fs -> length Fs = S (length fs).
Proof. intros H. apply Forall2_length in H. rewrite app_length, map_length in H. cbn in H. lia. Qed.
Lemma record_captures T : forall Fs cs g i M, length Fs = S (length cs) -> i <= length T -> skipn i T = joined cs Fs -> (forall k, g <= k -> last_of k M = None) ->
  map (capture T (field_log g i Fs ++ M)) (seq g (length Fs)) = spans_of cs (byte_pos T i) Fs.
Proof.
  induction Fs as [|F Fs IH]; intros cs g i M Hn Hi E HM; [reflexivity|]. cbn [length seq map spans_of]. cbn [joined] in E.
  destruct (skipn_app_len i T F _ E) as (E1 & E2 & E3). specialize (E3 Hi). assert (Eb : byte_pos T (i + length F) = byte_pos T i + bytes_of F) by (rewrite byte_pos_add, E1 by lia; reflexivity). f_equal.
  - unfold capture. cbn [field_log app last_of]. rewrite field_before by lia. rewrite HM by lia. rewrite Nat.eqb_refl. now rewrite Eb.
  - destruct cs as [|c cs]; [destruct Fs; [reflexivity|discriminate Hn]|]. assert (Hlt : i + length F < length T) by (apply (f_equal (@length N)) in E2; rewrite skipn_length in E2; cbn in E2; lia).
    assert (E4 : skipn (S (i + length F)) T = joined cs Fs) by (replace (S (i + length F)) with (i + length F + 1) by lia; rewrite <- skipn_add, E2; reflexivity).
    replace (byte_pos T i + bytes_of F + char_bytes c) with (byte_pos T (S (i + length F))).
    2:{ replace (S (i + length F)) with (i + length F + 1) by lia. rewrite (byte_pos_add T (i + length F) 1) by lia. rewrite Eb, E2. cbn. lia. }
    rewrite <- (IH cs (S g) (S (i + length F)) M) by (lia || assumption || (intros; apply HM; lia) || (cbn in Hn; lia)). apply map_ext_in. intros k Hk. apply in_seq in Hk. unfold capture. cbn [field_log app last_of].
    destruct (last_of k (field_log (S g) (S (i + length F)) Fs ++ M)) as [[x y]|]; [reflexivity|]. now replace (g =? k) with false by lia.
Qed.
Lemma record_anchors fs z : plain z -> Forall (fun f => plain (fst f)) fs -> carets (record fs z) = Some 1 /\ dollars (record fs z) = Some 1.
Proof.
  intros [Hz _] Hp. assert (F : forall e, anchor_free e = true -> carets_part (PSingle (XSub e)) = Some 0 /\ dollars_part (PSingle (XSub e)) = Some 0) by (intros e He; now apply free_counts).
  assert (M : SpecCaret.total (map carets_part (record_body fs z)) = Some 0 /\ SpecCaret.total (map dollars_part (record_body fs z)) = Some 1).
  { induction Hp as [|f fs [Hf _] Hp [IH1 IH2]]; cbn [record_body map]; destruct (F z Hz) as [Z1 Z2]; [now rewrite Z1, Z2|]. destruct (F _ Hf) as [-> ->].
    change (carets_part (PSingle (XAtom (NormalChar (snd f))))) with (Some 0). change (dollars_part (PSingle (XAtom (NormalChar (snd f))))) with (Some 0). now rewrite !total_skip. }
  destruct M as [M1 M2]. unfold carets, dollars, record. cbn [map common forallb]. unfold carets_branch, dollars_branch. cbn [map]. change (carets_part PStart) with (Some 1). change (dollars_part PStart) with (Some 0). now rewrite total_cons, total_skip, M1, M2.
Qed.
Lemma record_groups fs z : plain z -> Forall (fun f => plain (fst f)) fs -> groups (record fs z) = S (length fs).
Proof.
  intros [_ Hz] Hp. assert (M : list_sum (map groups_part (record_body fs z)) = S (length fs)).
  { induction Hp as [|f fs [_ Hf] Hp IH]; cbn [record_body map].
    - change (S (groups z) + 0 = 1). now rewrite Hz.
    - change (S (groups (fst f)) + (0 + list_sum (map groups_part (record_body fs z))) = S (S (length fs))). rewrite Hf, IH. reflexivity. }
  unfold groups, record. cbn [map]. unfold groups_branch. cbn [map]. change (list_sum (map groups_part (record_body fs z)) + 0 = S (length fs)). rewrite M. lia.
Qed.
Lemma record_one fs z : plain z -> Forall (fun f => plain (fst f)) fs -> Forall apart_from fs -> one_answer (record fs z).
Proof.
  intros Hz Hp Ha T i j L i' j' L' m HT H H'. apply records_match in H as (Fs & F2 & F3 & _ & _ & ->); [|assumption|assumption]. apply records_match in H' as (Fs' & F2' & F3' & _ & _ & ->); [|assumption|assumption].
  assert (Fs = Fs') as -> by (eapply joined_inj; eauto; congruence). reflexivity.
Qed.
Theorem record_find fs z s en T : compiled s en -> Forall scalar s -> G_ere (record fs z) s -> plain z -> Forall (fun f => plain (fst f)) fs -> Forall scalar T ->
  exists o, engine_exec en T = Ok o /\ engine_test en T = Ok (match o with Some _ => true | None => false end) /\
    match o with
    | Some cs => exists Fs, record_of fs z Fs /\ T = joined (seps fs) Fs /\ cs = Some (0, bytes_of T) :: spans_of (seps fs) 0 Fs
    | None => forall Fs, record_of fs z Fs -> T <> joined (seps fs) Fs
    end.
Proof.
  intros H Hs Hg Hz Hp HT. set (e := record fs z) in *. destruct (record_anchors fs z Hz Hp) as [HC HD].
  assert (Hc : caret_ok e = true) by (unfold caret_ok, e; now rewrite HC).
  destruct (compiled_unique _ en e H Hs Hg) as (G1 & R & _). specialize (R (or_intror Hc)).
  destruct (right_test e en R T HT) as (b & Eb & Hb). destruct (right_exec e en R T HT) as (o & Eo & Ho). exists o. split; [assumption|]. destruct o as [cs|].
  - destruct (exec_room _ e en T cs H Hs HT Hg (or_intror Hc) Eo) as (i & j & L & Hm & Ec & Hr). rewrite Eb. split; [f_equal; apply Hb; now exists i, j, L|].
    apply records_match in Hm as (Fs & F2 & F3 & -> & -> & ->); [|assumption|assumption]. exists Fs. split; [assumption|]. split; [assumption|]. assert (F1 := record_length _ _ _ F2).
    assert (G2 : engine_groups en = S (S (length fs))).
    { destruct (C32_groups_partial _ en e H Hs Hg) as [C _]. unfold e in C. rewrite (record_groups fs z Hz Hp) in C. enough (S (length fs) < engine_groups en) by lia. apply Hr.
      clear - F1. assert (A : forall Fs g i k, length Fs = S k -> last_of (g + k) (field_log g i Fs ++ [(0, (0, length T))]) <> None).
      { clear. induction Fs as [|F Fs IH]; intros g i k Hl; [discriminate|]. cbn [field_log app last_of]. destruct k as [|k].
        - destruct (last_of (g + 0) _); [discriminate|]. rewrite Nat.add_0_r, Nat.eqb_refl. discriminate.
        - cbn in Hl. injection Hl as Hl. specialize (IH (S g) (S (i + length F)) k Hl). replace (g + S k) with (S g + k) by lia. destruct (last_of (S g + k) _); [discriminate|congruence]. }
      exact (A Fs 1 0 (length fs) F1). }
    rewrite Ec, G2. change (seq 0 (S (S (length fs)))) with (0 :: seq 1 (S (length fs))). cbn [map]. f_equal.
    + unfold capture. rewrite field_before by lia. cbn [last_of Nat.eqb]. do 2 f_equal. unfold byte_pos, bytes_of. now rewrite firstn_all.
    + rewrite <- F1. change 0 with (byte_pos T 0) at 3. apply record_captures; [now rewrite map_length|lia|exact F3|]. intros [|m] Hm; [lia|reflexivity].
  - rewrite Eb. split; [f_equal; destruct b; [exfalso; apply Ho; now apply Hb|reflexivity]|]. intros Fs F2 F3. apply Ho. eexists _, _, _. apply records_match; [assumption|assumption|]. exists Fs. eauto 10.
Qed.
Lemma record_atoms fs z a : In a (atoms (record fs z)) -> In a (atoms z) \/ exists f, In f fs /\ (In a (atoms (fst f)) \/ a = NormalChar (snd f)).
Proof.
  unfold atoms, record. cbn [flat_map]. rewrite app_nil_r. unfold atoms_branch at 1. cbn [flat_map app]. intros H. change (In a (flat_map atoms_part (record_body fs z))) in H. induction fs as [|f fs IH]; cbn [record_body flat_map] in H.
  - cbn in H. rewrite app_nil_r in H. left. exact H.
  - apply in_app_or in H as [H|H]; [right; exists f; split; [now left|left; exact H]|]. apply in_app_or in H as [[<-|[]]|H]; [right; exists f; split; [now left|now right]|]. destruct (IH H) as [X|(f' & H1 & H2)]; [now left|right; exists f'; split; [now right|assumption]].
Qed.
Lemma joined_scalar : forall cs Fs, Forall scalar cs -> Forall (Forall scalar) Fs -> Forall scalar (joined cs Fs).
Proof.
  intros cs Fs. revert cs. induction Fs as [|F Fs IH]; intros cs Hc HF; [constructor|]. inversion HF; subst. cbn [joined]. apply Forall_app. split; [assumption|]. inversion Hc; subst; constructor; auto.
Qed.
Theorem record_compiles fs z s Fs : Forall scalar s -> G_ere (record fs z) s -> plain z -> Forall (fun f => plain (fst f)) fs -> Forall apart_from fs ->
  record_of fs z Fs -> Forall (Forall scalar) Fs -> Forall scalar (seps fs) -> fs <> [] ->
  (forall a, In a (atoms z) \/ (exists f, In f fs /\ In a (atoms (fst f))) -> named_well a) ->
  exists en, compile_regex s = Ok en.
Proof.
  intros Hs Hg Hz Hp Ha HF HFs Hsep Hne Hn. assert (Hpa : parse_str s = ROk (record fs z)) by now apply parse_iff. destruct (record_anchors fs z Hz Hp) as [HC HD].
  apply (anchors_compile _ _ (joined (seps fs) Fs) _ Hpa Hs HC).
  - left. intros a Hi. apply record_atoms in Hi as [X|(f & H1 & [H2| ->])]; [auto|eauto|exact I].
  - now apply joined_scalar.
  - eexists _, _, _. apply records_match; [assumption|assumption|]. exists Fs. auto 6.
  - right. split.
    + intros (i & j & L & Hm). apply records_match in Hm as (Gs & F2 & F3 & _); [|assumption|assumption]. destruct fs as [|f fs]; [now apply Hne|]. inversion F2 as [|? F ? Fs' _ _]; subst. cbn in F3. destruct F; discriminate F3.
    + right. exists 1. split; [assumption|]. now apply record_one.
Qed.

(** ** The addresses of the benchmark *)
Definition dig (a b : N) : part := PSingle (XAtom (MatchingList [Range a b])).
Definition octets : ere := [[chr 50; chr 53; dig 48 53]; [chr 50; dig 48 52; dig 48 57]; [chr 49; PQuant (XAtom (MatchingList [Range 48 57])) {| q_type := QMultiple 2; q_alt := false |}]; [dig 49 57; dig 48 57]; [dig 48 57]].
Definition three : list (ere * N) := [(octets, 46%N); (octets, 46%N); (octets, 46%N)].
Lemma ipv4_parse : parse_str ipv4 = ROk (record three octets).
Proof. vm_compute. reflexivity. Qed.
Lemma ipv4_scalar : Forall scalar ipv4.
Proof. unfold ipv4, octet. cbn. repeat constructor. Qed.
Lemma octets_plain : plain octets.
Proof. split; reflexivity. Qed.
Lemma octets_apart : apart_from (octets, 46%N).
Proof.
  intros a Ha. cbn [fst snd] in *. cbn in Ha. repeat destruct Ha as [<-|Ha]; try destruct Ha; cbn; try discriminate; intros (t & [<-|[]] & H); cbn in H; lia.
Qed.
Lemma steady_spells b F : steady_branch b = true -> (exists g L, m_branch F b g 0 (length F) L) <-> shaped b F.
Proof.
  intros Hb. destruct (proj1 (proj2 (proj2 (steady_match F))) b Hb) as [S1 S2]. split.
  - intros (g & L & H). apply S1 in H as (sh & Hi & Hf & Hl & _). exists sh. split; [assumption|]. apply fit_window in Hf as (U & R & V & E & HU & Hf). destruct U; [|discriminate HU]. cbn in E.
    assert (Hr := Forall2_length _ _ _ Hf). assert (V = []) as -> by (apply (f_equal (@length N)) in E; rewrite app_length in E; destruct V; [reflexivity|cbn in *; lia]). rewrite app_nil_r in E. now subst R.
  - intros (sh & Hi & Hf). assert (Hl := Forall2_length _ _ _ Hf). destruct (S2 1 0 sh Hi) as (L & H).
    + apply fit_window. exists [], F, []. rewrite app_nil_r. auto.
    + exists 1, L. cbn in H. now rewrite <- Hl.
Qed.
Lemma spells_shaped e F : forallb steady_branch e = true -> spells e F <-> exists b, In b e /\ shaped b F.
Proof.
  intros He. unfold spells. change (may F e 0 (length F) <-> exists b, In b e /\ shaped b F). induction e as [|b e IH]; [rewrite may_nil; split; [intros []|intros (b & [] & _)]|]. cbn [forallb] in He. apply andb_true_iff in He as [Hb He].
  rewrite may_cons, (IH He). change (may_branch F b 0 (length F)) with (exists g L, m_branch F b g 0 (length F) L). rewrite (steady_spells b F Hb). split.
  - intros [H|(b' & H1 & H2)]; [exists b; split; [now left|assumption]|exists b'; split; [now right|assumption]].
  - intros (b' & [<-|H1] & H2); [now left|right; eauto].
Qed.
Lemma range_has a b c : atom_has (MatchingList [Range a b]) c <-> (a <= c <= b)%N.
Proof. cbn. split; [intros (t & [<-|[]] & H); exact H|]. intros H. exists (Range a b). split; [now left|exact H]. Qed.
Local Ltac Zify.zify_post_hook ::= Z.div_mod_to_equations.
Lemma octet_decimal F : spells octets F <-> exists n, (n < 256)%N /\ F = decimal n.
Proof.
  rewrite spells_shaped by reflexivity. unfold decimal. split.
  - intros (b & Hb & sh & Hi & Hf). cbn in Hb. repeat destruct Hb as [<-|Hb]; try destruct Hb; cbn in Hi; destruct Hi as [<-|[]].
    all: repeat match goal with H : Forall2 _ (_ :: _) _ |- _ => inversion H; clear H; subst | H : Forall2 _ [] _ |- _ => inversion H; clear H; subst end.
    all: repeat match goal with H : atom_has (MatchingList [Range _ _]) _ |- _ => apply range_has in H | H : atom_has (NormalChar _) _ |- _ => cbn in H; subst end.
    + exists (250 + (y1 - 48))%N. split; [lia|]. replace (_ <? 10)%N with false by lia. replace (_ <? 100)%N with false by lia. repeat f_equal; lia.
    + exists (200 + 10 * (y0 - 48) + (y1 - 48))%N. split; [lia|]. replace (_ <? 10)%N with false by lia. replace (_ <? 100)%N with false by lia. repeat f_equal; lia.
    + exists (100 + 10 * (y0 - 48) + (y1 - 48))%N. split; [lia|]. replace (_ <? 10)%N with false by lia. replace (_ <? 100)%N with false by lia. repeat f_equal; lia.
    + exists (10 * (y - 48) + (y0 - 48))%N. split; [lia|]. replace (_ <? 10)%N with false by lia. replace (_ <? 100)%N with true by lia. repeat f_equal; lia.
    + exists (y - 48)%N. split; [lia|]. replace (_ <? 10)%N with true by lia. repeat f_equal; lia.
  - intros (n & Hn & ->). destruct (N.ltb_spec n 10) as [H1|H1]; [|destruct (N.ltb_spec n 100) as [H2|H2]].
    + exists [dig 48 57]. split; [cbn; tauto|]. eexists. split; [left; reflexivity|]. repeat constructor. apply range_has. lia.
    + exists [dig 49 57; dig 48 57]. split; [cbn; tauto|]. eexists. split; [left; reflexivity|]. repeat constructor; apply range_has; lia.
    + destruct (N.ltb_spec n 200) as [H3|H3]; [|destruct (N.ltb_spec n 250) as [H4|H4]].
      * eexists. split; [right; right; left; reflexivity|]. eexists. split; [left; reflexivity|]. repeat constructor; try (apply range_has; lia). unfold atom_has. lia.
      * eexists. split; [right; left; reflexivity|]. eexists. split; [left; reflexivity|]. repeat constructor; try (apply range_has; lia). unfold atom_has. lia.
      * eexists. split; [left; reflexivity|]. eexists. split; [left; reflexivity|]. repeat constructor; try (apply range_has; lia); unfold atom_has; lia.
Qed.
Lemma decimal_bytes n : (n < 256)%N -> bytes_of (decimal n) = length (decimal n).
Proof.
  intros Hn. assert (Z : forall l, Forall (fun c => (c < 128)%N) l -> bytes_of l = length l).
  { induction 1 as [|c l Hc Hl IH]; [reflexivity|]. change (bytes_of (c :: l)) with (char_bytes c + bytes_of l). rewrite IH. unfold char_bytes. replace (c <? 0x80)%N with true by lia. reflexivity. }
  apply Z. unfold decimal. destruct (n <? 10)%N eqn:E1; [|destruct (n <? 100)%N eqn:E2]; repeat constructor; lia.
Qed.
Lemma ipv4_groups en : compiled ipv4 en -> engine_groups en = 5.
Proof. intros X. apply (compiled_groups ipv4 en 5 X). vm_compute. repeat split. Qed.
Lemma address_joined a b c d : joined (seps three) [decimal a; decimal b; decimal c; decimal d] = address a b c d.
Proof. cbn [joined three map snd]. unfold address. cbn [app s2l]. now rewrite app_nil_r. Qed.
Lemma three_records Fs : record_of three octets Fs <-> exists a b c d, ((a < 256 /\ b < 256 /\ c < 256 /\ d < 256)%N /\ Fs = [decimal a; decimal b; decimal c; decimal d]).
Proof.
  unfold record_of. cbn [three map fst app]. split.
  - intros H. inversion H as [|? F1 ? ? S1 H1]; subst. inversion H1 as [|? F2 ? ? S2 H2]; subst. inversion H2 as [|? F3 ? ? S3 H3]; subst. inversion H3 as [|? F4 ? ? S4 H4]; subst. inversion H4; subst.
    apply octet_decimal in S1 as (a & Ha & ->). apply octet_decimal in S2 as (b & Hb & ->). apply octet_decimal in S3 as (c & Hc & ->). apply octet_decimal in S4 as (d & Hd & ->). exists a, b, c, d. auto.
  - intros (a & b & c & d & (Ha & Hb & Hc & Hd) & ->). repeat constructor; apply octet_decimal; eauto.
Qed.
Lemma three_plain : Forall (fun f => plain (fst f)) three.
Proof. repeat constructor. Qed.
Lemma three_apart : Forall apart_from three.
Proof. repeat (constructor; [exact octets_apart|]). constructor. Qed.
Lemma ipv4_answer en T : compiled ipv4 en -> Forall scalar T ->
  (forall a b c d, (a < 256 /\ b < 256 /\ c < 256 /\ d < 256)%N -> T = address a b c d -> engine_test en T = Ok true /\
     engine_exec en T = Ok (Some (let x := length (decimal a) in let y := S (x + length (decimal b)) in let z := S (y + length (decimal c)) in
       [Some (0, length T); Some (0, x); Some (S x, y); Some (S y, z); Some (S z, length T)]))) /\
  ((forall a b c d, (a < 256 /\ b < 256 /\ c < 256 /\ d < 256)%N -> T <> address a b c d) -> engine_test en T = Ok false /\ engine_exec en T = Ok None).
Proof.
  intros HC HT. assert (Hg : G_ere (record three octets) ipv4) by (apply parse_iff; exact ipv4_parse).
  destruct (record_find three octets ipv4 en T HC ipv4_scalar Hg octets_plain three_plain HT) as (o & E1 & E2 & Ho). destruct o as [cs|].
  - destruct Ho as (Fs & HF & ET & Ec). split.
    + intros a b c d Hb Ea. assert (HF' : record_of three octets [decimal a; decimal b; decimal c; decimal d]) by (apply three_records; eauto 8).
      assert (Fs = [decimal a; decimal b; decimal c; decimal d]) as -> by (eapply (joined_inj octets three); eauto; [exact three_apart|rewrite address_joined; congruence]).
      rewrite E1, E2. split; [reflexivity|]. rewrite Ec. destruct Hb as (Ha & Hb & Hc & Hd). assert (EL : bytes_of T = length (decimal a) + 1 + length (decimal b) + 1 + length (decimal c) + 1 + length (decimal d)).
      { rewrite Ea. unfold address, bytes_of. rewrite !map_app, !list_sum_app. fold (bytes_of (decimal a)). fold (bytes_of (decimal b)). fold (bytes_of (decimal c)). fold (bytes_of (decimal d)). rewrite !decimal_bytes by assumption. change (list_sum (map char_bytes (s2l "."))) with 1. lia. }
      assert (EL' : length T = length (decimal a) + 1 + length (decimal b) + 1 + length (decimal c) + 1 + length (decimal d)) by (rewrite Ea; unfold address; rewrite !app_length; change (length (s2l ".")) with 1; lia).
      cbn [spans_of three map snd]. rewrite !decimal_bytes by assumption. change (char_bytes 46) with 1. cbv zeta. repeat f_equal; lia.
    + intros Hno. exfalso. apply three_records in HF as (a & b & c & d & Hb & ->). rewrite address_joined in ET. exact (Hno a b c d Hb ET).
  - split; [|intros _; now rewrite E1, E2]. intros a b c d Hb Ea. exfalso. apply (Ho [decimal a; decimal b; decimal c; decimal d]); [apply three_records; eauto 8|]. now rewrite address_joined.
Qed.
