(** Engines agree without a condition on the loops of the pattern. *)
From Verif Require Export PPrioOne PStrip.
From Coq Require Import ZifyBool ZifyNat ZifyN.
Open Scope nat_scope.
Open Scope list_scope.
Set Default Proof Using "Type".

(** ** The word found does not depend on what is recorded *)
Section Word.
  Context {A : Type}.
  Variable check : A -> N -> bool.
  Variable width : N -> nat.
  Variable T : list N.
  Variable n : nfa A.
  Hypothesis Hwf : wf n.
  Notation go_ := (go check width T n).
  Notation gonow_ := (gonow check width T n).
  Definition one_word (P : nat) (Q : word -> Prop) (f : bounds -> option bounds) : Prop :=
    exists r : option word, (forall b, f b = option_map (fun w => run_marks width P w b) r) /\ forall w, r = Some w -> Q w.
  Lemma one_none P Q f : (forall b, f b = None) -> one_word P Q f.
  Proof. intros H. exists None. split; [exact H|discriminate]. Qed.
  Lemma one_first {X} P Q (f : bounds -> X -> option bounds) l : (forall x, In x l -> one_word P Q (fun b => f b x)) -> one_word P Q (fun b => firstr (f b) l).
  Proof.
    induction l as [|x l IH]; intros H; [now apply one_none|]. destruct (H x (or_introl eq_refl)) as (r & H1 & H2). destruct IH as (r' & H3 & H4); [intros; apply H; now right|].
    destruct r as [w|].
    - exists (Some w). split; [|exact H2]. intros b. cbn [firstr]. now rewrite H1.
    - exists r'. split; [|exact H4]. intros b. cbn [firstr]. rewrite H1. apply H3.
  Qed.
  Lemma go_word text : forall j s, j <= length T -> skipn j T = text -> s < length n -> one_word (pos width T j) (rest T check n j s) (go_ text j s).
  Proof using Hwf.
    assert (P : forall text j s, j <= length T -> s < length n -> (forall t, t < length n -> one_word (pos width T j) (now T check n j t) (gonow_ text j t)) ->
      one_word (pos width T j) (rest T check n j s) (go_ text j s)).
    { clear text. intros text j s Hj Hs HN.
      assert (X : one_word (pos width T j) (rest T check n j s) (fun b => firstr (goprop check width T n text j b) (eprops n s))).
      { apply one_first. intros p Hp. unfold goprop. destruct (liveb T j p) eqn:El; [|now apply one_none]. apply liveb_iff in El.
        unfold eprops in Hp. destruct (eps_props_spec n Hwf s Hs) as (l & El' & _ & Hl). rewrite El' in Hp. apply Hl in Hp as (u & w & Hz & ->). cbn [ep_state ep_tags ep_of].
        assert (Hu : u < length n) by (clear - Hz Hwf Hs; induction Hz; [assumption|eapply wf_eps; eauto]). assert (Hrw := proj1 (live_reads T n j s w u Hz Hj) El).
        assert (Hc : chars w = []) by (eapply zpath_chars; eauto). assert (Z : wwidth width w = 0) by (unfold wwidth; now rewrite Hc).
        destruct (HN u Hu) as (r & H1 & H2). exists (option_map (fun v => w ++ v) r). split.
        - intros b. rewrite H1. destruct r as [v|]; [|reflexivity]. cbn [option_map]. rewrite (apply_tags_of width w) by exact Hc. rewrite run_marks_app, Z. now rewrite Nat.add_0_r.
        - intros x E. destruct r as [v|]; [|discriminate]. injection E as <-. eapply zpath_rest; eauto. apply now_rest. now apply H2. }
      destruct X as (r & H1 & H2). exists r. split; [|exact H2]. intros b. rewrite go_eq. apply H1. }
    induction text as [|c text IH]; intros j s Hj Hsk Hs; apply P; auto; intros t Ht; unfold gonow; cbv beta iota.
    - apply skipn_nil_ge in Hsk; [|assumption]. subst j. destruct (Nat.eqb_spec (t + 1) (length n)) as [E|E]; [|now apply one_none].
      exists (Some []). split; [reflexivity|]. intros w Ew. injection Ew as <-. left. repeat split; lia.
    - destruct (skipn_nth _ _ _ _ Hsk) as [Hc Hs']. assert (Hj' : S j <= length T) by (apply nth_error_Some; congruence).
      apply one_first. intros [y a] Hy. cbn [fst snd]. destruct (check a c) eqn:Ec; [|now apply one_none].
      assert (Hyl : y < length n) by (eapply wf_trans; eauto). destruct (IH (S j) y Hj' Hs' Hyl) as (r & H1 & H2). exists (option_map (fun v => IC c :: v) r). split.
      + intros b. rewrite H1. destruct r as [v|]; [|reflexivity]. cbn [option_map run_marks]. now rewrite (pos_S width T j c Hc).
      + intros x E. destruct r as [v|]; [|discriminate]. injection E as <-. right. exists y, a, c, v. do 4 (split; [auto; fail|]). now apply H2.
  Qed.
End Word.

(** ** Agreement *)
Definition agreed (o o' : option (list (option span))) : Prop :=
  match o, o' with
  | Some cs, Some cs' => forall k x x', nth_error cs k = Some x -> nth_error cs' k = Some x' -> x = x'
  | None, None => True
  | _, _ => False
  end.
Lemma agreed_sym o o' : agreed o o' -> agreed o' o.
Proof. destruct o as [l|], o' as [l'|]; cbn; auto. intros H k x x' E E'. symmetry. eauto. Qed.
Definition agreeing (T : list N) (en en' : engine) : Prop := exists o o', engine_exec en T = Ok o /\ engine_exec en' T = Ok o' /\ agreed o o'.
Lemma agreeing_sym T en en' : agreeing T en en' -> agreeing T en' en.
Proof. intros (o & o' & H1 & H2 & H3). exists o', o. split; [assumption|]. split; [assumption|]. now apply agreed_sym. Qed.
(** All matches of the pattern in the text have the same captures. *)
Definition single (e : ere) (T : list N) (g : nat) : Prop :=
  forall i j L i' j' L', matches T e i j L -> matches T e i' j' L' -> map (capture T L) (seq 0 g) = map (capture T L') (seq 0 g).
Lemma capture_nth T L g k x : nth_error (map (capture T L) (seq 0 g)) k = Some x -> k < g /\ x = capture T L k.
Proof.
  intros H. apply map_nth_error_inv in H as (a & Ha & <-). assert (k < g) by (rewrite <- (seq_length g 0); apply nth_error_Some; congruence). apply nth_seq_inv in Ha as ->. auto.
Qed.
Lemma nth_capture T L g k : k < g -> nth_error (map (capture T L) (seq 0 g)) k = Some (capture T L k).
Proof. intros H. apply map_nth_error. rewrite (nth_error_nth' _ 0) by (now rewrite seq_length). now rewrite seq_nth. Qed.
Lemma same_word_agreed T L g g' : agreed (Some (map (capture T L) (seq 0 g))) (Some (map (capture T L) (seq 0 g'))).
Proof. intros k x x' E E'. apply capture_nth in E as [_ ->]. now apply capture_nth in E' as [_ ->]. Qed.
Lemma single_agree e T en en' : Forall scalar T -> engine_right e en -> engine_right e en' -> single e T (engine_groups en) -> agreeing T en en'.
Proof.
  intros HT H H' Hs. destruct (right_exec e en H T HT) as (o & Eo & Ho). destruct (right_exec e en' H' T HT) as (o' & Eo' & Ho'). exists o, o'. do 2 (split; [assumption|]).
  destruct o as [cs|], o' as [cs'|]; cbn in *.
  - destruct Ho as [(i & j & L & Hm & ->) Hl], Ho' as [(i' & j' & L' & Hm' & ->) _]. rewrite map_length, seq_length in Hl. rewrite Hl. intros k x x' E E'.
    apply capture_nth in E as [Hk ->]. apply capture_nth in E' as [_ ->]. assert (X := Hs _ _ _ _ _ _ Hm Hm'). assert (Y := nth_capture T L _ k Hk). rewrite X, nth_capture in Y by assumption. now injection Y.
  - apply Ho'. destruct Ho as [(i & j & L & Hm & _) _]. now exists i, j, L.
  - apply Ho. destruct Ho' as [(i & j & L & Hm & _) _]. now exists i, j, L.
  - exact I.
Qed.

(** ** The word an engine finds *)
(** What [exec] makes of the first success over the automaton. *)
Definition by_bytes (m : nfa range) (T : list N) (en : engine) : Prop :=
  engine_exec en T = run_finish T (go byte_check (fun _ => 1) (utf8 T) m (utf8 T) 0 0 (no_bounds (engine_groups en))).
Lemma bytes_agree e m T en en' : byte_automaton_of e m -> Forall scalar T -> by_bytes m T en -> by_bytes m T en' -> agreeing T en en'.
Proof.
  intros (M1 & M2 & M3 & M4 & _) HT H H'. unfold by_bytes in *.
  destruct (go_word byte_check (fun _ => 1) (utf8 T) m (ok_wf _ M1) (utf8 T) 0 0 ltac:(lia) eq_refl ltac:(lia)) as (r & G1 & G2). rewrite G1 in H, H'.
  destruct r as [W|].
  - destruct (G2 W eq_refl) as [HW HR]. destruct (proj1 (M4 T W HT) (conj HW HR)) as (w & Ha & ->). destruct (accepted_matches T e w Ha) as (i & j & L & _ & HL).
    change (pos (fun _ => 1) (utf8 T) 0) with 0 in H, H'. cbn [option_map run_finish] in H, H'. rewrite run_marks_enc, HL in H, H'. cbn [bind] in H, H'.
    eexists. eexists. split; [exact H|]. split; [exact H'|]. apply same_word_agreed.
  - exists None, None. split; [exact H|]. split; [exact H'|exact I].
Qed.
Lemma op_single e m op T : byte_automaton_of e m -> op_make m = Ok (Some op) -> one_accept op = true -> Forall scalar T -> forall g, single e T g.
Proof.
  intros (M1 & M2 & M3 & M4 & M5 & M6 & M7) E Hone HT g i j L i' j' L' H H'.
  assert (X : forall i j L, matches T e i j L -> exists W, lang byte_check m W /\ reads (utf8 T) 0 W (length (utf8 T)) /\ finish T (run_marks (fun _ => 1) 0 W (no_bounds g)) = Ok (map (capture T L) (seq 0 g))).
  { clear - HT M4. intros i j L Hma. destruct (match_accepted T e HT i j L Hma) as (v & Ha & Hr & Hbl). exists (enc (map IC (firstn i T) ++ v ++ map IC (skipn j T))).
    destruct (proj2 (M4 T _ HT) (ex_intro _ _ (conj Ha eq_refl))) as [X1 X2]. split; [assumption|]. split; [assumption|]. rewrite run_marks_enc.
    assert (Li : length (firstn i T) = i) by (assert (Q := reads_le _ _ _ _ Hr); rewrite firstn_length; lia).
    apply finish_marks with (j := j); [apply Ha|rewrite Li; assumption|rewrite Li; assumption]. }
  destruct (X _ _ _ H) as (W & A1 & A2 & A3), (X _ _ _ H') as (W' & B1 & B2 & B3).
  rewrite (op_unique m op (utf8 T) W W' (no_bounds g) M1 ltac:(lia) M5 M6 E Hone A1 A2 B1 B2) in A3. congruence.
Qed.
Lemma fixed_single e m offs T : byte_automaton_of e m -> fixed_offsets m = Ok (Some offs) -> Forall scalar T -> single e T (length offs).
Proof.
  intros Hm Ef HT i j L i' j' L' H H'. destruct (fixed_every e m offs Hm Ef) as [_ Every]. assert (X := Every T i j L HT H). rewrite (Every T i' j' L' HT H') in X. now injection X.
Qed.

(** ** Every engine *)
Definition of_bytes (en : engine) : Prop := match en with EFlatU8 _ | EDfa _ => True | _ => False end.
Definition kind (e : ere) (T : list N) (n : nfa atom) (en : engine) : Prop :=
  engine_right e en /\ (single e T (engine_groups en) \/ en = EFlat n \/ (of_bytes en /\ exists m, u8_new n = Ok m /\ byte_automaton_of e m /\ by_bytes m T en)).
Section All.
  Variable s : list N.
  Variable e : ere.
  Hypothesis Hp : parse_str s = ROk e.
  Hypothesis Hs : Forall scalar s.
  Variable T : list N.
  Hypothesis HT : Forall scalar T.
  Variable n : nfa atom.
  Hypothesis En : working_new (tree_of e) = Ok n.
  Lemma flat_u8_bytes m en : u8_new n = Ok m -> make_flat_u8 m = Ok en -> anchors_even e = true -> by_bytes m T en.
  Proof using Hp Hs HT En.
    intros Em H Hev. unfold make_flat_u8 in H. destruct (flat_make m) as [t| | |] eqn:Ef; try discriminate. cbn [bind] in H. injection H as <-.
    assert (Hm : m <> []) by (intros ->; discriminate). assert (Hb := parsed_u8_ne s e Hp Hs n m En Em Hm). destruct Hb as (M1 & M2 & M3 & M4 & M5 & M6 & M7).
    unfold by_bytes. cbn [engine_exec engine_groups]. unfold flat_u8_exec. rewrite Ef. cbn [bind].
    destruct (flat_table_spec m (ok_wf _ M1) ltac:(lia)) as (tbl' & Et' & _). assert (tbl' = t) as ->.
    { unfold flat_make in Ef. rewrite wfb_guard in Ef by (try apply ok_wf; auto; lia). cbn [guard bind] in Ef. rewrite Et' in Ef. cbn [bind] in Ef. destruct (forallb _ _); congruence. }
    destruct (anchors_words e Hev) as (HS & HE & HU). f_equal.
    apply (flat_go byte_check (fun _ => 1) (fun _ => le_n 1) (utf8 T) m (ok_wf _ M1) ltac:(lia) (proj1 (fin_last _ (ok_fin _ M1))) t Et' HS HE).
    intros W HW HR. destruct (proj1 (M4 T W HT) (conj HW HR)) as (w & Hw & ->). rewrite !has_enc. apply HU. apply Hw.
  Qed.
  Lemma dfa_bytes m max d en : u8_new n = Ok m -> tdfa_from_nfa m max = Ok (Some d) -> make_dfa d = Ok en -> caret_ok e = true -> by_bytes m T en.
  Proof using Hp Hs HT En.
    intros Em Ed H Hca. unfold make_dfa in H. destruct (dfa_from_tagged d); try discriminate. cbn [bind] in H. injection H as <-.
    assert (Hm : m <> []) by (intros ->; discriminate). assert (Hb := parsed_u8_ne s e Hp Hs n m En Em Hm). destruct Hb as (M1 & M2 & M3 & M4 & M5 & M6 & M7).
    destruct (tdfa_from_nfa_spec m (ok_wf _ M1) ltac:(lia) max) as (o & E & Ho). rewrite Ed in E. injection E as <-.
    destruct (dfa_engine_late m max d (utf8 T) (ok_wf _ M1) ltac:(lia) Ed (utf8_bytes T HT)) as [(m' & Em' & _) _].
    unfold by_bytes. cbn [engine_exec engine_groups]. unfold dfa_exec. rewrite Em'. cbn [bind]. f_equal.
    now apply (tdfa_go m (ok_wf _ M1) ltac:(lia) max d Ho (utf8 T) (utf8_bytes T HT) (tdfa_groups d) (proj1 (fin_last _ (ok_fin _ M1))) (parsed_settled s e n m Hp Hs Hca En Em Hm)).
  Qed.
  Lemma flat_u8_kind m en : u8_new n = Ok m -> make_flat_u8 m = Ok en -> orderly e en = true -> engine_right e en -> kind e T n en.
  Proof using Hp Hs HT En.
    intros Em H Ho Hr. split; [assumption|]. right. right. assert (H0 := H). unfold make_flat_u8 in H0. destruct (flat_make m) as [t| | |] eqn:Ef; try discriminate. cbn [bind] in H0. injection H0 as <-.
    split; [exact I|]. exists m. split; [assumption|]. split; [apply (parsed_u8_ne s e Hp Hs n m En Em); intros ->; discriminate|]. now apply flat_u8_bytes.
  Qed.
  Lemma dfa_kind m max d en : u8_new n = Ok m -> tdfa_from_nfa m max = Ok (Some d) -> make_dfa d = Ok en -> orderly e en = true -> engine_right e en -> kind e T n en.
  Proof using Hp Hs HT En.
    intros Em Ed H Ho Hr. split; [assumption|]. right. right. assert (H0 := H). unfold make_dfa in H0. destruct (dfa_from_tagged d); try discriminate. cbn [bind] in H0. injection H0 as <-.
    split; [exact I|]. exists m. split; [assumption|]. split; [apply (parsed_u8_ne s e Hp Hs n m En Em); intros ->; discriminate|]. eapply dfa_bytes; eauto.
  Qed.
  Lemma flat_kind en : make_flat n = Ok en -> engine_right e en -> kind e T n en.
  Proof.
    intros H Hr. split; [assumption|]. right. left. unfold make_flat in H. destruct (flat_make n) as [t| | |] eqn:Ef; try discriminate. cbn [bind] in H. destruct (nfa_compiles n); [|discriminate]. now injection H as <-.
  Qed.
  Lemma one_kind m op : u8_new n = Ok m -> op_make m = Ok (Some op) -> orderly e (EOnePass op) = true -> engine_right e (EOnePass op) -> kind e T n (EOnePass op).
  Proof using Hp Hs HT En.
    intros Em E Ho Hr. split; [assumption|]. left. apply (op_single e m op T); auto. apply (parsed_u8_ne s e Hp Hs n m En Em). intros ->. discriminate.
  Qed.
  Lemma base_kind b u : pick_base_engine e = Ok (b, u) -> orderly e b = true -> engine_right e b -> kind e T n b.
  Proof using Hp Hs HT En.
    intros H Ho Hr. unfold pick_base_engine in H. rewrite En in H. cbn [bind] in H.
    destruct (u8_new n) as [m| | |] eqn:Em; try discriminate. cbn [bind] in H.
    destruct (op_make m) as [[o|]| | |] eqn:Eo; try discriminate; cbn [bind] in H; [injection H as <- <-; eapply one_kind; eauto|].
    destruct (tdfa_from_nfa m _) as [[d|]| | |] eqn:Ed; try discriminate; cbn [bind] in H.
    - apply bind_ok in H as (x & Hx & H). injection H as -> _. eapply dfa_kind; eauto.
    - apply bind_ok in H as (x & Hx & H). injection H as -> _. destruct (nfa_is_ascii n); [eapply flat_u8_kind; eauto|eapply flat_kind; eauto].
  Qed.
  Lemma fixed_kind b u offs : pick_base_engine e = Ok (b, u) -> fixed_offsets u = Ok (Some offs) -> engine_right e (EFixed b offs) -> kind e T n (EFixed b offs).
  Proof using Hp Hs HT En.
    intros Eb Ef Hr. destruct (base_any_right s e b u Hp Hs Eb) as (Hu & _ & _). split; [assumption|]. left. cbn [engine_groups]. eapply fixed_single; eauto.
  Qed.
End All.
Lemma compiled_kind s e en T : compiled s en -> Forall scalar s -> Forall scalar T -> G_ere e s -> orderly e en = true -> exists n, working_new (tree_of e) = Ok n /\ kind e T n en.
Proof.
  intros H Hs HT Hg Ho. destruct (compiled_unique s en e H Hs Hg) as (_ & Hr & n & En & _ & _). exists n. split; [assumption|]. apply parse_iff in Hg.
  assert (R : engine_right e en) by (apply Hr; destruct en as [| | | |[] ?]; cbn in *; auto). clear Hr.
  destruct H as [H|[H|[H|[H|[H|H]]]]]; apply with_ere_ok in H as (e' & Hp & H); rewrite Hg in Hp; injection Hp as <-.
  - unfold pick_engine in H. destruct (pick_base_engine e) as [[b u]| | |] eqn:Eb; try discriminate. cbn [bind] in H.
    destruct (fixed_offsets u) as [[offs|]| | |] eqn:Ef; try discriminate; cbn [bind] in H.
    + destruct (length offs =? num_capture_groups u) eqn:El; [|discriminate]. injection H as <-. eapply fixed_kind; eauto.
    + injection H as <-. eapply base_kind; eauto.
  - rewrite En in H. cbn [bind] in H. destruct (u8_new n) as [m| | |] eqn:Em; try discriminate. cbn [bind] in H.
    destruct (tdfa_from_nfa m _) as [[d|]| | |] eqn:Ed; try discriminate; cbn [bind] in H. eapply dfa_kind; eauto.
  - rewrite En in H. cbn [bind] in H. now apply flat_kind.
  - rewrite En in H. cbn [bind] in H. apply bind_ok in H as (m & Em & H). eapply flat_u8_kind; eauto.
  - rewrite En in H. cbn [bind] in H. apply bind_ok in H as (m & Em & H). destruct (op_make m) as [[op|]| | |] eqn:Eo; try discriminate. cbn [bind] in H. injection H as <-. eapply one_kind; eauto.
  - destruct (pick_base_engine e) as [[b u]| | |] eqn:Eb; try discriminate. cbn [bind] in H.
    destruct (fixed_offsets u) as [[offs|]| | |] eqn:Ef; try discriminate; cbn [bind] in H.
    destruct (length offs =? num_capture_groups u) eqn:El; [|discriminate]. injection H as <-. eapply fixed_kind; eauto.
Qed.
(** One engine runs the automaton of characters, the other the automaton of bytes. *)
Definition mixed (en en' : engine) : bool :=
  match en, en' with EFlat _, (EFlatU8 _ | EDfa _) | (EFlatU8 _ | EDfa _), EFlat _ => true | _, _ => false end.
Lemma unmixed_agree s e en en' T : compiled s en -> compiled s en' -> Forall scalar s -> Forall scalar T -> G_ere e s -> mixed en en' = false -> orderly e en = true -> orderly e en' = true -> agreeing T en en'.
Proof.
  intros H H' Hs HT Hg Hm Ho Ho'. destruct (compiled_kind s e en T H Hs HT Hg Ho) as (n & En & R & K). destruct (compiled_kind s e en' T H' Hs HT Hg Ho') as (n' & En' & R' & K').
  rewrite En in En'. injection En' as <-. 
  destruct K as [K|K]; [now apply (single_agree e)|]. destruct K' as [K'|K']; [apply agreeing_sym; now apply (single_agree e)|].
  destruct K as [->|[K (m & Em & Ha & K1)]], K' as [->|[K' (m' & Em' & Ha' & K1')]].
  - destruct (right_exec e _ R T HT) as (o & E & _). exists o, o. split; [assumption|]. split; [assumption|]. destruct o as [l|]; cbn; [|exact I]. intros k x x' E1 E2. congruence.
  - exfalso. destruct en'; try contradiction; discriminate.
  - exfalso. destruct en; try contradiction; discriminate.
  - rewrite Em in Em'. injection Em' as <-. eapply bytes_agree; eauto.
Qed.

Lemma exec_length s e en T cs : compiled s en -> Forall scalar s -> Forall scalar T -> G_ere e s -> orderly e en = true -> engine_exec en T = Ok (Some cs) -> length cs = engine_groups en.
Proof.
  intros H Hs HT Hg Ho E. destruct (compiled_unique s en e H Hs Hg) as (_ & Hr & _).
  assert (R : engine_right e en) by (apply Hr; destruct en as [| | | |[] ?]; cbn in *; auto). destruct (right_exec e en R T HT) as (o & Eo & Hx). rewrite E in Eo. injection Eo as <-. apply Hx.
Qed.
Lemma agreed_same o o' g : agreed o o' -> (forall cs, o = Some cs -> length cs = g) -> (forall cs, o' = Some cs -> length cs = g) -> o = o'.
Proof.
  destruct o as [l|], o' as [l'|]; cbn; try tauto; try reflexivity. intros H L L'. f_equal. specialize (L l eq_refl). specialize (L' l' eq_refl). subst g.
  apply nth_ext with (d := None) (d' := None); [congruence|]. intros k Hk. apply (H k); apply nth_error_nth'; congruence.
Qed.
Lemma kind_single s e en T i j L : compiled s en -> Forall scalar s -> Forall scalar T -> G_ere e s -> orderly e en = true ->
  match en with EOnePass _ | EFixed _ _ => True | _ => False end -> matches T e i j L ->
  engine_exec en T = Ok (Some (map (capture T L) (seq 0 (engine_groups en)))).
Proof.
  intros H Hs HT Hg Ho Hk Hm. destruct (compiled_kind s e en T H Hs HT Hg Ho) as (n & En & R & K).
  assert (S : single e T (engine_groups en)) by (destruct K as [K|[->|[K _]]]; [assumption|contradiction|destruct en; contradiction]).
  destruct (right_exec e en R T HT) as (o & Eo & Hx). rewrite Eo. destruct o as [cs|]; [|exfalso; apply Hx; now exists i, j, L].
  destruct Hx as [(i' & j' & L' & Hm' & ->) Hl]. rewrite map_length, seq_length in Hl. rewrite Hl. now rewrite (S _ _ _ _ _ _ Hm' Hm).
Qed.
