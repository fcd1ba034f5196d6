(** A family of patterns on which the fixed-offset analysis is exponential (C66). *)
From Coq Require Import String ZifyBool ZifyNat ZifyN Permutation.
From Verif Require Import SpecSteps SpecFixed SpecGrammar SpecSize SpecCaret SpecPriority SpecGroups PFixedAll PFixed PAll PStrip PExplode PSize PCompile PAnchored PSteps.
Open Scope nat_scope.
Open Scope string_scope.
Open Scope list_scope.
Set Default Proof Using "Type".

Definition hex_digit : atom := MatchingList [Range 48%N 57%N; Range 97%N 102%N].
Definition hexes (k : nat) : ere := [[PStart; PQuant (XAtom hex_digit) {| q_type := QMultiple (N.of_nat k); q_alt := false |}; PEnd]].
Definition hexes_text (ds : list N) : list N := s2l "^[0-9a-f]{" ++ ds ++ s2l "}$".
Lemma hexes_grammar k ds : G_num (N.of_nat k) ds -> G_ere (hexes k) (hexes_text ds).
Proof.
  intros H. apply Ge_one. unfold hexes_text.
  replace (s2l "^[0-9a-f]{" ++ ds ++ s2l "}$") with (s2l "^" ++ (s2l "[0-9a-f]" ++ (s2l "{" ++ ds ++ s2l "}")) ++ s2l "$" ++ []) by (cbn; rewrite <- !app_assoc; reflexivity).
  apply Gbr_cons; [constructor|]. apply Gbr_cons; [|apply Gbr_cons; [constructor|constructor]]. apply Gp_quant; [|constructor; now constructor].
  apply Gx_atom. change (s2l "[0-9a-f]") with (s2l "[" ++ s2l "0-9a-f]"). apply Ga_list; [intros (r & E); discriminate E|]. apply Gl_plain; [intros (r & E); discriminate E|].
  change (s2l "0-9a-f]") with (48 :: ch "-" :: 57 :: s2l "a-f]")%N. apply Gb_range; [discriminate..|]. change (s2l "a-f]") with (97 :: ch "-" :: 102 :: s2l "]")%N. apply Gb_range; [discriminate..|]. constructor.
Qed.
Lemma hexes_scalar k ds : G_num (N.of_nat k) ds -> Forall scalar (hexes_text ds).
Proof.
  intros H. unfold hexes_text. apply Forall_app. split; [repeat constructor|]. apply Forall_app. split; [|repeat constructor].
  assert (D : forall l, Forall is_digit l -> Forall scalar l) by (intros l; apply Forall_impl; intros c [H1 H2]; change (48 <= c)%N in H1; change (c <= 57)%N in H2; unfold scalar, scalarb, char_max; lia).
  inversion H; subst; [now apply D|]. apply Forall_app. split; [repeat constructor|now apply D].
Qed.
Definition hex (c : N) : Prop := (48 <= c <= 57 \/ 97 <= c <= 102)%N.
Lemma hex_has c : atom_has hex_digit c <-> hex c.
Proof. unfold hex_digit, hex. cbn. split; [intros (t & [<-|[<-|[]]] & Ht); cbn in Ht; lia|]. intros [H|H]; [exists (Range 48 57)|exists (Range 97 102)]; (split; [auto|exact H]). Qed.
Lemma iter_inv T n : forall g i j L, m_iter T (XAtom hex_digit) n g i j L -> j = i + n /\ j <= List.length T /\ L = [] /\ forall x, i <= x < j -> exists c, nth_error T x = Some c /\ hex c.
Proof.
  induction n as [|n IH]; intros g i j L H; inversion H as [|e n' g' i' j' k' L1 L2 H1 H2]; subst; [split; [lia|split; [lia|split; [reflexivity|lia]]]|].
  inversion H1 as [a g1 i1 c Hc Ha|]; subst. destruct (IH _ _ _ _ H2) as (-> & B & -> & D). split; [lia|]. split; [lia|]. split; [reflexivity|]. intros x Hx.
  destruct (Nat.eq_dec x i) as [->|]; [exists c; split; [assumption|now apply hex_has]|]. apply D. lia.
Qed.
Lemma iter_make T n : forall g i, i + n <= List.length T -> (forall x, i <= x < i + n -> exists c, nth_error T x = Some c /\ hex c) -> m_iter T (XAtom hex_digit) n g i (i + n) [].
Proof.
  induction n as [|n IH]; intros g i Hl H; [rewrite Nat.add_0_r; constructor; lia|]. destruct (H i ltac:(lia)) as (c & Hc & Hx).
  apply mi_more with (j := S i) (L1 := []) (L2 := []); [apply me_atom with c; [assumption|now apply hex_has]|]. replace (i + S n) with (S i + n) by lia. apply IH; [lia|]. intros x Hx'. apply H. lia.
Qed.
Lemma hexes_match T k i j L : matches T (hexes k) i j L -> i = 0 /\ j = List.length T /\ List.length T = k /\ Forall hex T /\ L = [(0, (i, j))].
Proof.
  intros (L' & H & ->). unfold hexes in H. apply alts_inv in H as [H|H]; [|now apply none_inv in H].
  apply branch_inv in H as (j1 & L1 & L2 & H1 & H2 & ->). apply PFixedAll.start_inv in H1 as (-> & -> & ->). apply branch_inv in H2 as (j2 & L3 & L4 & H2 & H3 & ->).
  apply branch_inv in H3 as (j3 & L5 & L6 & H3 & H4 & ->). apply PFixedAll.end_inv in H3 as (-> & -> & ->). apply nil_inv in H4 as [<- ->].
  inversion H2 as [|e q n g i' j' L0 Hq Hi| |]; subst. cbn [q_type quant_allows] in Hq. apply Nat2N.inj in Hq. subst n. apply iter_inv in Hi as (Hj & _ & -> & D).
  split; [reflexivity|]. split; [reflexivity|]. split; [lia|]. split; [|reflexivity]. apply Forall_forall. intros c Hc. apply In_nth_error in Hc as (x & Hx). assert (x < List.length T) by (apply nth_error_Some; congruence).
  destruct (D x ltac:(lia)) as (c' & Hc' & Hh). congruence.
Qed.
Lemma hexes_occurs T k : occurs (hexes k) T <-> List.length T = k /\ Forall hex T.
Proof.
  split; [intros (i & j & L & H); apply hexes_match in H; tauto|]. intros [Hl Hh]. exists 0, k, [(0, (0, k))], []. split; [|reflexivity]. apply ma_here.
  apply mb_cons with (j := 0) (L1 := []) (L2 := []); [constructor|]. apply mb_cons with (j := k) (L1 := []) (L2 := []).
  - apply mp_quant with k; [reflexivity|]. apply (iter_make T k _ 0); [lia|]. intros x Hx. destruct (nth_error T x) as [c|] eqn:E; [|apply nth_error_None in E; lia]. exists c. split; [reflexivity|]. rewrite Forall_forall in Hh. apply Hh. eapply nth_error_In; eauto.
  - apply mb_cons with (j := k) (L1 := []) (L2 := []); [rewrite <- Hl; constructor|]. constructor. lia.
Qed.
Lemma hex_bytes T : Forall hex T -> byte_pos T (List.length T) = List.length T.
Proof.
  unfold byte_pos. rewrite firstn_all. intros H. induction H as [|c T Hc H IH]; [reflexivity|]. cbn [map List.length]. change (list_sum (?x :: ?l)) with (x + list_sum l). rewrite IH. unfold char_bytes, hex in *. destruct (N.ltb_spec c 0x80); lia.
Qed.
Lemma hexes_rigid k : rigid (hexes k).
Proof.
  exists (fun x => match x with 0 => Some (0, k) | _ => None end). intros T i j L HT H. apply hexes_match in H as (-> & -> & Hl & Hh & ->). split; [reflexivity|]. split; [reflexivity|].
  intros [|x]; [|reflexivity]. unfold capture. cbn [last_of Nat.eqb]. rewrite (hex_bytes T Hh), Hl. reflexivity.
Qed.

(** ** The texts *)
Fixpoint hexbits (k : nat) : list (list N) := match k with 0 => [[]] | S k => map (cons 48%N) (hexbits k) ++ map (cons 97%N) (hexbits k) end.
Lemma hexbits_length k : List.length (hexbits k) = 2 ^ k.
Proof. induction k as [|k IH]; [reflexivity|]. cbn [hexbits]. rewrite app_length, !map_length, IH. cbn. lia. Qed.
Lemma hexbits_NoDup k : NoDup (hexbits k).
Proof.
  induction k as [|k IH]; cbn [hexbits]; [constructor; [intros []|constructor]|]. apply NoDup_app_intro; [now apply FinFun.Injective_map_NoDup; [intros x y E; injection E|]..|].
  intros x Hx Hy. apply in_map_iff in Hx as (u & <- & _). apply in_map_iff in Hy as (v & E & _). discriminate.
Qed.
Definition low_or_high (c : N) : Prop := c = 48%N \/ c = 97%N.
Lemma hexbits_In k : forall t, In t (hexbits k) -> List.length t = k /\ Forall low_or_high t.
Proof.
  induction k as [|k IH]; intros t H; cbn [hexbits] in H; [destruct H as [<-|[]]; split; [reflexivity|constructor]|].
  apply in_app_or in H as [H|H]; apply in_map_iff in H as (u & <- & Hu); destruct (IH u Hu) as [H1 H2]; (split; [cbn; lia|constructor; [unfold low_or_high; auto|assumption]]).
Qed.
Lemma small_utf8 T : Forall (fun c => (c < 0x80)%N) T -> utf8 T = T.
Proof. intros H. induction H as [|c T Hc H IH]; [reflexivity|]. unfold utf8 in *. cbn [flat_map]. rewrite IH. unfold encode. destruct (N.ltb_spec c 0x80); [reflexivity|lia]. Qed.
Fixpoint halfway (T U : list N) : list N := match T, U with a :: T, b :: U => (if (a =? b)%N then a else 58%N) :: halfway T U | _, _ => [] end.
Lemma halfway_between T : forall U, List.length T = List.length U -> Forall low_or_high T -> Forall low_or_high U -> all_between T U (halfway T U).
Proof.
  induction T as [|a T IH]; intros [|b U] Hl HT HU; try discriminate; [exact I|]. inversion HT; inversion HU; subst. cbn [halfway all_between]. split; [|apply IH; [now injection Hl|assumption..]].
  unfold SpecSteps.between, low_or_high in *. destruct (N.eqb_spec a b); lia.
Qed.
Lemma halfway_small T : forall U, Forall low_or_high T -> Forall (fun c => (c < 0x80)%N) (halfway T U).
Proof. induction T as [|a T IH]; intros [|b U] HT; [constructor..|]. inversion HT; subst. cbn [halfway]. constructor; [|now apply IH]. unfold low_or_high in *. destruct (N.eqb_spec a b); lia. Qed.
Lemma halfway_new T : forall U, List.length T = List.length U -> T <> U -> In 58%N (halfway T U).
Proof.
  induction T as [|a T IH]; intros [|b U] Hl Hn; try discriminate; [contradiction|]. cbn [halfway]. destruct (N.eqb_spec a b) as [->|]; [|now left]. right. apply IH; [now injection Hl|congruence].
Qed.
Lemma hexbits_apart k T U : In T (hexbits k) -> In U (hexbits k) -> T <> U -> cut_off (hexes k) T U.
Proof.
  intros HT HU Hn. destruct (hexbits_In k T HT) as [LT FT], (hexbits_In k U HU) as [LU FU]. right. exists (halfway T U). assert (S := halfway_small T U FT).
  assert (SM : forall X, Forall low_or_high X -> Forall (fun c => (c < 0x80)%N) X) by (intros X; apply Forall_impl; unfold low_or_high; lia).
  split; [revert S; apply Forall_impl; intros c Hc; unfold scalar, scalarb, char_max; lia|]. rewrite !small_utf8 by auto. split; [apply halfway_between; [congruence|assumption..]|].
  rewrite hexes_occurs. intros [_ Hh]. rewrite Forall_forall in Hh. specialize (Hh 58%N (halfway_new T U ltac:(congruence) Hn)). unfold hex in Hh. lia.
Qed.
Lemma hexbits_occur k T : In T (hexbits k) -> Forall scalar T /\ occurs (hexes k) T.
Proof.
  intros HT. destruct (hexbits_In k T HT) as [LT FT]. split; [revert FT; apply Forall_impl; intros c Hc; unfold low_or_high, scalar, scalarb, char_max in *; lia|]. apply hexes_occurs. split; [assumption|]. revert FT. apply Forall_impl. unfold low_or_high, hex. lia.
Qed.

(** ** What the analysis makes of it *)
Lemma hexes_size k : size (fun a => 27 * intervals a) (hexes k) = 5 + 56 * k.
Proof. unfold hexes, size, size_branch, hex_digit. cbn [map list_sum fold_right size_part size_expr q_type copies intervals term_intervals]. rewrite Nat2N.id. change (list_sum [1; 1]) with 2. lia. Qed.
Lemma hexes_steps k ds : G_num (N.of_nat k) ds -> exists n m x offs, parse_str (hexes_text ds) = ROk (hexes k) /\ working_new (tree_of (hexes k)) = Ok n /\ u8_new n = Ok m /\
  List.length m <= 224 * k + 243 /\ fixed_offsets m = Ok (Some offs) /\ takes (fo_iter m) (fo_init m) x (Some offs) /\ 2 ^ k < x.
Proof.
  intros Hd. assert (Hp := proj2 (parse_iff _ _) (hexes_grammar k ds Hd)). assert (Hs := hexes_scalar k ds Hd).
  assert (Hne : exists T, In T (hexbits k)). { assert (L := hexbits_length k). destruct (hexbits k) as [|T l]; [cbn in L; assert (2 ^ k <> 0) by (apply Nat.pow_nonzero; lia); lia|]. exists T. now left. }
  destruct Hne as (T0 & HT0). destruct (hexbits_occur k T0 HT0) as [HT1 HT2].
  destruct (parsed_automata _ _ Hp Hs T0 HT1 HT2) as (n & m & En & Hn & Hg & Em & Hm).
  assert (Hk : carets (hexes k) = Some 1) by reflexivity. assert (Hl : dollars (hexes k) = Some 1) by reflexivity. assert (Hlr : loops_read (hexes k) = true) by reflexivity.
  destruct (rigid_fixed _ _ Hp Hs n m En Hn Em Hm 1 1 Hk Hl Hlr (hexes_rigid k)) as (offs & Ef).
  assert (Hm' := Hm). destruct Hm' as (M1 & M2 & M3 & M4 & M5 & M6 & M7).
  destruct (fixed_offsets_spec m M6 (ok_wf _ M1) ltac:(lia) M5) as (o & Eo & Ho). rewrite Ef in Eo. injection Eo as <-. destruct (proj1 (Ho offs) eq_refl) as ((l & El) & _ & _).
  destruct (fixed_loop m l (ok_wf _ M1) ltac:(lia) M5 El) as (x & r & ps & Htk & Er & _ & Hx & _). rewrite Ef in Er. injection Er as <-.
  exists n, m, x, offs. do 3 (split; [assumption|]). split; [|split; [assumption|split; [assumption|]]].
  - assert (B := byte_size _ _ n m Hp Hs). rewrite (hexes_size k) in B. assert (4 * (5 + 56 * k) + 223 = 224 * k + 243) by lia. rewrite <- H. apply B; [|assumption..].
    intros a [<-|[]]. cbn. repeat constructor; cbn; lia.
  - rewrite (Hx ltac:(discriminate)). rewrite <- (hexbits_length k). assert (B := fixed_lower (hexes k) m (hexbits k) Hm (ex_intro _ offs Ef) (hexbits_NoDup k) (hexbits_occur k) (hexbits_apart k)). lia.
Qed.
Lemma hexes_compiles k ds : 1 <= k -> G_num (N.of_nat k) ds -> exists en, compile_regex (hexes_text ds) = Ok en.
Proof.
  intros Hk Hd. assert (Hp := proj2 (parse_iff _ _) (hexes_grammar k ds Hd)). assert (Hs := hexes_scalar k ds Hd).
  apply (anchors_compile _ (hexes k) (repeat 48%N k) 1 Hp Hs); [reflexivity| | | |].
  - right. split; [lia|]. split; [exists 1; split; [reflexivity|lia]|]. intros a [<-|[]]. repeat constructor.
  - apply Forall_forall. intros c Hc. apply repeat_spec in Hc. subst c. reflexivity.
  - apply hexes_occurs. split; [apply repeat_length|]. apply Forall_forall. intros c Hc. apply repeat_spec in Hc. subst c. left. lia.
  - right. split; [rewrite hexes_occurs; cbn; lia|]. right. exists 1. split; [reflexivity|]. intros T i j L i' j' L' x HT H H'. apply hexes_match in H as (-> & -> & _ & _ & ->). apply hexes_match in H' as (-> & -> & _ & _ & ->). reflexivity.
Qed.
Theorem hexes_default k ds : 1 <= k -> G_num (N.of_nat k) ds -> exists n m b x offs, working_new (tree_of (hexes k)) = Ok n /\ u8_new n = Ok m /\ List.length m <= 224 * k + 243 /\
  compile_regex (hexes_text ds) = Ok (EFixed b offs) /\ fixed_offsets m = Ok (Some offs) /\ takes (fo_iter m) (fo_init m) x (Some offs) /\ 2 ^ k < x.
Proof.
  intros Hk Hd. destruct (hexes_compiles k ds Hk Hd) as (en & E). destruct (hexes_steps k ds Hd) as (n & m & x & offs & Hp & En & Em & Hl & Ef & Ht & Hx).
  assert (C := E). unfold compile_regex in C. rewrite (parsed_with_ere _ _ _ Hp) in C. unfold pick_engine in C. destruct (pick_base_engine (hexes k)) as [[b u]| | |] eqn:Eb; try discriminate C. cbn [bind] in C.
  destruct (base_automaton _ _ b u Hp (hexes_scalar k ds Hd) Eb) as (n' & En' & _ & Em' & _). rewrite En in En'. injection En' as <-. rewrite Em in Em'. injection Em' as <-.
  rewrite Ef in C. cbn [bind] in C. destruct (List.length offs =? num_capture_groups m)%nat; [|discriminate C]. injection C as <-. exists n, m, b, x, offs. auto 9.
Qed.
(** ** Bounds *)
Lemma geometric_one f : geometric 1 f = f.
Proof. induction f as [|f IH]; [reflexivity|]. cbn [geometric]. rewrite IH. lia. Qed.
Lemma geometric_pow d f : geometric d f <= S d ^ f.
Proof. induction f as [|f IH]; [cbn; lia|]. cbn [geometric Nat.pow]. assert (1 <= S d ^ f) by (assert (S d ^ f <> 0) by (apply Nat.pow_nonzero; lia); lia). nia. Qed.
Lemma parsed_bytes s e n m : parse_str s = ROk e -> Forall scalar s -> working_new (tree_of e) = Ok n -> u8_new n = Ok m -> m <> [] -> byte_automaton_of e m.
Proof. intros Hp Hs En Em Hm. exact (parsed_u8_ne s e Hp Hs n m En Em Hm). Qed.
Lemma loop_ends s e n m l : parse_str s = ROk e -> Forall scalar s -> working_new (tree_of e) = Ok n -> u8_new n = Ok m -> topological_ordering m = Ok (Some l) ->
  exists x r, takes (fo_iter m) (fo_init m) x r /\ fixed_offsets m = Ok r /\ x <= S (visits (List.length m) m 0).
Proof.
  intros Hp Hs En Em El. assert (Hm : m <> []) by (intros ->; discriminate El). assert (Hb := parsed_bytes s e n m Hp Hs En Em Hm). destruct Hb as (M1 & M2 & M3 & M4 & M5 & M6 & M7).
  destruct (fixed_loop m l (ok_wf _ M1) ltac:(lia) M5 El) as (x & r & ps & H1 & H2 & H3 & _). eauto.
Qed.
Lemma loop_bound s e n m l d x r : parse_str s = ROk e -> Forall scalar s -> working_new (tree_of e) = Ok n -> u8_new n = Ok m -> topological_ordering m = Ok (Some l) ->
  (forall q, In q m -> List.length (trans q) + List.length (eps q) <= d) -> takes (fo_iter m) (fo_init m) x r -> x <= 1 + geometric d (List.length m).
Proof.
  intros Hp Hs En Em El Hd Ht. destruct (loop_ends s e n m l Hp Hs En Em El) as (y & r' & H1 & _ & H3). destruct (takes_once _ _ _ _ _ _ Ht H1) as [-> _].
  assert (V := visits_le m d). rewrite H3. apply le_n_S. apply V. intros q. unfold get. destruct (nth_in_or_default q m empty_state) as [Hq|Hq]; [now apply Hd|]. rewrite Hq. cbn. lia.
Qed.
Lemma loop_lower s e n m S x offs : parse_str s = ROk e -> Forall scalar s -> working_new (tree_of e) = Ok n -> u8_new n = Ok m -> takes (fo_iter m) (fo_init m) x (Some offs) -> fixed_offsets m = Ok (Some offs) ->
  NoDup S -> (forall T, In T S -> Forall scalar T /\ occurs e T) -> (forall T U, In T S -> In U S -> T <> U -> cut_off e T U) -> List.length S < x.
Proof.
  intros Hp Hs En Em Ht Ef Hn Ho Hc. assert (Hm : m <> []) by (intros ->; vm_compute in Ef; discriminate Ef). assert (Hb := parsed_bytes s e n m Hp Hs En Em Hm). assert (Hb' := Hb). destruct Hb' as (M1 & M2 & M3 & M4 & M5 & M6 & M7).
  destruct (fixed_offsets_spec m M6 (ok_wf _ M1) ltac:(lia) M5) as (o & Eo & Hof). rewrite Ef in Eo. injection Eo as <-. destruct (proj1 (Hof offs) eq_refl) as ((l & El) & _ & _).
  destruct (fixed_loop m l (ok_wf _ M1) ltac:(lia) M5 El) as (y & r & ps & Htk & Er & _ & Hx & _). destruct (takes_once _ _ _ _ _ _ Ht Htk) as [-> <-]. rewrite (Hx ltac:(discriminate)).
  assert (B := fixed_lower e m S Hb (ex_intro _ offs Ef) Hn Ho Hc). lia.
Qed.
