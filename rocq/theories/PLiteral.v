(** Strings of characters as patterns. *)
From Coq Require Import String.
From Verif Require Import PStrip PAll PCompile PAnchored PCount PLazyAll SpecGroups SpecPriority SpecLiteral SpecCaret.
From Coq Require Import ZifyBool ZifyNat ZifyN.
Open Scope nat_scope.
Open Scope list_scope.

Definition chr (c : N) : part := PSingle (XAtom (NormalChar c)).
Definition word_branch (a z : bool) (w : list N) : branch := (if a then [PStart] else []) ++ map chr w ++ (if z then [PEnd] else []).
Lemma quote1_atom c : G_atom (NormalChar c) (quote1 c).
Proof.
  unfold quote1. destruct (existsb (N.eqb c) special_chars) eqn:E.
  - apply Ga_escape. apply existsb_exists in E as (x & Hx & E). apply N.eqb_eq in E. subst x. cbn in *. intuition.
  - apply Ga_char. intros H. assert (X : existsb (N.eqb c) special_chars = true) by (apply existsb_exists; exists c; split; [assumption|apply N.eqb_refl]). congruence.
Qed.
Lemma word_branch_grammar a z w : G_branch (word_branch a z w) (word_text a z w).
Proof.
  assert (Z : G_branch (if z then [PEnd] else []) (if z then s2l "$" else [])) by (destruct z; [change (s2l "$") with (s2l "$" ++ []); apply Gbr_cons; constructor|constructor]).
  assert (W : G_branch (map chr w ++ (if z then [PEnd] else [])) (quote w ++ (if z then s2l "$" else []))).
  { induction w as [|c w IH]; [exact Z|]. cbn [map quote flat_map app]. rewrite <- app_assoc. apply Gbr_cons; [|exact IH]. apply Gp_single, Gx_atom, quote1_atom. }
  unfold word_branch, word_text. destruct a; [|exact W]. apply Gbr_cons; [constructor|exact W].
Qed.
Lemma word_grammar a z w : G_ere [word_branch a z w] (word_text a z w).
Proof. apply Ge_one, word_branch_grammar. Qed.
Lemma quote_scalar w : Forall scalar w -> Forall scalar (quote w).
Proof.
  induction 1 as [|c w Hc Hw IH]; cbn [quote flat_map]; [constructor|]. apply Forall_app. split; [|exact IH]. unfold quote1. destruct (existsb _ _); repeat constructor; assumption.
Qed.
Lemma word_scalar a z w : Forall scalar w -> Forall scalar (word_text a z w).
Proof. intros H. unfold word_text. apply Forall_app. split; [destruct a; repeat constructor|]. apply Forall_app. split; [now apply quote_scalar|destruct z; repeat constructor]. Qed.

(** *** What it matches *)
Lemma skipn_nth_cons {A} i : forall (T : list A) c, nth_error T i = Some c -> skipn i T = c :: skipn (S i) T.
Proof. induction i as [|i IH]; intros [|x T] c H; try discriminate; cbn in *; [congruence|]. now apply IH. Qed.
Lemma chars_match T w b : forall g i j L, m_branch T (map chr w ++ b) g i j L <-> m_branch T b g (i + length w) j L /\ firstn (length w) (skipn i T) = w.
Proof.
  induction w as [|c w IH]; intros g i j L; cbn [map app length firstn]; [rewrite Nat.add_0_r; tauto|]. split.
  - intros H. inversion H as [|p b0 g0 i0 k j0 L1 L2 H1 H2]; subst. inversion H1 as [e0 g1 i1 j1 L3 Hx| | |]; subst. inversion Hx as [a g2 i2 c' Hc Ha|]; subst. cbn in Ha. subst c'.
    cbn [groups_part groups_expr] in H2. rewrite Nat.add_0_r in H2. apply IH in H2 as [H2 H3]. replace (i + S (length w)) with (S i + length w) by lia. split; [exact H2|].
    rewrite (skipn_nth_cons i T c Hc). now rewrite H3.
  - intros [H1 H2]. destruct (skipn i T) as [|d r] eqn:E; [discriminate|]. injection H2 as -> H2.
    assert (Hn : nth_error T i = Some c) by (rewrite <- (firstn_skipn i T), E, nth_error_app2; rewrite firstn_length; [|lia]; assert (i < length T) by (destruct (Nat.lt_ge_cases i (length T)) as [|Hge]; [assumption|]; rewrite skipn_all2 in E by assumption; discriminate); rewrite Nat.min_l by lia; now rewrite Nat.sub_diag).
    change L with ([] ++ L). apply mb_cons with (j := S i); [apply mp_single; apply me_atom with c; [assumption|reflexivity]|].
    cbn [groups_part groups_expr]. rewrite Nat.add_0_r. apply IH. split; [now replace (S i + length w) with (i + S (length w)) by lia|].
    assert (E2 := skipn_nth_cons i T c Hn). rewrite E in E2. apply (f_equal (@tl N)) in E2. cbn [tl] in E2. now rewrite <- E2.
Qed.

(** The characters from [i] on. *)
Definition window (w T : list N) (i : nat) : Prop := firstn (length w) (skipn i T) = w.
Lemma window_split w T i : window w T i -> T = firstn i T ++ w ++ skipn (length w) (skipn i T).
Proof. intros H. transitivity (firstn i T ++ firstn (length w) (skipn i T) ++ skipn (length w) (skipn i T)); [now rewrite !firstn_skipn|now rewrite H]. Qed.
Lemma split_window U w V : window w (U ++ w ++ V) (length U).
Proof. unfold window. rewrite skipn_app, skipn_all, Nat.sub_diag. cbn [app skipn]. rewrite firstn_app, Nat.sub_diag, firstn_all. cbn. now rewrite app_nil_r. Qed.
Lemma end_match T (z : bool) g i j L : m_branch T (if z then [PEnd] else []) g i j L <-> j = i /\ i <= length T /\ (z = true -> i = length T) /\ L = [].
Proof.
  destruct z; split.
  - intros H. inversion H as [|p b g0 i0 k j0 L1 L2 H1 H2]; subst. inversion H1; subst. inversion H2; subst. auto.
  - intros (-> & _ & H & ->). rewrite (H eq_refl). change (@nil (nat * (nat * nat))) with (@nil (nat * (nat * nat)) ++ []). apply mb_cons with (j := length T); constructor; lia.
  - intros H. inversion H; subst. repeat split; auto. discriminate.
  - intros (-> & H & _ & ->). now constructor.
Qed.
Lemma word_branch_match T a z w g i j L : m_branch T (word_branch a z w) g i j L <->
  j = i + length w /\ j <= length T /\ window w T i /\ (a = true -> i = 0) /\ (z = true -> j = length T) /\ L = [].
Proof.
  assert (W : forall g i j L, m_branch T (map chr w ++ (if z then [PEnd] else [])) g i j L <-> j = i + length w /\ j <= length T /\ window w T i /\ (z = true -> j = length T) /\ L = []).
  { intros g' i' j' L'. rewrite chars_match, end_match. unfold window. intuition (subst; auto). }
  unfold word_branch. destruct a; cbn [app].
  - split.
    + intros H. inversion H as [|p b g0 i0 k j0 L1 L2 H1 H2]; subst. inversion H1; subst. apply W in H2 as (? & ? & ? & ? & ->). auto 10.
    + intros (H1 & H2 & H3 & H4 & H5 & ->). rewrite (H4 eq_refl) in *. change (@nil (nat * (nat * nat))) with (@nil (nat * (nat * nat)) ++ []). apply mb_cons with (j := 0); [constructor|]. apply W. auto.
  - rewrite W. intuition discriminate.
Qed.
Lemma word_match T a z w i j L : matches T [word_branch a z w] i j L <->
  j = i + length w /\ j <= length T /\ window w T i /\ (a = true -> i = 0) /\ (z = true -> j = length T) /\ L = [(0, (i, j))].
Proof.
  split.
  - intros (L' & H & ->). inversion H as [b bs g0 i0 j0 L0 Hb|b bs g0 i0 j0 L0 Hb]; subst; [|inversion Hb]. apply word_branch_match in Hb as (? & ? & ? & ? & ? & ->). auto 10.
  - intros (H1 & H2 & H3 & H4 & H5 & ->). exists []. split; [|reflexivity]. apply ma_here, word_branch_match. auto 10.
Qed.
Lemma words_match T ws i j L : matches T (map (word_branch false false) ws) i j L <-> exists w, In w ws /\ j = i + length w /\ j <= length T /\ window w T i /\ L = [(0, (i, j))].
Proof.
  assert (W : forall ws g i j L, m_alts T (map (word_branch false false) ws) g i j L <-> exists w, In w ws /\ j = i + length w /\ j <= length T /\ window w T i /\ L = []).
  { clear. induction ws as [|w ws IH]; intros g i j L; cbn [map]; [split; [intros H; inversion H|intros (w & [] & _)]|]. split.
    - intros H. inversion H as [b bs g0 i0 j0 L0 Hb|b bs g0 i0 j0 L0 Hb]; subst.
      + apply word_branch_match in Hb as (? & ? & ? & _ & _ & ->). exists w. split; [now left|]. auto.
      + apply IH in Hb as (v & Hv & Hr). exists v. split; [now right|assumption].
    - intros (v & [<-|Hv] & H1 & H2 & H3 & ->); [apply ma_here, word_branch_match; repeat split; auto; discriminate|]. apply ma_later, IH. exists v. auto. }
  split.
  - intros (L' & H & ->). apply W in H as (w & ? & ? & ? & ? & ->). exists w. auto.
  - intros (w & ? & ? & ? & ? & ->). exists []. split; [|reflexivity]. apply W. exists w. auto.
Qed.

(** *** What the engines answer *)
Lemma word_stands T a z w i j L : matches T [word_branch a z w] i j L -> stands a z w T (firstn i T) /\ length (firstn i T) = i /\ j = i + length w /\ L = [(0, (i, j))].
Proof.
  intros H. apply word_match in H as (H1 & H2 & H3 & H4 & H5 & ->). split; [|rewrite firstn_length; split; [lia|auto]]. exists (skipn (length w) (skipn i T)). split; [now apply window_split|]. split.
  - intros E. now rewrite (H4 E).
  - intros E. apply length_zero_iff_nil. rewrite !skipn_length. specialize (H5 E). lia.
Qed.
Lemma stands_word T a z w U : stands a z w T U -> matches T [word_branch a z w] (length U) (length U + length w) [(0, (length U, length U + length w))].
Proof.
  intros (V & -> & Ha & Hz). apply word_match. split; [reflexivity|]. rewrite !app_length. split; [lia|]. split; [apply split_window|]. split; [intros E; now rewrite (Ha E)|]. split; [|reflexivity].
  intros E. rewrite (Hz E). cbn. lia.
Qed.
Lemma bytes_app U w : bytes_of (U ++ w) = bytes_of U + bytes_of w.
Proof. unfold bytes_of. now rewrite map_app, list_sum_app. Qed.
Lemma byte_pos_prefix U V : byte_pos (U ++ V) (length U) = bytes_of U.
Proof. unfold byte_pos, bytes_of. now rewrite firstn_app, Nat.sub_diag, firstn_all, app_nil_r. Qed.
Lemma total_cons x l : SpecCaret.total (Some x :: l) = match SpecCaret.total l with Some y => Some (x + y) | None => None end.
Proof. reflexivity. Qed.
Lemma total_skip l : SpecCaret.total (Some 0 :: l) = SpecCaret.total l.
Proof. rewrite total_cons. now destruct (SpecCaret.total l). Qed.
Lemma chars_carets w b : SpecCaret.total (map carets_part (map chr w ++ b)) = SpecCaret.total (map carets_part b).
Proof. induction w as [|c w IH]; [reflexivity|]. cbn [map app chr carets_part carets_expr]. now rewrite total_skip. Qed.
Lemma chars_dollars w b : SpecCaret.total (map dollars_part (map chr w ++ b)) = SpecCaret.total (map dollars_part b).
Proof. induction w as [|c w IH]; [reflexivity|]. cbn [map app chr dollars_part dollars_expr]. now rewrite total_skip. Qed.
Lemma word_carets a z w : carets [word_branch a z w] = Some (if a then 1 else 0).
Proof. unfold carets. cbn [map common forallb]. unfold carets_branch, word_branch. destruct a; cbn [app map carets_part]; rewrite ?total_cons, chars_carets; now destruct z. Qed.
Lemma word_dollars a z w : dollars [word_branch a z w] = Some (if z then 1 else 0).
Proof. unfold dollars. cbn [map common forallb]. unfold dollars_branch, word_branch. destruct a; cbn [app map dollars_part]; rewrite ?total_skip, chars_dollars; now destruct z. Qed.
Lemma word_groups a z w : groups [word_branch a z w] = 0.
Proof.
  assert (H : forall b, list_sum (map groups_part (map chr w ++ b)) = list_sum (map groups_part b)) by (intros b; induction w as [|c w IH]; [reflexivity|exact IH]).
  unfold groups. cbn [map]. unfold groups_branch, word_branch. destruct a; cbn [app map]; [change (list_sum (groups_part PStart :: ?l)) with (list_sum l)|]; rewrite H; now destruct z.
Qed.
Definition finds (a z : bool) (w T : list N) (en : engine) : Prop :=
  exists o, engine_exec en T = Ok o /\ engine_test en T = Ok (match o with Some _ => true | None => false end) /\
    match o with
    | Some cs => exists U, stands_first a z w T U /\ cs = [Some (bytes_of U, bytes_of U + bytes_of w)]
    | None => forall U, ~ stands a z w T U
    end.
Theorem word_finds a z w en T : compiled (word_text a z w) en -> Forall scalar w -> Forall scalar T -> finds a z w T en.
Proof.
  intros H Hw HT. assert (Hs := word_scalar a z w Hw). assert (Hg := word_grammar a z w). set (e := [word_branch a z w]) in *.
  assert (Hc : caret_ok e = true) by (unfold caret_ok, e; now rewrite word_carets).
  destruct (compiled_unique _ en e H Hs Hg) as (G1 & R & _). specialize (R (or_intror Hc)).
  assert (G2 : engine_groups en <= 1) by (destruct (compiled_counted _ en H Hs) as (e' & Hg' & C); assert (e' = e) as -> by (apply parse_iff in Hg, Hg'; congruence); apply counted_bound in C; unfold e in C; now rewrite word_groups in C).
  destruct (right_test e en R T HT) as (b & Eb & Hb). destruct (right_exec e en R T HT) as (o & Eo & Ho). exists o. split; [assumption|]. destruct o as [cs|].
  - destruct (compiled_first _ e en T cs H Hs HT Hg (or_intror Hc) Eo) as (i & j & L & Hm & Ec & _ & Hf). rewrite Eb. split; [f_equal; apply Hb; now exists i, j, L|].
    destruct (word_stands T a z w i j L Hm) as (S1 & S2 & -> & ->). exists (firstn i T). split.
    + split; [exact S1|]. intros U' HU. apply stands_word in HU. apply Hf in HU. lia.
    + rewrite Ec. replace (engine_groups en) with 1 by lia. cbn [seq map]. unfold capture. cbn [last_of Nat.eqb]. destruct S1 as (V & E & _).
      clear - E S2. revert E S2. generalize (firstn i T) as U. intros U -> <-. do 3 f_equal; [apply byte_pos_prefix|]. rewrite <- bytes_app, app_assoc, <- app_length. apply byte_pos_prefix.
  - rewrite Eb. split; [f_equal; destruct b; [exfalso; apply Ho; now apply Hb|reflexivity]|]. intros U HU. apply Ho. eexists _, _, _. apply stands_word, HU.
Qed.
(** *** Every macro but that of the DFA makes one of them *)
Lemma word_atoms a z w x : In x (atoms [word_branch a z w]) -> exists c, x = NormalChar c.
Proof.
  unfold atoms. cbn [flat_map]. rewrite app_nil_r. unfold atoms_branch. intros H. apply in_flat_map in H as (p & Hp & H). unfold word_branch in Hp.
  apply in_app_or in Hp as [Hp|Hp]; [destruct a; [destruct Hp as [<-|[]]; destruct H|destruct Hp]|]. apply in_app_or in Hp as [Hp|Hp]; [|destruct z; [destruct Hp as [<-|[]]; destruct H|destruct Hp]].
  apply in_map_iff in Hp as (c & <- & _). destruct H as [<-|[]]. now exists c.
Qed.
Lemma word_occurs a z w : occurs [word_branch a z w] w.
Proof. eexists _, _, _. apply (stands_word w a z w []). exists []. rewrite app_nil_r. auto. Qed.
Theorem word_compiles a z w : Forall scalar w ->
  (a = false \/ z = true \/ w <> [] -> exists en, compile_regex (word_text a z w) = Ok en) /\ (exists en, compile_flat (word_text a z w) = Ok en) /\ exists en, compile_flat_u8 (word_text a z w) = Ok en.
Proof.
  intros Hw. assert (Hs := word_scalar a z w Hw). assert (Hp : parse_str (word_text a z w) = ROk [word_branch a z w]) by apply parse_iff, word_grammar.
  assert (Ha : forall x, In x (atoms [word_branch a z w]) -> named_well x) by (intros x Hx; apply word_atoms in Hx as (c & ->); exact I).
  assert (Ho := word_occurs a z w). split; [|split; [exact (flat_compiles _ _ Hp Hs w Ha Hw Ho)|exact (flat_u8_compiles _ _ Hp Hs w Hw Ho)]].
  intros Hne. assert (D : (a = false \/ w <> []) \/ (a = true /\ z = true /\ w = [])) by (destruct a, z, w; intuition discriminate). clear Hne. destruct D as [Hne|(-> & -> & ->)].
  2: { assert (X : match compile_regex (word_text true true []) with Ok _ => true | _ => false end = true) by (vm_compute; reflexivity). destruct (compile_regex (word_text true true [])) as [en| | |]; try discriminate. now exists en. }
  apply (anchors_compile _ _ w _ Hp Hs (word_carets a z w)); auto. destruct a; [|now left]. right. split.
  - intros (i & j & L & Hm). apply word_match in Hm as (H1 & H2 & _). cbn in H2. destruct Hne as [|Hne]; [discriminate|]. destruct w; [contradiction|cbn in H1; lia].
  - destruct z; [right|left; apply word_dollars]. exists 1. split; [apply word_dollars|]. intros T i j L i' j' L' k _ Hm Hm'. apply word_match in Hm as (H1 & _ & _ & H4 & _ & ->). apply word_match in Hm' as (H1' & _ & _ & H4' & _ & ->).
    rewrite H1, H1', (H4 eq_refl), (H4' eq_refl). reflexivity.
Qed.

(** ** Several strings *)
Notation words := (map (word_branch false false)).
Lemma any_grammar w ws : G_ere (words (w :: ws)) (quote_any (w :: ws)).
Proof.
  revert w. induction ws as [|v ws IH]; intros w; cbn [map].
  - cbn [quote_any]. assert (H := word_grammar false false w). unfold word_text in H. cbn [app] in H. now rewrite app_nil_r in H.
  - change (quote_any (w :: v :: ws)) with (quote w ++ s2l "|" ++ quote_any (v :: ws)). apply Ge_more; [|apply IH]. assert (H := word_branch_grammar false false w). unfold word_text in H. cbn [app] in H. now rewrite app_nil_r in H.
Qed.
Lemma any_scalar ws : Forall (Forall scalar) ws -> Forall scalar (quote_any ws).
Proof.
  induction 1 as [|w ws Hw Hws IH]; [constructor|]. destruct ws as [|v ws]; [now apply quote_scalar|].
  change (quote_any (w :: v :: ws)) with (quote w ++ s2l "|" ++ quote_any (v :: ws)). apply Forall_app. split; [now apply quote_scalar|]. apply Forall_app. split; [repeat constructor|exact IH].
Qed.
Lemma words_carets ws : carets (words ws) = Some 0.
Proof.
  unfold carets, common. destruct ws as [|w ws]; [reflexivity|]. cbn [map]. assert (H : forall w, carets_branch (word_branch false false w) = Some 0) by (intros v; exact (word_carets false false v)). rewrite H.
  assert (X : forallb (opt_eqb (Some 0)) (map carets_branch (words ws)) = true) by (apply forallb_forall; intros x Hx; apply in_map_iff in Hx as (b & <- & Hb); apply in_map_iff in Hb as (v & <- & _); now rewrite H). now rewrite X.
Qed.
Lemma words_groups ws : groups (words ws) = 0.
Proof. induction ws as [|w ws IH]; [reflexivity|]. assert (H : groups_branch (word_branch false false w) + 0 = 0) by exact (word_groups false false w). change (groups_branch (word_branch false false w) + groups (words ws) = 0). lia. Qed.
Lemma words_stands T ws i j L : matches T (words ws) i j L <-> exists w, In w ws /\ matches T [word_branch false false w] i j L.
Proof.
  rewrite words_match. split; intros (w & Hw & H); exists w; (split; [assumption|]).
  - apply word_match. destruct H as (H1 & H2 & H3 & H4). repeat split; auto; discriminate.
  - apply word_match in H as (H1 & H2 & H3 & _ & _ & H4). auto.
Qed.
Definition finds_any (ws : list (list N)) (T : list N) (en : engine) : Prop :=
  exists o, engine_exec en T = Ok o /\ engine_test en T = Ok (match o with Some _ => true | None => false end) /\
    match o with
    | Some cs => exists w U, In w ws /\ stands false false w T U /\ cs = [Some (bytes_of U, bytes_of U + bytes_of w)] /\ forall w' U', In w' ws -> stands false false w' T U' -> length U <= length U'
    | None => forall w U, In w ws -> ~ stands false false w T U
    end.
Theorem words_find w0 ws en T : compiled (quote_any (w0 :: ws)) en -> Forall (Forall scalar) (w0 :: ws) -> Forall scalar T -> finds_any (w0 :: ws) T en.
Proof.
  intros H Hw HT. assert (Hs := any_scalar _ Hw). assert (Hg := any_grammar w0 ws). set (e := words (w0 :: ws)) in *.
  assert (Hc : caret_ok e = true) by (unfold caret_ok, e; now rewrite words_carets).
  destruct (compiled_unique _ en e H Hs Hg) as (G1 & R & _). specialize (R (or_intror Hc)).
  assert (G2 : engine_groups en <= 1) by (destruct (compiled_counted _ en H Hs) as (e' & Hg' & C); assert (e' = e) as -> by (apply parse_iff in Hg, Hg'; congruence); apply counted_bound in C; unfold e in C; now rewrite words_groups in C).
  destruct (right_test e en R T HT) as (b & Eb & Hb). destruct (right_exec e en R T HT) as (o & Eo & Ho). exists o. split; [assumption|]. destruct o as [cs|].
  - destruct (compiled_first _ e en T cs H Hs HT Hg (or_intror Hc) Eo) as (i & j & L & Hm & Ec & _ & Hf). rewrite Eb. split; [f_equal; apply Hb; now exists i, j, L|].
    apply words_stands in Hm as (w & Hi & Hm). destruct (word_stands T _ _ w i j L Hm) as (S1 & S2 & -> & ->). exists w, (firstn i T). split; [assumption|]. split; [exact S1|]. split.
    + rewrite Ec. replace (engine_groups en) with 1 by lia. cbn [seq map]. unfold capture. cbn [last_of Nat.eqb]. destruct S1 as (V & E & _).
      clear - E S2. revert E S2. generalize (firstn i T) as U. intros U -> <-. do 3 f_equal; [apply byte_pos_prefix|]. rewrite <- bytes_app, app_assoc, <- app_length. apply byte_pos_prefix.
    + intros w' U' Hi' HU. rewrite S2. eapply Hf. apply words_stands. exists w'. split; [assumption|]. apply stands_word, HU.
  - rewrite Eb. split; [f_equal; destruct b; [exfalso; apply Ho; now apply Hb|reflexivity]|]. intros w U Hi HU. apply Ho. eexists _, _, _. apply words_stands. exists w. split; [assumption|]. apply stands_word, HU.
Qed.
Theorem words_compile w0 ws : Forall (Forall scalar) (w0 :: ws) ->
  (exists en, compile_regex (quote_any (w0 :: ws)) = Ok en) /\ (exists en, compile_flat (quote_any (w0 :: ws)) = Ok en) /\ exists en, compile_flat_u8 (quote_any (w0 :: ws)) = Ok en.
Proof.
  intros Hw. assert (Hs := any_scalar _ Hw). assert (Hp : parse_str (quote_any (w0 :: ws)) = ROk (words (w0 :: ws))) by apply parse_iff, any_grammar.
  assert (Ha : forall x, In x (atoms (words (w0 :: ws))) -> named_well x).
  { intros x Hx. unfold atoms in Hx. apply in_flat_map in Hx as (b & Hb & Hx). apply in_map_iff in Hb as (v & <- & _). destruct (word_atoms false false v x) as (c & ->); [|exact I]. unfold atoms. cbn [flat_map]. now rewrite app_nil_r. }
  assert (H0 : Forall scalar w0) by (now inversion Hw).
  assert (Ho : occurs (words (w0 :: ws)) w0) by (destruct (word_occurs false false w0) as (i & j & L & Hm); exists i, j, L; apply words_stands; exists w0; split; [now left|assumption]).
  split; [|split; [exact (flat_compiles _ _ Hp Hs w0 Ha H0 Ho)|exact (flat_u8_compiles _ _ Hp Hs w0 H0 Ho)]].
  apply (anchors_compile _ _ w0 _ Hp Hs (words_carets _)); auto.
Qed.
