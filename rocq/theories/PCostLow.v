(** Lower bounds of the number of steps, and bounds in the size of the automaton. *)
From Coq Require Import String Lia.
From Verif Require Export PCostTab PBlow SpecSize.
From Coq Require Import ZifyBool ZifyNat ZifyN.
Open Scope nat_scope.
Open Scope list_scope.

(** ** Every byte of a text that matches is looked at *)
Lemma sym_loop_low {A C} (check : A -> C -> bool) width price n tbl len text : forall idx ths,
  flat_exec_loop check width n tbl len idx ths text <> [] -> List.length text <= snd (flat_exec_loop_t check width price n tbl len idx ths text).
Proof.
  induction text as [|c text IH]; intros idx ths; cbn [flat_exec_loop flat_exec_loop_t List.length]; [intros; apply Nat.le_0_l|]. unfold spend, tbind. cbn [snd]. rewrite eps_exec_fst, sym_exec_fst.
  destruct (flat_eps_exec n tbl (idx + width c) len (flat_sym_exec check n ths c)) as [|th l]; [intros H; now elim H|]. intros H. specialize (IH _ _ H). cbn [snd]. lia.
Qed.
Lemma run_exec_low {A C} (check : A -> C -> bool) width price n tbl text b : flat_run_exec check width n tbl text = Some b -> List.length text <= snd (flat_run_exec_t check width price n tbl text).
Proof.
  unfold flat_run_exec, flat_run_exec_t, spend, tbind, tmap. cbn [snd]. rewrite eps_exec_fst. set (len := total_width width text). set (ths := flat_eps_exec n tbl 0 len _). intros H.
  assert (X := sym_loop_low check width price n tbl len text 0 ths). destruct (flat_exec_loop check width n tbl len 0 ths text); [discriminate H|]. specialize (X ltac:(discriminate)). lia.
Qed.
Lemma vm_exec_low tab bytes : forall s i b b', vm_exec_loop tab s i b bytes = Some b' -> List.length bytes <= snd (vm_exec_loop_t tab s i b bytes).
Proof.
  induction bytes as [|c r IH]; intros s i b b'; cbn [vm_exec_loop vm_exec_loop_t List.length]; [intros; apply Nat.le_0_l|]. unfold spend, tbind. cbn [snd]. rewrite vm_arm_fst.
  destruct (vm_arm tab s i c) as [tu|]; intros H; [|discriminate H]. specialize (IH _ _ _ _ H). cbn [snd fst apply_tu_t]. lia.
Qed.
Lemma match_run_low rs : forall bytes rest, match_run rs bytes = Some rest -> List.length bytes = snd (match_run_t rs bytes) + List.length rest.
Proof.
  induction rs as [|r rs IH]; intros [|c bytes] rest H; cbn [match_run match_run_t snd] in *; try discriminate H; try (injection H as <-; reflexivity).
  unfold spend. destruct (in_range c r); [|discriminate H]. cbn [snd List.length]. rewrite (IH _ _ H). lia.
Qed.
Lemma fun_exec_low tab runs fuel : forall s st i b bytes b', fun_exec fuel tab runs s st i b bytes = Ok (Some b') -> List.length bytes <= snd (fun_exec_t fuel tab runs s st i b bytes).
Proof.
  induction fuel as [|f IH]; intros s st i b bytes b'; cbn [fun_exec fun_exec_t]; [intros H; discriminate H|]. unfold spend, tbind. cbn [snd fst]. rewrite match_run_fst || idtac.
  destruct (nth s runs RNone) as [r| | |] eqn:E; cbn [snd fst]; rewrite ?match_run_fst.
  - destruct (match_run (run_symbols r) bytes) as [rest|] eqn:M; intros H; [|discriminate H]. apply match_run_low in M. specialize (IH _ _ _ _ _ _ H). cbn [snd fst]. lia.
  - destruct bytes as [|c rest]; cbn [List.length]; [intros; apply Nat.le_0_l|]. rewrite fun_arm_fst. destruct (fun_arm tab s st c) as [tu|]; intros H; [|discriminate H]. specialize (IH _ _ _ _ _ _ H). cbn [snd fst apply_tu_t]. lia.
  - destruct bytes as [|c rest]; cbn [List.length]; [intros; apply Nat.le_0_l|]. rewrite fun_arm_fst. destruct (fun_arm tab s st c) as [tu|]; intros H; [|discriminate H]. specialize (IH _ _ _ _ _ _ H). cbn [snd fst apply_tu_t]. lia.
  - destruct bytes as [|c rest]; cbn [List.length]; [intros; apply Nat.le_0_l|]. rewrite fun_arm_fst. destruct (fun_arm tab s st c) as [tu|]; intros H; [|discriminate H]. specialize (IH _ _ _ _ _ _ H). cbn [snd fst apply_tu_t]. lia.
Qed.
Lemma tdfa_low d g bytes : forall s i tags b, tdfa_exec_loop d g s i tags bytes = Some b -> List.length bytes <= snd (tdfa_exec_loop_t d g s i tags bytes).
Proof.
  induction bytes as [|c r IH]; intros s i tags b; cbn [tdfa_exec_loop tdfa_exec_loop_t List.length]; [intros; apply Nat.le_0_l|]. unfold spend, tbind. cbn [snd]. rewrite tfind_fst.
  destruct (find _ _) as [t|]; intros H; [|discriminate H]. specialize (IH _ _ _ _ H). cbn [snd fst tt_apply_t]. lia.
Qed.
Lemma finish_low T m k r : (forall b, fst m = Some b -> k <= snd m) -> fst (run_finish_t T m) = Ok (Some r) -> k <= snd (run_finish_t T m).
Proof. unfold run_finish_t. cbn [fst snd]. destruct (fst m) as [b|]; intros H E; [specialize (H b eq_refl); lia|discriminate E]. Qed.
Lemma exec_low en T r : bare en -> engine_exec en T = Ok (Some r) -> List.length T <= snd (engine_exec_t en T).
Proof.
  intros Hb H. rewrite <- engine_exec_fst in H. assert (U := utf8_le T). destruct en as [e|d|n|n|en offs]; cbn [engine_exec_t] in *; [| | | |destruct Hb].
  - unfold op_exec_t, spend, tbind in *. cbn [fst snd] in *. destruct (op_k e) as [|runs]; cbn [tmap fst snd] in *.
    + rewrite vm_exec_fst in *. destruct (vm_exec_loop _ _ _ _ _) as [b|] eqn:E; [|discriminate H]. apply vm_exec_low in E. lia.
    + rewrite fun_exec_fst in *. destruct (fun_exec _ _ _ _ _ _ _ _) as [[b|]| | |] eqn:E; try discriminate H. apply fun_exec_low in E. lia.
  - unfold dfa_exec_t in *. destruct (dfa_from_tagged d); try discriminate H. revert H. apply finish_low. unfold tdfa_run_exec_t, spend. cbn [fst snd]. intros b Hd. rewrite tdfa_loop_fst in Hd. apply tdfa_low in Hd. lia.
  - unfold flat_u8_exec_t in *. destruct (flat_make n); try discriminate H. revert H. apply finish_low. intros b Hd. rewrite run_exec_fst in Hd. apply (run_exec_low _ _ (fun _ => 1)) in Hd. lia.
  - unfold flat_char_exec_t in *. destruct (flat_make n); try discriminate H. revert H. apply finish_low. intros b Hd. rewrite run_exec_fst in Hd. apply (run_exec_low _ _ atom_price) in Hd. exact Hd.
Qed.

(** ** Every propagation of the first state is run at the start *)
Lemma tfold_one {S X} (f : S -> X -> ticks S) : (forall s x, snd (f s x) = 1) -> forall l s, snd (tfold f l s) = List.length l.
Proof. intros H. induction l as [|x l IH]; intros s; [reflexivity|]. cbn [tfold tbind snd List.length]. now rewrite IH, H. Qed.
Lemma ordered_all l : List.length (ordered true true l) = List.length l.
Proof. unfold ordered. cbn [andb]. rewrite !app_length. induction l as [|p l IH]; [reflexivity|]. cbn [filter List.length]. destruct (ep_start p), (ep_end p); cbn [andb negb List.length] in *; lia. Qed.
Lemma first_row_low {A C} (check : A -> C -> bool) width price (n : nfa A) tbl : n <> [] -> List.length (nth 0 tbl []) <= snd (flat_run_test_t check width price n tbl []).
Proof.
  intros Hn. unfold flat_run_test_t, spend, tbind. cbn [snd total_width fold_left]. destruct tbl as [|row tbl]; [apply Nat.le_0_l|]. cbn [nth]. unfold flat_eps_test_t, enumerate. cbn [List.length seq combine tfold].
  unfold tbind, spend. cbn [snd fst]. destruct n as [|s n]; [now elim Hn|]. cbn [List.length repeat upd nth].
  match goal with |- context [tfold ?f (ordered ?a ?b row) ?s] => assert (X := tfold_one f ltac:(reflexivity) (ordered a b row) s) end.
  change (0 =? total_width width []) with true in X |- *. change (0 =? 0) with true in X |- *. rewrite ordered_all in X. lia.
Qed.
Lemma options_slow k : exists n, compile_flat (options_text k) = Ok (EFlat n) /\ List.length n <= 28 * k + 20 /\ 2 ^ k <= snd (engine_test_t (EFlat n) []).
Proof.
  destruct (options_flat k) as (n & tbl & H1 & H2 & H3 & H4). exists n. split; [assumption|]. split; [assumption|]. cbn [engine_test_t]. unfold flat_char_test_t. rewrite H2. cbn [tmap snd].
  etransitivity; [exact H4|]. apply first_row_low. intros ->. discriminate H2.
Qed.
Lemma options_slow_u8 k : exists m, compile_flat_u8 (options_text k) = Ok (EFlatU8 m) /\ 2 ^ k <= snd (engine_test_t (EFlatU8 m) []).
Proof.
  destruct (options_flat_u8 k) as (m & tbl & H1 & H2 & H3). exists m. split; [assumption|]. cbn [engine_test_t]. unfold flat_u8_test_t. rewrite H2. cbn [tmap snd].
  etransitivity; [exact H3|]. change (utf8 []) with (@nil N). apply first_row_low. intros ->. discriminate H2.
Qed.

(** ** The tables, for a given number of groups *)
Section Rows.
  Context {A : Type}.
  Variable n : nfa A.
  Variable tbl : list (list eprop).
  Hypothesis Hm : flat_make n = Ok tbl.
  Let g := num_capture_groups n.

  Lemma row_tags s p : In p (nth s tbl []) -> NoDup (ep_tags p) /\ incl (ep_tags p) (all_tags g).
  Proof using Hm.
    intros Hp. unfold flat_make in Hm. destruct (wfb n && (1 <=? List.length n)) eqn:E; [|discriminate Hm]. cbn [guard bind] in Hm. apply andb_prop in E as [E1 E2]. apply Nat.leb_le in E2.
    destruct (flat_table_spec n (proj1 (wfb_iff n) E1) E2) as (t & Et & _ & H1 & _). rewrite Et in Hm. cbn [bind] in Hm. destruct (forallb _ t) eqn:F; [|discriminate Hm]. injection Hm as ->.
    destruct (H1 s p Hp) as (_ & q & w & _ & ->). split; [apply tags_NoDup; constructor|]. intros x Hx. apply all_tags_In. rewrite forallb_forall in F.
    destruct (Nat.lt_ge_cases s (List.length tbl)) as [Hs|Hs]; [|rewrite nth_overflow in Hp by assumption; destruct Hp]. specialize (F _ (nth_In _ [] Hs)). unfold tags_in_range in F. rewrite forallb_forall in F. specialize (F _ Hp).
    rewrite forallb_forall in F. specialize (F x Hx). now apply Nat.ltb_lt.
  Qed.
  Lemma all_tags_length G : List.length (all_tags G) = 2 * G.
  Proof. unfold all_tags. rewrite app_length, !map_length, seq_length. lia. Qed.
  Lemma row_marks s p : In p (nth s tbl []) -> List.length (ep_tags p) <= 2 * g.
  Proof using Hm. intros Hp. destruct (row_tags s p Hp) as [H1 H2]. apply NoDup_incl_length in H2; [|assumption]. now rewrite all_tags_length in H2. Qed.
  Lemma row_NoDup s : NoDup (nth s tbl []).
  Proof using Hm.
    destruct (Nat.lt_ge_cases s (List.length tbl)) as [Hs|Hs]; [|rewrite nth_overflow by assumption; constructor]. assert (Hl := make_rows n tbl Hm). unfold flat_make in Hm. destruct (wfb n && (1 <=? List.length n)) eqn:E; [|discriminate Hm]. cbn [guard bind] in Hm.
    apply andb_prop in E as [E1 E2]. destruct (flat_table n) as [t| | |] eqn:Et; try discriminate Hm. cbn [bind] in Hm. destruct (forallb _ t); [|discriminate Hm]. injection Hm as ->.
    unfold flat_table in Et. apply mapM_nth with (k := s) (d := (0, true)) (d' := []) in Et; [|rewrite enumerate_length, flat_excluded_length; lia].
    destruct (nth s (enumerate (flat_excluded n)) (0, true)) as [q x] eqn:Q. cbn [fst snd] in Et. destruct x; [injection Et as <-; constructor|].
    destruct (eps_props n q) as [l| | |] eqn:El; try discriminate Et. cbn [bind] in Et. injection Et as <-. apply NoDup_filter.
    assert (Hq : q < List.length n).
    { rewrite nth_enumerate in Q by (rewrite flat_excluded_length; lia). injection Q as <- _. lia. }
    destruct (eps_props_spec n (proj1 (wfb_iff n) E1) q Hq) as (l' & El' & N & _). rewrite El in El'. injection El' as <-. exact N.
  Qed.
  Lemma row_few s : List.length (nth s tbl []) <= 4 * List.length n * arrangements (2 * g).
  Proof using Hm.
    set (all := map (fun p : nat * (list tag * (bool * bool)) => mkEp (fst p) (fst (snd p)) (fst (snd (snd p))) (snd (snd (snd p))))
                (list_prod (seq 0 (List.length n)) (list_prod (arrange (2 * g) (all_tags g)) (list_prod [true; false] [true; false])))).
    assert (I : incl (nth s tbl []) all).
    { intros p Hp. destruct (made n tbl Hm) as (_ & _ & Hb). specialize (Hb s p Hp). destruct (row_tags s p Hp) as [H1 H2]. destruct p as [q ts a b]. cbn [ep_state ep_tags] in *. unfold all. apply in_map_iff. exists (q, (ts, (a, b))). split; [reflexivity|].
      apply in_prod; [apply in_seq; lia|]. apply in_prod; [|apply in_prod; [destruct a|destruct b]; cbn; auto]. apply arrange_In; [rewrite all_tags_length; lia|assumption|assumption]. }
    apply NoDup_incl_length in I; [|apply row_NoDup]. unfold all in I. rewrite map_length, !prod_length, seq_length in I.
    assert (L := arrange_length (2 * g) (all_tags g)). rewrite all_tags_length in L. specialize (L ltac:(lia)). cbn [List.length] in I. nia.
  Qed.
  Lemma sum_rows (f : list eprop -> nat) k : (forall s, f (nth s tbl []) <= k) -> sum_of f tbl <= List.length n * k.
  Proof using Hm.
    intros H. rewrite <- (make_rows n tbl Hm). assert (X : sum_of f tbl <= sum_of (fun _ => k) tbl); [|rewrite sum_const in X; lia]. apply sum_le. intros row Hr. destruct (In_nth _ _ [] Hr) as (s & _ & <-). apply H.
  Qed.
  Lemma jumps_few : jumps tbl <= 4 * List.length n * List.length n * arrangements (2 * g).
  Proof using Hm. assert (X := sum_rows (fun row => List.length row) _ row_few). unfold jumps. nia. Qed.
  Lemma copying_few : copying g tbl <= 4 * List.length n * List.length n * arrangements (2 * g) * (2 + 3 * g).
  Proof using Hm.
    unfold copying. etransitivity; [apply (sum_rows _ (4 * List.length n * arrangements (2 * g) * (2 + 3 * g)))|nia]. intros s.
    etransitivity; [apply (sum_le _ (fun _ => 2 + 3 * g)); intros p Hp; assert (X := row_marks s p Hp); lia|]. rewrite sum_const. assert (X := row_few s). nia.
  Qed.
End Rows.

Lemma lockstep_bytes n tbl T : flat_make n = Ok tbl -> let g := num_capture_groups n in let price := fun _ : range => 1 in
  snd (engine_test_t (EFlatU8 n) T) <= (1 + List.length (utf8 T)) * (1 + 4 * List.length n + evaluation price n + jumps tbl) /\
  snd (engine_exec_t (EFlatU8 n) T) <= 1 + 3 * g + 2 * List.length n + copying g tbl + List.length (utf8 T) * (1 + 2 * List.length n + evaluation price n + arrows n * (1 + g + copying g tbl)).
Proof.
  intros Hm g price. cbn [engine_test_t engine_exec_t]. unfold flat_u8_test_t, flat_u8_exec_t. rewrite Hm. cbn [tmap snd]. split; [apply run_test_snd, make_rows, Hm|].
  etransitivity; [apply (finish_snd _ _ g); intros b Hb; rewrite run_exec_fst in Hb; exact (run_exec_groups _ _ n tbl _ b Hb)|].
  assert (X := run_exec_snd byte_check (fun _ => 1) price n tbl Hm (utf8 T)). change (num_capture_groups n) with g in X. fold price. clearbody g. lia.
Qed.
Lemma lockstep_chars n tbl T : flat_make n = Ok tbl -> let g := num_capture_groups n in
  snd (engine_test_t (EFlat n) T) <= (1 + List.length T) * (1 + 4 * List.length n + evaluation atom_price n + jumps tbl) /\
  snd (engine_exec_t (EFlat n) T) <= 1 + 3 * g + 2 * List.length n + copying g tbl + List.length T * (1 + 2 * List.length n + evaluation atom_price n + arrows n * (1 + g + copying g tbl)).
Proof.
  intros Hm g. cbn [engine_test_t engine_exec_t]. unfold flat_char_test_t, flat_char_exec_t. rewrite Hm. cbn [tmap snd]. split; [apply run_test_snd, make_rows, Hm|].
  etransitivity; [apply (finish_snd _ _ g); intros b Hb; rewrite run_exec_fst in Hb; exact (run_exec_groups _ _ n tbl _ b Hb)|].
  assert (X := run_exec_snd atom_check len_utf8 atom_price n tbl Hm T). change (num_capture_groups n) with g in X. clearbody g. lia.
Qed.
Lemma evaluation_bytes (n : nfa range) : evaluation (fun _ => 1) n = 2 * arrows n.
Proof. unfold evaluation, arrows. induction n as [|st n IH]; [reflexivity|]. rewrite !sum_cons, IH, sum_const. lia. Qed.
Lemma poly_bytes n tbl T : flat_make n = Ok tbl -> let g := num_capture_groups n in let S := List.length n in let A := 4 * S * S * arrangements (2 * g) in
  snd (engine_test_t (EFlatU8 n) T) <= (1 + List.length (utf8 T)) * (1 + 4 * S + 2 * arrows n + A) /\
  snd (engine_exec_t (EFlatU8 n) T) <= 1 + 3 * g + 2 * S + A * (2 + 3 * g) + List.length (utf8 T) * (1 + 2 * S + arrows n * (3 + g + A * (2 + 3 * g))).
Proof.
  intros Hm. cbn zeta. destruct (lockstep_bytes n tbl T Hm) as [H1 H2]. assert (J := jumps_few n tbl Hm). assert (P := copying_few n tbl Hm). cbn zeta in *.
  generalize dependent (num_capture_groups n). intros g. set (A := 4 * List.length n * List.length n * arrangements (2 * g)). clearbody A. rewrite evaluation_bytes in *. intros. split.
  - etransitivity; [exact H1|]. apply Nat.mul_le_mono_l. lia.
  - etransitivity; [exact H2|]. apply Nat.add_le_mono; [lia|]. apply Nat.mul_le_mono_l. assert (M := Nat.mul_le_mono_l _ _ (arrows n) P). lia.
Qed.
Lemma poly_chars n tbl T : flat_make n = Ok tbl -> let g := num_capture_groups n in let S := List.length n in let A := 4 * S * S * arrangements (2 * g) in
  snd (engine_test_t (EFlat n) T) <= (1 + List.length T) * (1 + 4 * S + evaluation atom_price n + A) /\
  snd (engine_exec_t (EFlat n) T) <= 1 + 3 * g + 2 * S + A * (2 + 3 * g) + List.length T * (1 + 2 * S + evaluation atom_price n + arrows n * (1 + g + A * (2 + 3 * g))).
Proof.
  intros Hm. cbn zeta. destruct (lockstep_chars n tbl T Hm) as [H1 H2]. assert (J := jumps_few n tbl Hm). assert (P := copying_few n tbl Hm). cbn zeta in *.
  generalize dependent (num_capture_groups n). intros g. set (A := 4 * List.length n * List.length n * arrangements (2 * g)). clearbody A. intros. split.
  - etransitivity; [exact H1|]. apply Nat.mul_le_mono_l. lia.
  - etransitivity; [exact H2|]. apply Nat.add_le_mono; [lia|]. apply Nat.mul_le_mono_l. assert (M := Nat.mul_le_mono_l _ _ (arrows n) P). lia.
Qed.
