(** How many steps the table-driven engines take. *)
From Verif Require Export PCostBound.
From Coq Require Import ZifyBool ZifyNat ZifyN.
Open Scope nat_scope.
Open Scope list_scope.

Lemma tfind_In {X} (p : X -> bool) l x : fst (tfind p l) = Some x -> In x l.
Proof. rewrite tfind_fst. intros H. now apply find_some in H. Qed.
Lemma tag_same i b t : length (apply_tag i b t) = length b.
Proof. exact (tags_same i [t] b). Qed.
Lemma tu_same i tu b : length (apply_tu i tu b) = length b.
Proof. apply tags_same. Qed.

(** The one-pass engine. *)
Section Tables.
  Variable tab : op_tables.
  Let arms := sum_of (fun row : list strans => length row) (op_syms tab).
  Let marks := sum_of (fun row : list strans => sum_of (fun x => length (tu_tags (snd x))) row) (op_syms tab).
  Let ends := sum_of (fun row : list tupd => length row) (op_accs tab).
  Let last_marks := sum_of (fun row : list tupd => sum_of (fun tu => length (tu_tags tu)) row) (op_accs tab).

  Lemma arms_le s : length (nth s (op_syms tab) []) <= arms.
  Proof. apply (sum_nth (fun row : list strans => length row)). reflexivity. Qed.
  Lemma ends_le s : length (nth s (op_accs tab) []) <= ends.
  Proof. apply (sum_nth (fun row : list tupd => length row)). reflexivity. Qed.
  Lemma marks_le s x : In x (nth s (op_syms tab) []) -> length (tu_tags (snd x)) <= marks.
  Proof.
    intros H. etransitivity; [apply (sum_In (fun x : strans => length (tu_tags (snd x))) x _ H)|]. apply (sum_nth (fun row : list strans => sum_of (fun x => length (tu_tags (snd x))) row)). reflexivity.
  Qed.
  Lemma last_le s tu : In tu (nth s (op_accs tab) []) -> length (tu_tags tu) <= last_marks.
  Proof.
    intros H. etransitivity; [apply (sum_In (fun tu => length (tu_tags tu)) tu _ H)|]. apply (sum_nth (fun row : list tupd => sum_of (fun tu => length (tu_tags tu)) row)). reflexivity.
  Qed.
  Lemma vm_arm_snd s i c : snd (vm_arm_t tab s i c) <= arms.
  Proof. unfold vm_arm_t, tmap. cbn [snd]. etransitivity; [apply tfind_snd|apply arms_le]. Qed.
  Lemma vm_arm_marks s i c tu : fst (vm_arm_t tab s i c) = Some tu -> length (tu_tags tu) <= marks.
  Proof.
    unfold vm_arm_t, tmap. cbn [fst]. intros H. destruct (fst (tfind _ _)) as [x|] eqn:E; [|discriminate H]. apply tfind_In in E. cbn in H. injection H as <-. exact (marks_le s x E).
  Qed.
  Lemma fun_arm_snd s st c : snd (fun_arm_t tab s st c) <= arms.
  Proof. unfold fun_arm_t, tmap. cbn [snd]. etransitivity; [apply tfind_snd|apply arms_le]. Qed.
  Lemma fun_arm_marks s st c tu : fst (fun_arm_t tab s st c) = Some tu -> length (tu_tags tu) <= marks.
  Proof.
    unfold fun_arm_t, tmap. cbn [fst]. intros H. destruct (fst (tfind _ _)) as [x|] eqn:E; [|discriminate H]. apply tfind_In in E. cbn in H. injection H as <-. exact (marks_le s x E).
  Qed.
  Lemma vm_test_snd bytes : forall s i, snd (vm_test_loop_t tab s i bytes) <= (1 + ends) + length bytes * (1 + arms).
  Proof.
    induction bytes as [|c r IH]; intros s i; cbn [vm_test_loop_t]; [cbn [snd length]; assert (X := ends_le s); lia|]. unfold spend, tbind. cbn [snd]. assert (X := vm_arm_snd s i c).
    destruct (fst (vm_arm_t tab s i c)) as [tu|]; cbn [snd length]; [specialize (IH (tu_state tu) (S i))|]; cbn [Nat.mul]; lia.
  Qed.
  Lemma vm_exec_snd bytes : forall s i b, snd (vm_exec_loop_t tab s i b bytes) <= (1 + ends + last_marks) + length bytes * (1 + arms + marks).
  Proof.
    induction bytes as [|c r IH]; intros s i b; cbn [vm_exec_loop_t]; unfold spend, tbind; cbn [snd].
    - assert (X := ends_le s). assert (Y : forall tu, In tu (nth s (op_accs tab) []) -> length (tu_tags tu) <= last_marks) by apply last_le.
      destruct (nth s (op_accs tab) []) as [|tu l]; cbn [snd length tmap apply_tu_t] in *; [lia|]. specialize (Y tu (or_introl eq_refl)). lia.
    - assert (X := vm_arm_snd s i c). assert (Y := vm_arm_marks s i c).
      destruct (fst (vm_arm_t tab s i c)) as [tu|]; cbn [snd fst length apply_tu_t]; [specialize (IH (tu_state tu) (S i) (apply_tu i tu b)); specialize (Y tu eq_refl)|]; cbn [Nat.mul]; lia.
  Qed.
  Lemma vm_exec_groups bytes : forall s i b b', vm_exec_loop tab s i b bytes = Some b' -> length b' = length b.
  Proof.
    induction bytes as [|c r IH]; intros s i b b'; cbn [vm_exec_loop].
    - destruct (nth s (op_accs tab) []); intros H; [discriminate H|]. injection H as <-. apply tu_same.
    - destruct (vm_arm tab s i c); intros H; [|discriminate H]. rewrite (IH _ _ _ _ H). apply tu_same.
  Qed.

  Variable runs : list inclusion.
  Let run_size (r : inclusion) : nat := match r with RStart r => length (run_symbols r) + length (run_tags r) | _ => 0 end.
  Let longest := sum_of run_size runs.
  Lemma longest_le s r : nth s runs RNone = RStart r -> length (run_symbols r) + length (run_tags r) <= longest.
  Proof.
    intros H. destruct (Nat.lt_ge_cases s (length runs)) as [Hs|Hs]; [|rewrite nth_overflow in H by assumption; discriminate H]. assert (X := sum_In run_size (nth s runs RNone) runs (nth_In _ _ Hs)). rewrite H in X. exact X.
  Qed.
  Lemma match_run_snd rs : forall bytes, snd (match_run_t rs bytes) <= length rs.
  Proof. induction rs as [|r rs IH]; intros [|c bytes]; cbn; try lia. destruct (in_range c r); cbn; [specialize (IH bytes)|]; lia. Qed.
  Lemma end_exec_snd s st i b accs : snd (fun_end_exec_t s st i b accs) <= 2 + sum_of (fun tu => length (tu_tags tu)) accs.
  Proof.
    unfold fun_end_exec_t, spend. cbn [snd]. destruct accs as [|tu accs]; [cbn; lia|]. rewrite sum_cons. destruct (tu_start tu), (s =? 0), st; cbn [snd tmap apply_tu_t]; lia.
  Qed.
  Lemma fun_test_snd fuel : forall s st bytes, snd (fun_test_t fuel tab runs s st bytes) <= fuel * (3 + ends + arms + longest).
  Proof.
    induction fuel as [|f IH]; intros s st bytes; cbn [fun_test_t]; [cbn; lia|]. unfold spend, tbind. cbn [snd].
    assert (G : snd (match bytes with [] => tmap Ok (fun_end_test_t s st (nth s (op_accs tab) []))
              | c :: rest => (fst (match fst (fun_arm_t tab s st c) with Some tu => fun_test_t f tab runs (tu_state tu) false rest | None => (Ok false, 0) end),
                              snd (fun_arm_t tab s st c) + snd (match fst (fun_arm_t tab s st c) with Some tu => fun_test_t f tab runs (tu_state tu) false rest | None => (Ok false, 0) end)) end)
            <= 2 + ends + arms + longest + f * (3 + ends + arms + longest)).
    { destruct bytes as [|c rest]; cbn [snd tmap fun_end_test_t]; [assert (X := ends_le s); lia|]. assert (X := fun_arm_snd s st c).
      destruct (fst (fun_arm_t tab s st c)) as [tu|]; cbn [snd]; [specialize (IH (tu_state tu) false rest)|]; lia. }
    destruct (nth s runs RNone) as [r| | |] eqn:E; cbn [snd Nat.mul]; try (etransitivity; [apply le_n_S, G|clear; lia]).
    assert (X := longest_le s r E). assert (Y := match_run_snd (run_symbols r) bytes).
    destruct (fst (match_run_t (run_symbols r) bytes)) as [rest|]; cbn [snd]; [specialize (IH (run_end r) false rest)|]; clear G; lia.
  Qed.
  Lemma fun_exec_snd fuel : forall s st i b bytes, snd (fun_exec_t fuel tab runs s st i b bytes) <= fuel * (3 + last_marks + arms + marks + longest).
  Proof.
    induction fuel as [|f IH]; intros s st i b bytes; cbn [fun_exec_t]; [cbn; lia|]. unfold spend, tbind. cbn [snd fst].
    assert (G : snd (match bytes with [] => tmap Ok (fun_end_exec_t s st i b (nth s (op_accs tab) []))
              | c :: rest => let r := match fst (fun_arm_t tab s st c) with
                  | Some tu => (fst (fun_exec_t f tab runs (tu_state tu) false (S i) (fst (apply_tu_t i tu b)) rest),
                                snd (apply_tu_t i tu b) + snd (fun_exec_t f tab runs (tu_state tu) false (S i) (fst (apply_tu_t i tu b)) rest))
                  | None => (Ok None, 0) end in (fst r, snd (fun_arm_t tab s st c) + snd r) end)
            <= 2 + last_marks + arms + marks + longest + f * (3 + last_marks + arms + marks + longest)).
    { destruct bytes as [|c rest]; cbn [snd tmap].
      - assert (X := end_exec_snd s st i b (nth s (op_accs tab) [])).
        assert (Y : sum_of (fun tu => length (tu_tags tu)) (nth s (op_accs tab) []) <= last_marks) by (apply (sum_nth (fun row : list tupd => sum_of (fun tu => length (tu_tags tu)) row)); reflexivity). clear IH. lia.
      - assert (X := fun_arm_snd s st c). assert (Y := fun_arm_marks s st c).
        destruct (fst (fun_arm_t tab s st c)) as [tu|]; cbn [snd fst apply_tu_t]; [specialize (IH (tu_state tu) false (S i) (apply_tu i tu b) rest); specialize (Y tu eq_refl)|]; lia. }
    destruct (nth s runs RNone) as [r| | |] eqn:E; cbn [snd Nat.mul]; try (etransitivity; [apply le_n_S, G|clear; lia]).
    assert (X := longest_le s r E). assert (Y := match_run_snd (run_symbols r) bytes).
    destruct (fst (match_run_t (run_symbols r) bytes)) as [rest|]; cbn [snd fst]; [|clear G IH; lia].
    match goal with |- context [fun_exec_t f tab runs ?a ?b ?c ?d ?e] => specialize (IH a b c d e) end. clear G. lia.
  Qed.
  Lemma fun_exec_groups fuel : forall s st i b bytes b', fun_exec fuel tab runs s st i b bytes = Ok (Some b') -> length b' = length b.
  Proof.
    induction fuel as [|f IH]; intros s st i b bytes b'; cbn [fun_exec]; [intros H; discriminate H|].
    assert (G : match bytes with [] => Ok (fun_end_exec s st i b (nth s (op_accs tab) []))
             | c :: rest => match fun_arm tab s st c with
                            | Some tu => fun_exec f tab runs (tu_state tu) false (S i) (apply_tu i tu b) rest
                            | None => Ok None end end = Ok (Some b') -> length b' = length b).
    { destruct bytes as [|c rest].
      - unfold fun_end_exec. destruct (nth s (op_accs tab) []) as [|tu l]; [intros H; discriminate H|]. destruct (tu_start tu), (s =? 0), st; intros H; try discriminate H; injection H as <-; apply tu_same.
      - destruct (fun_arm tab s st c); intros H; [|discriminate H]. rewrite (IH _ _ _ _ _ _ H). apply tu_same. }
    destruct (nth s runs RNone) as [r| | |]; try exact G. destruct (match_run (run_symbols r) bytes) as [rest|]; intros H; [|discriminate H]. rewrite (IH _ _ _ _ _ _ H).
    clear. generalize (run_tags r) as l. intros l. revert b. induction l as [|t l IH]; intros b; cbn [fold_left]; [reflexivity|]. rewrite IH. apply tag_same.
  Qed.
End Tables.

Lemma op_test_linear e : linear (fun T => snd (op_test_t e T)).
Proof.
  unfold op_test_t. destruct (op_k e) as [|runs]; cbn [tmap snd].
  - eapply linear_le; [intros T; apply vm_test_snd|apply linear_bytes].
  - eapply linear_le; [intros T; apply fun_test_snd|]. match goal with |- linear (fun T => _ * ?k) => exists k end. intros T. nia.
Qed.
Lemma finish_pair T b g : (forall b', b = Some b' -> length b' = g) -> snd (run_finish_t T (b, 0)) <= 2 * g.
Proof. intros H. exact (finish_snd T (b, 0) g H). Qed.
Lemma op_exec_linear e : linear (fun T => snd (op_exec_t e T)).
Proof.
  unfold op_exec_t, spend, tbind. cbn [snd]. destruct (op_k e) as [|runs]; cbn [tmap snd fst].
  - eapply linear_le; [intros T; apply Nat.add_le_mono_l; apply Nat.add_le_mono; [apply vm_exec_snd|apply (finish_pair T _ (op_groups e)); intros b' Hb]|].
    + rewrite vm_exec_fst in Hb. rewrite (vm_exec_groups _ _ _ _ _ _ Hb). apply repeat_length.
    + apply linear_plus; [apply linear_const|]. apply linear_plus; [apply linear_bytes|apply linear_const].
  - apply linear_plus; [apply linear_const|]. apply linear_plus.
    + eapply linear_le; [intros T; apply fun_exec_snd|]. match goal with |- linear (fun T => _ * ?k) => exists k end. intros T. nia.
    + apply (linear_le _ (fun _ => 2 * op_groups e)); [|apply linear_const]. intros T. rewrite fun_exec_fst. destruct (fun_exec _ _ _ _ _ _ _ _) as [b| | |] eqn:E; try apply Nat.le_0_l.
      apply finish_pair. intros b' ->. rewrite (fun_exec_groups _ _ _ _ _ _ _ _ _ E). apply repeat_length.
Qed.

(** The DFA engines. *)
Lemma dfa_loop_snd d bytes : forall s, snd (dfa_test_loop_t d s bytes) <= 1 + length bytes * (1 + length (ds_trans (d_start d)) + sum_of (fun st => length (ds_trans st)) (d_states d)).
Proof.
  assert (G : forall s, length (ds_trans (d_get d s)) <= length (ds_trans (d_start d)) + sum_of (fun st => length (ds_trans st)) (d_states d)).
  { intros [i|]; cbn [d_get]; [|lia]. destruct (Nat.lt_ge_cases i (length (d_states d))) as [Hi|Hi]; [|rewrite nth_overflow by assumption; cbn; lia].
    assert (X := sum_In (fun st => length (ds_trans st)) _ _ (nth_In _ (mkDS DNone []) Hi)). cbn beta in X. lia. }
  induction bytes as [|c r IH]; intros s; cbn [dfa_test_loop_t]; [cbn; lia|]. unfold spend, tbind. cbn [snd]. specialize (G s).
  assert (X := tfind_snd (fun t : nat * range => in_range c (snd t)) (ds_trans (d_get d s))).
  destruct (ds_acc (d_get d s)); cbn [snd length Nat.mul]; try lia; destruct (fst (tfind _ _)) as [t|]; cbn [snd]; try (specialize (IH (Some (fst t)))); lia.
Qed.
Lemma dfa_test_linear d : linear (fun T => snd (dfa_test_t d T)).
Proof.
  unfold dfa_test_t. destruct (dfa_from_tagged d) as [m| | |]; try apply linear_const. cbn [tmap snd]. unfold dfa_run_test_t. destruct (ds_acc (d_start m)); try apply linear_const;
    (eapply linear_le; [intros T; apply dfa_loop_snd|apply linear_bytes]).
Qed.
Section Tagged.
  Variable d : tdfa.
  Variable g : nat.
  Let weight (t : ttrans) : nat := 1 + (length (tt_copy t) * (1 + g) + length (tt_add t)).
  Let heavy (st : tstate) : nat := sum_of weight (ts_trans st).
  Let final (st : tstate) : nat := match ts_acc st with ANone => 0 | AAnch a | ABoth a _ | AUnan a => length (at_tags a) end.
  Let all (f : tstate -> nat) : nat := f (td_start d) + sum_of f (td_states d).
  Lemma all_le f s : f (stub []) = 0 -> f (td_get d s) <= all f.
  Proof.
    intros H0. unfold all. destruct s as [i|]; cbn [td_get]; [|lia]. destruct (Nat.lt_ge_cases i (length (td_states d))) as [Hi|Hi]; [|rewrite nth_overflow by assumption; lia].
    assert (X := sum_In f _ _ (nth_In _ (stub []) Hi)). lia.
  Qed.
  Lemma tdfa_loop_snd bytes : forall s i tags, snd (tdfa_exec_loop_t d g s i tags bytes) <= (1 + all final) + length bytes * (1 + 2 * all heavy).
  Proof.
    induction bytes as [|c r IH]; intros s i tags; cbn [tdfa_exec_loop_t]; unfold spend, tbind; cbn [snd].
    - assert (X := all_le final s eq_refl). unfold final in X at 1. destruct (ts_acc (td_get d s)); cbn [snd tmap acc_apply_t length] in *; lia.
    - assert (H := all_le heavy s eq_refl). unfold heavy in H at 1. assert (F := tfind_snd (fun t => in_range c (tt_sym t)) (ts_trans (td_get d s))).
      assert (L : length (ts_trans (td_get d s)) <= sum_of weight (ts_trans (td_get d s))).
      { etransitivity; [|apply (sum_le (fun _ => 1)); intros; unfold weight; lia]. rewrite sum_const. lia. }
      destruct (fst (tfind _ _)) as [t|] eqn:E; cbn [snd fst length tt_apply_t Nat.mul]; [|clear IH; lia]. apply tfind_In in E. apply (sum_In weight) in E. unfold weight in E at 1.
      specialize (IH (Some (tt_to t)) (S i) (tt_apply i g t tags)). lia.
  Qed.
  Let sized (l : list bounds) : Prop := Forall (fun b : bounds => length b = g) l.
  Lemma nth_sized l k : sized l -> length (nth k l (no_bounds g)) = g.
  Proof.
    intros Hl. destruct (Nat.lt_ge_cases k (length l)) as [Hk|Hk]; [|rewrite nth_overflow by assumption; apply repeat_length]. unfold sized in Hl. rewrite Forall_forall in Hl. apply Hl, nth_In, Hk.
  Qed.
  Lemma apply_sized i t l : sized l -> sized (tt_apply i g t l).
  Proof.
    intros Hl. unfold tt_apply. assert (Hc : sized (map (fun k => nth k l (no_bounds g)) (tt_copy t))) by (apply Forall_forall; intros x Hx; apply in_map_iff in Hx as (k & <- & _); now apply nth_sized).
    revert Hc. generalize (map (fun k => nth k l (no_bounds g)) (tt_copy t)) as bs. generalize (tt_add t) as xs. induction xs as [|x xs IH]; intros bs Hb; cbn [fold_left]; [assumption|]. apply IH.
    clear IH. generalize (fst x) as k. intros k. revert k. induction Hb as [|b bs Hb Hbs IH]; intros [|k]; cbn; constructor; try assumption; [|apply IH]. rewrite tag_same. assumption.
  Qed.
  Lemma tdfa_groups_same bytes : forall s i tags b, sized tags -> tdfa_exec_loop d g s i tags bytes = Some b -> length b = g.
  Proof.
    induction bytes as [|c r IH]; intros s i tags b Ht; cbn [tdfa_exec_loop].
    - unfold acc_apply. destruct (ts_acc (td_get d s)); intros H; try discriminate H; injection H as <-; rewrite tags_same; now apply nth_sized.
    - destruct (find _ _) as [t|]; intros H; [|discriminate H]. eapply IH; [|exact H]. now apply apply_sized.
  Qed.
End Tagged.
Lemma dfa_exec_linear d : linear (fun T => snd (dfa_exec_t d T)).
Proof.
  unfold dfa_exec_t. destruct (dfa_from_tagged d) as [m| | |]; try apply linear_const. unfold tdfa_run_exec_t, spend. eapply linear_le.
  - intros T. etransitivity; [apply (finish_snd _ _ (tdfa_groups d)); cbn [fst]; intros b Hb; rewrite tdfa_loop_fst in Hb; eapply tdfa_groups_same; [|exact Hb]; constructor; [apply repeat_length|constructor]|].
    cbn [snd]. apply Nat.add_le_mono_r. apply Nat.add_le_mono_l. apply tdfa_loop_snd.
  - apply linear_plus; [|apply linear_const]. apply linear_plus; [apply linear_const|apply linear_bytes].
Qed.

Lemma engine_test_linear en : linear (fun T => snd (engine_test_t en T)).
Proof. induction en; cbn [engine_test_t]; auto using op_test_linear, dfa_test_linear, u8_test_linear, char_test_linear. Qed.
Lemma engine_exec_linear en : linear (fun T => snd (engine_exec_t en T)).
Proof.
  destruct en as [e|d|n|n|en offs]; cbn [engine_exec_t]; auto using op_exec_linear, dfa_exec_linear, u8_exec_linear, char_exec_linear. unfold tbind. cbn [snd].
  apply linear_plus; [apply engine_test_linear|]. apply (linear_le _ (fun _ => length offs)); [|apply linear_const]. intros T. destruct (fst (engine_test_t en T)); cbn [snd]; lia.
Qed.
