(** Proofs about the size of the generated code (C88). *)
From Verif Require Export SpecCode.
From Verif Require PFlat.
From Coq Require Import Lia.
Open Scope nat_scope.
Open Scope list_scope.

(** ** Sums *)
Lemma lsum_app l m : list_sum (l ++ m) = list_sum l + list_sum m.
Proof. apply list_sum_app. Qed.
Lemma lsum_cons x l : list_sum (x :: l) = x + list_sum l.
Proof. reflexivity. Qed.
Lemma lsum_le {X} (f g : X -> nat) c l : (forall x, f x <= c * g x) -> list_sum (map f l) <= c * list_sum (map g l).
Proof. intros H. induction l as [|x l IH]; cbn [map]; rewrite ?lsum_cons; [cbn; lia|]. specialize (H x). lia. Qed.
Lemma lsum_flat {X Y} (f : Y -> nat) (g : X -> list Y) l : list_sum (map f (flat_map g l)) = list_sum (map (fun x => list_sum (map f (g x))) l).
Proof. induction l as [|x l IH]; [reflexivity|]. cbn [flat_map map]. rewrite map_app, lsum_app, lsum_cons. lia. Qed.
Lemma lsum_map {X Y} (f : Y -> nat) (g : X -> Y) l : list_sum (map f (map g l)) = list_sum (map (fun x => f (g x)) l).
Proof. now rewrite map_map. Qed.
Lemma lsum_filter {X} (f : X -> nat) p l : list_sum (map f (filter p l)) <= list_sum (map f l).
Proof. induction l as [|x l IH]; cbn [filter map]; [lia|]. destruct (p x); cbn [map]; rewrite ?lsum_cons; lia. Qed.
Lemma lsum_one {X} (l : list X) : list_sum (map (fun _ => 1) l) = length l.
Proof. induction l as [|x l IH]; cbn [map length]; rewrite ?lsum_cons; [reflexivity|]. lia. Qed.
Lemma enum_snd {X} (l : list X) : map snd (enumerate l) = l.
Proof.
  assert (G : forall k, map snd (combine (seq k (length l)) l) = l) by (induction l as [|x l IH]; intros k; cbn [length seq combine map snd]; [reflexivity|]; now rewrite IH).
  exact (G 0).
Qed.
Lemma enum_le {X} (f : nat * X -> nat) (g : X -> nat) c l : (forall i x, f (i, x) <= c * g x) -> list_sum (map f (enumerate l)) <= c * list_sum (map g l).
Proof. intros H. etransitivity; [apply (lsum_le _ (fun p => g (snd p)) c); intros [i x]; apply H|]. rewrite <- lsum_map, enum_snd. reflexivity. Qed.
Lemma kept_le {X} ex (f : nat * X -> nat) (g : X -> nat) c l : (forall i x, f (i, x) <= c * g x) -> list_sum (map f (kept ex l)) <= c * list_sum (map g l).
Proof. intros H. unfold kept. etransitivity; [apply lsum_filter|]. now apply enum_le. Qed.
Lemma kept_len {X} ex (l : list X) : length (kept ex l) <= length l.
Proof. rewrite <- (lsum_one (kept ex l)), <- (lsum_one l). etransitivity; [apply (kept_le ex _ (fun _ => 1) 1); intros; lia|]. lia. Qed.
Lemma numbered_le {X} (f : label * X -> nat) (g : X -> nat) c l x : (forall i x, f (i, x) <= c * g x) -> list_sum (map f (numbered l x)) <= c * list_sum (map g (x :: l)).
Proof.
  intros H. unfold numbered. rewrite map_app, lsum_app, lsum_map. cbn [map]. rewrite !lsum_cons. change (list_sum []) with 0.
  assert (E := enum_le (fun p => f (LNum (fst p), snd p)) g c l ltac:(intros; apply H)). specialize (H LStart x). lia.
Qed.
Lemma groups_sum up l : stmts (groups_code up l) = 8 + list_sum (map (fun p => ssize (up p)) l).
Proof.
  unfold groups_code, stmts. rewrite map_app, lsum_app. cbn [map ssize esize]. rewrite !lsum_cons. change (list_sum []) with 0. rewrite !lsum_map.
  assert (G : list_sum (map (fun p => ssize (up p)) (filter (fun p => ep_start p && ep_end p) l)) + list_sum (map (fun p => ssize (up p)) (filter (fun p => ep_start p && negb (ep_end p)) l))
    + list_sum (map (fun p => ssize (up p)) (filter (fun p => negb (ep_start p) && ep_end p) l)) + list_sum (map (fun p => ssize (up p)) (filter (fun p => negb (ep_start p) && negb (ep_end p)) l))
    = list_sum (map (fun p => ssize (up p)) l)).
  { induction l as [|p l IH]; [reflexivity|]. cbn [filter map]. rewrite lsum_cons. destruct (ep_start p), (ep_end p); cbn [andb negb filter map]; rewrite ?lsum_cons; lia. }
  lia.
Qed.
Lemma tag_size x p e t : ssize (set_tag x p e t) = 4 + list_sum (map asize p) + esize e.
Proof. destruct t; cbn [set_tag ssize]; rewrite map_app, lsum_app; cbn [map asize esize]; rewrite !lsum_cons; change (list_sum []) with 0; lia. Qed.
Lemma tags_size x p e l : list_sum (map ssize (map (set_tag x p e) l)) = length l * (4 + list_sum (map asize p) + esize e).
Proof. rewrite lsum_map. induction l as [|t l IH]; [reflexivity|]. cbn [map length]. rewrite lsum_cons, tag_size. lia. Qed.
Lemma finish_size out g a : stmts (finish_code out g a) = 33 + esize a.
Proof. unfold stmts, finish_code. cbn. lia. Qed.

(** ** The templates *)
Ltac sums := repeat (rewrite ?map_app, ?lsum_app, ?lsum_flat, ?lsum_map, ?lsum_cons; cbn [map ssize esize osize asize isize fsize app fst snd]); change (list_sum []) with 0.
Lemma vm_arms_size up ex c p : (forall tu, stmts (up tu) <= c * S (length (tu_tags tu))) ->
  list_sum (map (fun x : arm => S (osize (snd (fst x)) + list_sum (map ssize (snd x)))) (vm_arms up ex p)) <= (c + 7) * list_sum (map (fun x : strans => S (length (tu_tags (snd x)))) (snd p)).
Proof.
  intros H. unfold vm_arms. rewrite lsum_flat. apply lsum_le. intros [r tu]. destruct (nth (tu_state tu) ex true); [cbn; lia|]. destruct (tu_end tu); [cbn; lia|]. specialize (H tu). unfold stmts in H. sums.
  assert (osize (vm_guard tu) <= 3) by (unfold vm_guard; destruct (tu_start tu); cbn; lia). lia.
Qed.
Lemma vm_final_size body c p : (forall tu, stmts (body tu) <= c * S (length (tu_tags tu))) ->
  list_sum (map (fun x : arm => S (osize (snd (fst x)) + list_sum (map ssize (snd x)))) (vm_final body p)) <= (c + 4) * list_sum (map (fun tu => S (length (tu_tags tu))) (snd p)).
Proof.
  intros H. unfold vm_final. rewrite lsum_map. apply lsum_le. intros tu. cbn [fst snd]. specialize (H tu). unfold stmts in H.
  assert (osize (vm_guard tu) <= 3) by (unfold vm_guard; destruct (tu_start tu); cbn; lia). lia.
Qed.
Lemma vm_size n tab : func_size (vm_test_code n tab) + func_size (vm_exec_code n tab) <= 100 + 30 * op_entries tab.
Proof.
  unfold op_entries. set (ex := op_excluded n).
  assert (E : length (vm_enum ex (op_syms tab)) <= length (op_syms tab)) by (unfold vm_enum; rewrite map_length; apply kept_len).
  assert (T1 : list_sum (map (fun p => list_sum (map (fun x : arm => S (osize (snd (fst x)) + list_sum (map ssize (snd x)))) (vm_arms (fun _ => []) ex p))) (kept ex (op_syms tab))) <= 7 * list_sum (map sym_weight (op_syms tab))).
  { apply kept_le. intros i x. apply (vm_arms_size (fun _ => []) ex 0 (i, x)). intros; cbn; lia. }
  assert (T2 : list_sum (map (fun p => list_sum (map (fun x : arm => S (osize (snd (fst x)) + list_sum (map ssize (snd x)))) (vm_final (fun _ => [SRet (EBool true)]) p))) (kept ex (op_accs tab))) <= 6 * list_sum (map acc_weight (op_accs tab))).
  { apply kept_le. intros i x. apply (vm_final_size (fun _ => [SRet (EBool true)]) 2 (i, x)). intros; cbn; lia. }
  assert (T3 : list_sum (map (fun p => list_sum (map (fun x : arm => S (osize (snd (fst x)) + list_sum (map ssize (snd x)))) (vm_arms (fun tu => map (set_tag Xcaptures [] (EVar Xi)) (tu_tags tu)) ex p))) (kept ex (op_syms tab))) <= 12 * list_sum (map sym_weight (op_syms tab))).
  { apply kept_le. intros i x. apply (vm_arms_size _ ex 5 (i, x)). intros tu. unfold stmts. rewrite tags_size. cbn. lia. }
  assert (T4 : list_sum (map (fun p => list_sum (map (fun x : arm => S (osize (snd (fst x)) + list_sum (map ssize (snd x)))) (vm_final (fun tu => map (set_tag Xcaptures [] ELen) (tu_tags tu)) p))) (kept ex (op_accs tab))) <= 9 * list_sum (map acc_weight (op_accs tab))).
  { apply kept_le. intros i x. apply (vm_final_size _ 5 (i, x)). intros tu. unfold stmts. rewrite tags_size. cbn. lia. }
  unfold func_size, vm_test_code, vm_exec_code. cbn [f_enum f_procs f_body]. fold ex. unfold stmts. rewrite map_app, lsum_app. fold (stmts (finish_code Xcapture_strs (num_capture_groups n) (EVar Xcaptures))). rewrite finish_size. unfold e_bounds. sums.
  unfold arm in *. lia.
Qed.

(** The functional one-pass engine *)
Lemma nth_sum {X} (f : list X -> nat) (l : list (list X)) k : f [] = 0 -> list_sum (map (fun i => f (nth i l [])) (seq 0 k)) <= list_sum (map f l).
Proof.
  intros H0. revert k. induction l as [|x l IH]; intros k.
  - assert (E : list_sum (map (fun i => f (nth i [] [])) (seq 0 k)) = 0); [|lia]. generalize 0 at 1. induction k as [|k IH]; intros a; [reflexivity|]. cbn [seq map]. rewrite lsum_cons, IH. destruct a; cbn; lia.
  - destruct k as [|k]; [cbn; lia|]. cbn [seq map]. rewrite !lsum_cons. cbn [nth]. rewrite <- seq_shift, lsum_map. cbn [nth]. specialize (IH k). lia.
Qed.
Lemma enum_fst {X} (l : list X) : map fst (enumerate l) = seq 0 (length l).
Proof.
  assert (G : forall k, map fst (combine (seq k (length l)) l) = seq k (length l)) by (induction l as [|x l IH]; intros k; cbn [length seq combine map fst]; [reflexivity|]; now rewrite IH).
  exact (G 0).
Qed.
Lemma kept_nth {X Y} (f : list X -> nat) (l : list (list X)) ex (m : list Y) : f [] = 0 -> list_sum (map (fun p : nat * Y => f (nth (fst p) l [])) (kept ex m)) <= list_sum (map f l).
Proof. intros H0. unfold kept. etransitivity; [apply lsum_filter|]. rewrite <- (lsum_map (fun i => f (nth i l [])) fst), enum_fst. now apply nth_sum. Qed.
Lemma lsum_add {X} (f g : X -> nat) l : list_sum (map (fun x => f x + g x) l) = list_sum (map f l) + list_sum (map g l).
Proof. induction l as [|x l IH]; [reflexivity|]. cbn [map]. rewrite !lsum_cons. lia. Qed.
Lemma lsum_mul {X} (f : X -> nat) c l : list_sum (map (fun x => c * f x) l) = c * list_sum (map f l).
Proof. induction l as [|x l IH]; [cbn; lia|]. cbn [map]. rewrite !lsum_cons. lia. Qed.
Lemma lsum_mono {X} (f g : X -> nat) l : (forall x, f x <= g x) -> list_sum (map f l) <= list_sum (map g l).
Proof. intros H. induction l as [|x l IH]; [reflexivity|]. cbn [map]. rewrite !lsum_cons. specialize (H x). lia. Qed.
Lemma conditions_size rs : fstmts (run_result rs) <= 2 + 14 * length rs.
Proof.
  unfold run_result. assert (L : list_sum (map (fun c => S (esize c)) (run_conditions rs)) <= 14 * length rs).
  { rewrite <- (lsum_one rs). unfold run_conditions. rewrite lsum_flat. apply enum_le. intros i x. cbn. lia. }
  destruct (run_conditions rs) as [|c r]; [cbn; lia|]. cbn [map] in L. rewrite lsum_cons in L. unfold fstmts. cbn [map fsize ssize]. rewrite lsum_cons. change (list_sum []) with 0.
  assert (G : forall r c, esize (fold_left EBoth r c) = esize c + list_sum (map (fun c => S (esize c)) r)).
  { clear. induction r as [|x r IH]; intros c; cbn [fold_left map]; [cbn; lia|]. rewrite IH, lsum_cons. cbn [esize]. lia. }
  rewrite G. lia.
Qed.
Lemma run_test_size s r : S (fstmts (sf_body (test_run_code s r))) <= 14 * run_entries (RStart r) + 10.
Proof.
  unfold test_run_code. cbn [sf_body]. unfold fstmts. rewrite !map_app, !lsum_app. assert (C := conditions_size (run_symbols r)). unfold fstmts in C. unfold run_entries.
  cbn [map fsize ssize esize]. rewrite !lsum_cons. change (list_sum []) with 0. lia.
Qed.
Lemma ftags_size {X} (f : X -> fstmt) c (l : list X) : (forall x, fsize (f x) = c) -> list_sum (map fsize (map f l)) = c * length l.
Proof. intros H. rewrite lsum_map. induction l as [|x l IH]; [cbn; lia|]. cbn [map length]. rewrite lsum_cons, H. lia. Qed.
Lemma run_exec_size g s r : S (fstmts (sf_body (exec_run_code g s r))) <= 14 * run_entries (RStart r) + 10.
Proof.
  unfold exec_run_code. cbn [sf_body]. unfold fstmts. rewrite !map_app, !lsum_app. assert (C := conditions_size (run_symbols r)). unfold fstmts in C. unfold run_entries.
  rewrite (ftags_size _ 7) by (intros; cbn [fsize]; rewrite tag_size; reflexivity).
  cbn [map fsize ssize esize]. rewrite !lsum_cons. change (list_sum []) with 0. lia.
Qed.
Lemma guard_size s tu : osize (fun_guard s tu) <= 1.
Proof. unfold fun_guard. destruct (tu_end tu || _); [cbn; lia|]. destruct (tu_start tu && _); cbn; lia. Qed.
Lemma capture_size tu : list_sum (map fsize (capture_code tu)) = 5 * length (tu_tags tu).
Proof. unfold capture_code. apply ftags_size. intros x. cbn [fsize]. rewrite tag_size. reflexivity. Qed.
Lemma state_test_size s accs syms : S (fstmts (sf_body (test_state_code s accs syms))) <= 7 + 7 * sym_weight syms.
Proof.
  unfold test_state_code. cbn [sf_body]. unfold fstmts. cbn [map fsize ssize esize]. rewrite !lsum_cons, lsum_map. change (list_sum []) with 0.
  match goal with |- context [list_sum (map ?f syms)] => assert (L : list_sum (map f syms) <= 7 * sym_weight syms) end.
  { unfold sym_weight. apply lsum_le. intros x. assert (G := guard_size s (snd x)). cbn [fst snd map fsize esize]. rewrite !lsum_cons. change (list_sum []) with 0. lia. }
  assert (esize (test_end s accs) = 1) by (unfold test_end; destruct accs; [reflexivity|]; destruct (existsb _ _); [reflexivity|]; destruct (s =? 0); reflexivity). lia.
Qed.
Lemma end_size s accs : list_sum (map fsize (exec_end s accs)) <= 10 + 5 * acc_weight accs.
Proof.
  unfold exec_end. destruct accs as [|tu [|]]; [cbn; lia| |cbn; lia]. unfold acc_weight. cbn [map]. rewrite lsum_cons. change (list_sum []) with 0.
  destruct (tu_start tu && (s =? 0)); [|destruct (tu_start tu && negb (s =? 0))]; rewrite ?map_app, ?lsum_app, ?capture_size; cbn; lia.
Qed.
Lemma state_exec_size g s accs syms : S (fstmts (sf_body (exec_state_code g s accs syms))) <= 20 + 10 * sym_weight syms + 5 * acc_weight accs.
Proof.
  unfold exec_state_code. cbn [sf_body]. unfold fstmts. cbn [map fsize]. rewrite !lsum_cons, lsum_map. change (list_sum []) with 0. assert (E := end_size s accs).
  match goal with |- context [list_sum (map ?f syms)] => assert (L : list_sum (map f syms) <= 10 * sym_weight syms) end.
  { unfold sym_weight. apply lsum_le. intros x. assert (G := guard_size s (snd x)). cbn [fst snd]. rewrite map_app, lsum_app, capture_size. cbn [map fsize esize]. rewrite !lsum_cons. change (list_sum []) with 0. lia. }
  cbn [ssize esize]. lia.
Qed.
Lemma fun_states_size ex runs with_run normal tab : (forall s r, S (fstmts (sf_body (with_run s r))) <= 14 * run_entries (RStart r) + 10) ->
  (forall s, S (fstmts (sf_body (normal s))) <= 20 + 10 * sym_weight (nth s (op_syms tab) []) + 5 * acc_weight (nth s (op_accs tab) [])) ->
  list_sum (map (fun f => S (fstmts (sf_body f))) (state_funs ex runs with_run normal)) <= 24 * list_sum (map run_entries runs) + 10 * op_entries tab.
Proof.
  intros H1 H2. unfold state_funs. rewrite lsum_flat.
  etransitivity; [apply (lsum_mono _ (fun p => 24 * run_entries (snd p) + (10 * sym_weight (nth (fst p) (op_syms tab) []) + 5 * acc_weight (nth (fst p) (op_accs tab) []))))|].
  - intros [s i]. cbn [fst snd]. specialize (H2 s). destruct i as [r| | |]; cbn [map]; rewrite ?lsum_cons; change (list_sum []) with 0; [specialize (H1 s r)| | |]; unfold run_entries in *; lia.
  - rewrite !lsum_add. assert (A := kept_le ex (fun p => 24 * run_entries (snd p)) run_entries 24 runs ltac:(intros; cbn [snd]; lia)).
    rewrite !(lsum_mul (fun p : nat * inclusion => _)). 
    assert (B := kept_nth sym_weight (op_syms tab) ex runs eq_refl). assert (C := kept_nth acc_weight (op_accs tab) ex runs eq_refl). unfold op_entries. rewrite lsum_mul in A. lia.
Qed.
Lemma fun_size n tab runs : prog_size (fun_test_prog n tab runs) + prog_size (fun_exec_prog n tab runs) + func_size (fun_outer_code (num_capture_groups n)) <= 100 + 20 * op_entries tab + 48 * list_sum (map run_entries runs).
Proof.
  unfold prog_size, fun_test_prog, fun_exec_prog. cbn [g_states g_body].
  assert (A := fun_states_size (op_excluded n) runs test_run_code (fun s => test_state_code s (nth s (op_accs tab) []) (nth s (op_syms tab) [])) tab run_test_size).
  assert (B := fun_states_size (op_excluded n) runs (exec_run_code (num_capture_groups n)) (fun s => exec_state_code (num_capture_groups n) s (nth s (op_accs tab) []) (nth s (op_syms tab) [])) tab (run_exec_size _)).
  specialize (A ltac:(intros s; cbv beta; assert (Q := state_test_size s (nth s (op_accs tab) []) (nth s (op_syms tab) [])); lia)). specialize (B ltac:(intros s; apply state_exec_size)).
  unfold func_size, fun_outer_code. cbn [f_enum f_procs f_body]. rewrite finish_size. unfold fstmts at 2 4. unfold e_bounds. cbn [map fsize ssize esize length]. rewrite !lsum_cons. change (list_sum []) with 0. lia.
Qed.

(** The DFA engine *)
Lemma dfa_size m : func_size (dfa_test_code m) <= 20 + 20 * list_sum (map d_entries (d_start m :: d_states m)).
Proof.
  assert (T1 : list_sum (map (fun p => list_sum (map (fun x : arm => S (osize (snd (fst x)) + list_sum (map ssize (snd x)))) (dfa_arms p))) (numbered (d_states m) (d_start m))) <= 3 * list_sum (map d_entries (d_start m :: d_states m))).
  { apply numbered_le. intros i x. unfold dfa_arms, d_entries. cbn [fst snd]. destruct (ds_acc x); [|cbn; lia|];
      rewrite lsum_map; cbn [fst snd osize map ssize esize]; rewrite ?lsum_cons; (etransitivity; [apply (lsum_le _ (fun _ => 1) 3); intros t; cbn; lia|]); rewrite lsum_one; lia. }
  assert (T2 : list_sum (map (fun p : label * dstate => S (0 + list_sum [2])) (numbered (d_states m) (d_start m))) <= 3 * list_sum (map d_entries (d_start m :: d_states m))).
  { apply numbered_le. intros i x. unfold d_entries. cbn. lia. }
  assert (T3 : length (d_states m) <= list_sum (map d_entries (d_start m :: d_states m))).
  { rewrite <- (lsum_one (d_states m)). cbn [map]. rewrite lsum_cons. assert (L := lsum_mono (fun _ => 1) d_entries (d_states m) ltac:(intros x; unfold d_entries; lia)). lia. }
  unfold func_size, dfa_test_code. destruct (ds_acc (d_start m)); [|cbn; lia|];
    cbn [f_enum f_procs f_body length]; rewrite map_length; unfold enumerate at 1; rewrite combine_length, seq_length, Nat.min_id; unfold stmts; sums; cbn [list_sum fold_right] in T2; unfold arm in *; cbn [fst snd osize map ssize esize] in *; unfold list_sum in *; cbn [fold_right] in *; lia.
Qed.
Lemma tdfa_arm_size g l t : S (osize (snd (fst (tdfa_arm g l t))) + list_sum (map ssize (snd (tdfa_arm g l t)))) <= 8 * S (length (tt_copy t) + length (tt_add t)).
Proof.
  unfold tdfa_arm. cbn [fst snd osize]. sums.
  assert (A : list_sum (map (fun x => ssize (set_tag Xnew_tags [AIdx (ENum (fst x))] (EVar Xi) (snd x))) (tt_add t)) <= 8 * length (tt_add t)).
  { rewrite <- lsum_one. apply lsum_le. intros x. rewrite tag_size. cbn. lia. }
  match goal with |- context [list_sum (map ?f (tt_copy t))] => assert (B : list_sum (map f (tt_copy t)) <= 3 * length (tt_copy t)) by (rewrite <- lsum_one; apply lsum_le; intros; lia) end.
  lia.
Qed.
Lemma tdfa_size d : func_size (tdfa_inner_code d) + func_size (tdfa_outer_code d) <= 60 + 40 * list_sum (map td_entries (td_start d :: td_states d)).
Proof.
  set (g := tdfa_groups d).
  assert (T1 : list_sum (map (fun p => list_sum (map (fun x : arm => S (osize (snd (fst x)) + list_sum (map ssize (snd x)))) (map (tdfa_arm g (fst p)) (ts_trans (snd p))))) (numbered (td_states d) (td_start d))) <= 8 * list_sum (map td_entries (td_start d :: td_states d))).
  { apply numbered_le. intros i x. unfold td_entries. cbn [fst snd]. rewrite lsum_map. etransitivity; [apply lsum_le; intros t; apply tdfa_arm_size|]. lia. }
  assert (T2 : list_sum (map (fun p => S (osize (snd (fst (tdfa_final g p))) + list_sum (map ssize (snd (tdfa_final g p))))) (numbered (td_states d) (td_start d))) <= 9 * list_sum (map td_entries (td_start d :: td_states d))).
  { apply numbered_le. intros i x. unfold td_entries, tdfa_final. cbn [fst snd osize]. destruct (ts_acc x); cbn [acc_entries]; [| | |cbn; lia]; sums; rewrite <- lsum_map, tags_size; cbn [map esize]; change (list_sum []) with 0; lia. }
  assert (T3 : length (td_states d) <= list_sum (map td_entries (td_start d :: td_states d))).
  { rewrite <- (lsum_one (td_states d)). cbn [map]. rewrite lsum_cons. assert (L := lsum_mono (fun _ => 1) td_entries (td_states d) ltac:(intros x; unfold td_entries; lia)). lia. }
  unfold func_size, tdfa_inner_code, tdfa_outer_code. cbn [f_enum f_procs f_body length]. fold g. rewrite map_length, finish_size. unfold enumerate at 1. rewrite combine_length, seq_length, Nat.min_id. unfold stmts, e_bounds. sums. unfold arm in *. cbn [map] in T1, T2, T3. rewrite lsum_cons in T1, T2, T3. lia.
Qed.

(** The lockstep engines *)
Lemma push_size g p : ssize (push_code g p) <= 20 * S (length (ep_tags p)).
Proof. unfold push_code. sums. rewrite <- (lsum_map ssize (set_tag Xnew_thread [AField true] (EVar Xidx))), tags_size. cbn. lia. Qed.
Lemma flat_size {A} (code : A -> rexp) t it next (f : A -> nat) n tbl : (forall a, esize (code a) <= 7 * f a) -> (forall a, 1 <= f a) -> isize it = 1 -> esize next <= 3 ->
  func_size (flat_test_code code t it next n tbl) + func_size (flat_exec_code code t it next n tbl) <= 200 + 60 * (nfa_entries f n + list_sum (map row_entries tbl)).
Proof.
  intros Hc Hf Hi Hx. set (ex := flat_excluded n).
  assert (T0 : length (flat_enum ex) <= nfa_entries f n).
  { unfold flat_enum. rewrite map_length. etransitivity; [apply kept_len|]. unfold ex. rewrite PFlat.flat_excluded_length. rewrite <- (lsum_one n). apply lsum_mono. intros; lia. }
  assert (T1 : stmts (pr_body (sym_test_proc code t n)) <= 12 * nfa_entries f n).
  { unfold sym_test_proc. cbn [pr_body]. unfold stmts. rewrite lsum_map. unfold nfa_entries. apply kept_le. intros i x. cbn [ssize esize fst snd map]. rewrite lsum_map. change (list_sum []) with 0.
    match goal with |- context [list_sum (map ?h (trans x))] => assert (L : list_sum (map h (trans x)) <= 12 * list_sum (map (fun t => f (snd t)) (trans x))) end.
    { apply lsum_le. intros y. specialize (Hc (snd y)). specialize (Hf (snd y)). sums. lia. }
    lia. }
  assert (T2 : stmts (pr_body (eps_test_proc n tbl)) <= 20 + 20 * list_sum (map row_entries tbl)).
  { unfold eps_test_proc. cbn [pr_body]. unfold stmts. rewrite map_app, lsum_app, lsum_map. change (list_sum (map ssize is_code)) with 8.
    match goal with |- context [list_sum (map ?h (kept _ tbl))] => assert (L : list_sum (map h (kept (flat_excluded n) tbl)) <= 20 * list_sum (map row_entries tbl)) end.
    { apply kept_le. intros i x. cbn [ssize esize fst snd map]. change (list_sum (map ssize (groups_code mark_code x))) with (stmts (groups_code mark_code x)). rewrite groups_sum. change (list_sum []) with 0. unfold row_entries.
      assert (M := lsum_le (fun p => ssize (mark_code p)) (fun p => S (length (ep_tags p))) 8 x ltac:(intros; cbn; lia)). lia. }
    lia. }
  assert (T3 : stmts (pr_body (sym_exec_proc code t n)) <= 20 + 20 * nfa_entries f n).
  { unfold sym_exec_proc. cbn [pr_body]. unfold stmts. cbn [map ssize esize isize osize]. rewrite !lsum_cons, lsum_map. change (list_sum []) with 0.
    match goal with |- context [list_sum (map ?h (kept _ n))] => assert (L : list_sum (map h (kept (flat_excluded n) n)) <= 20 * nfa_entries f n) end.
    { unfold nfa_entries. apply kept_le. intros i x. cbn [fst snd osize]. rewrite lsum_map.
      match goal with |- context [list_sum (map ?h (trans x))] => assert (L : list_sum (map h (trans x)) <= 20 * list_sum (map (fun t => f (snd t)) (trans x))) end.
      { apply lsum_le. intros y. specialize (Hc (snd y)). specialize (Hf (snd y)). sums. lia. }
      lia. }
    lia. }
  assert (T4 : stmts (pr_body (eps_exec_proc n tbl)) <= 30 + 30 * list_sum (map row_entries tbl)).
  { unfold eps_exec_proc. cbn [pr_body]. unfold stmts. rewrite map_app, lsum_app. cbn [map ssize esize isize osize is_code]. rewrite !lsum_cons, lsum_map. change (list_sum []) with 0.
    match goal with |- context [list_sum (map ?h (kept _ tbl))] => assert (L : list_sum (map h (kept (flat_excluded n) tbl)) <= 30 * list_sum (map row_entries tbl)) end.
    { apply kept_le. intros i x. cbn [fst snd osize]. change (list_sum (map ssize (groups_code (push_code (num_capture_groups n)) x))) with (stmts (groups_code (push_code (num_capture_groups n)) x)). rewrite groups_sum. unfold row_entries.
      assert (M := lsum_le (fun p => ssize (push_code (num_capture_groups n) p)) (fun p => S (length (ep_tags p))) 20 x (push_size _)). lia. }
    lia. }
  unfold func_size, flat_test_code, flat_exec_code. cbn [f_enum f_procs f_body]. fold ex.
  cbn [map]. rewrite !lsum_cons. change (list_sum []) with 0. unfold stmts at 3 6. rewrite map_app, lsum_app.
  fold (stmts (finish_code Xcaptures (num_capture_groups n) (EField true (EVar Xbounds)))). rewrite finish_size. unfold e_bounds. cbn [map ssize esize asize length]. rewrite !lsum_cons. change (list_sum []) with 0. rewrite Hi. lia.
Qed.
Lemma fixed_size g offs : func_size (fixed_code g offs) <= 20 + 4 * length offs.
Proof.
  unfold func_size, fixed_code. cbn [f_enum f_procs f_body length map]. unfold stmts. cbn [map ssize esize]. rewrite lsum_map, !lsum_cons. change (list_sum []) with 0.
  match goal with |- context [list_sum (map ?h offs)] => assert (L : list_sum (map h offs) <= 4 * length offs) end.
  { rewrite <- lsum_one. apply lsum_le. intros [[a|] [b|]]; cbn; lia. }
  lia.
Qed.
(** The code is linear in the tables. *)
Theorem code_linear w : code_size w <= 200 + 60 * entries w.
Proof.
  induction w as [n tab|n tab runs|d m|n tbl|n tbl|g offs w IH]; cbn [code_size entries].
  - assert (H := vm_size n tab). lia.
  - assert (H := fun_size n tab runs). lia.
  - assert (H1 := dfa_size m). assert (H2 := tdfa_size d). lia.
  - apply (Nat.le_trans _ _ _ (flat_size in_code TByte IEnum (ESucc (EVar Xi)) (fun _ => 1) n tbl ltac:(intros; cbn; lia) ltac:(intros; cbn; lia) eq_refl ltac:(cbn; lia))). lia.
  - apply (Nat.le_trans _ _ _ (flat_size check_code TChar IChars (EWidth (EVar Xi) (EVar Xc)) terms n tbl ltac:(intros a; destruct a; cbn; lia) ltac:(intros a; destruct a; cbn; lia) eq_refl ltac:(cbn; lia))). lia.
  - assert (H := fixed_size g offs). lia.
Qed.
