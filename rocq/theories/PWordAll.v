(** The programs of the macros give the same with machine integers. *)
From Verif Require Export EmitW PWordFn PEmitFix PAll.
From Verif Require Import PSound POnePass PropSound.
From Coq Require Import ZifyBool ZifyNat ZifyN.
Open Scope nat_scope.
Open Scope list_scope.

(** The offsets of the tags of a run are within it *)
Definition run_fits (r : inclusion) : Prop := match r with RStart r => Forall (fun t => fst t <= length (run_symbols r)) (run_tags r) | _ => True end.
Fixpoint words_ok (w : written) : Prop :=
  match w with
  | WFun _ _ runs => Forall run_fits runs
  | WFixed _ _ w => words_ok w
  | _ => True
  end.
Section Same.
  Variable over : nat -> nat -> res val.
  Variable top : nat.
  Variable text : list N.
  Hypothesis Htop : blen text < top.
  Lemma func_same f vs ws : accepts f = true -> no_num (f_result f) = true -> func_fine top text f = true -> Forall2 (vty (f_enum f)) vs (map snd (f_args f)) -> Forall2 (vrel top) vs ws -> run_funcw over top f text ws = run_func f text vs.
  Proof.
    intros Ha Hn Hf Hv Hw. apply (rrel_same top (f_enum f) (f_result f) _ _ Hn); [exact (func_sound f text vs Ha Hv)|now apply func_rel].
  Qed.
  Lemma func_same0 f : accepts f = true -> no_num (f_result f) = true -> func_fine top text f = true -> f_args f = [] -> run_funcw over top f text [] = run_func f text [].
  Proof. intros Ha Hn Hf E. apply func_same; auto. rewrite E. constructor. Qed.
  Lemma outer_same f t r r' : accepts f = true -> no_num (f_result f) = true -> func_fine top text f = true -> map snd (f_args f) = [t] -> no_enum t = true ->
    r = Fuel \/ safe (fun v => exists enum, vty enum v (TOpt t)) r -> rrel (vrel top) r r' ->
    then_outer over top f text r' = (do v <- r; match v with VOpt (Some b) => run_func f text [b] | VOpt None => Ok (VOpt None) | _ => NoCompile end).
  Proof.
    intros Ha Hn Hf Et Ht S R. unfold then_outer. destruct r as [v| | |], r' as [w| | |]; cbn [rrel] in R; try (now destruct R); try reflexivity. destruct S as [S|S]; [discriminate S|]. cbn [safe] in S. destruct S as (enum & Hv). cbn [bind].
    inversion Hv as [| | | | | | | | | | |t'|b t' Hb]; subst; inversion R as [| | | | | | | | | | |u u' Hu]; subst; [reflexivity|]. apply func_same; auto. rewrite Et. constructor; [|constructor]. now apply (vty_any enum).
  Qed.
  (** The offsets are only compared with the text *)
  Lemma fixed_same g offs b : run_funcw over top (fixed_code g offs) text [VBool b] = run_func (fixed_code g offs) text [VBool b].
  Proof.
    destruct b; [|reflexivity]. unfold run_funcw, run_func, fixed_code. cbn [f_args f_body f_procs bind_params length Nat.eqb combine rev app map fst snd bind]. cbn [Rust.block RustW.blockw Rust.exec RustW.execw Rust.eval RustW.evalw getv look var_eqb need bind as_bool negb leave].
    assert (E : forall e l, (fix each (l : list rexp) : res (list val) := match l with [] => Ok [] | a :: r => do v <- evalw over top text e a; do vs <- each r; Ok (v :: vs) end) (map fixed_part l) =
                            (fix each (l : list rexp) : res (list val) := match l with [] => Ok [] | a :: r => do v <- eval text e a; do vs <- each r; Ok (v :: vs) end) (map fixed_part l)).
    { intros e l. induction l as [|[[x|] [y|]] l IH]; [reflexivity|..]; cbn [map fixed_part]; rewrite IH; reflexivity. }
    rewrite E. reflexivity.
  Qed.
  Lemma machine_same w : pg_ok (program_of w) = true -> words_ok w -> machine_test over top w text = pg_test (program_of w) text /\ machine_exec over top w text = pg_exec (program_of w) text.
  Proof.
    induction w as [n tab|n tab runs|d m|n tbl|n tbl|g offs w IH]; intros Ho Hw; cbn [program_of pg_ok pg_test pg_exec machine_test machine_exec vm_program dfa_program byte_program char_program fun_program fixed_program] in *.
    - apply andb_true_iff in Ho as [H1 H2]. split; apply func_same0; auto; [now apply vm_test_fine|now apply vm_exec_fine].
    - apply andb_true_iff in Ho as [H1 H]. apply andb_true_iff in H as [H2 H3]. cbn [words_ok] in Hw. split.
      + assert (R := fun_test_rel over top text Htop n tab runs). destruct (prog_sound _ text H1) as [E|S]; [rewrite E in R |- *; destruct (run_progw over top text (fun_test_prog n tab runs)); try (now destruct R); reflexivity|].
        exact (rrel_same top [] TBool _ _ eq_refl S R).
      + unfold run_fun_exec. apply (outer_same _ (t_bounds (num_capture_groups n))); [exact H3|..]; [reflexivity|now apply fun_outer_fine|reflexivity|reflexivity| |now apply fun_exec_rel].
        destruct (prog_sound _ text H2) as [E|S]; [now left|right]. eapply safe_imp; [exact S|]. intros v Hv. now exists [].
    - apply andb_true_iff in Ho as [H1 H]. apply andb_true_iff in H as [H2 H3]. split.
      + apply func_same0; auto; [unfold dfa_test_code; destruct (ds_acc (d_start m)); reflexivity|now apply dfa_test_fine|unfold dfa_test_code; destruct (ds_acc (d_start m)); reflexivity].
      + unfold run_tdfa_code. apply (outer_same _ (t_bounds (tdfa_groups d))); [exact H3|..]; [reflexivity|now apply tdfa_outer_fine|reflexivity|reflexivity| |].
        * right. eapply safe_imp; [exact (func_sound _ text [] H2 (Forall2_nil _))|]. intros v Hv. eexists. exact Hv.
        * apply func_rel; [exact Htop|now apply tdfa_inner_fine|constructor].
    - apply andb_true_iff in Ho as [H1 H2]. split; apply func_same0; auto; [now apply byte_test_fine|now apply byte_exec_fine].
    - apply andb_true_iff in Ho as [H1 H2]. split; apply func_same0; auto; [now apply char_test_fine|now apply char_exec_fine].
    - apply andb_true_iff in Ho as [H1 H2]. cbn [words_ok] in Hw. destruct (IH H1 Hw) as [E1 _]. split; [exact E1|]. rewrite E1.
      assert (B : (exists b, pg_test (program_of w) text = Ok (VBool b)) \/ pg_test (program_of w) text = Panic \/ pg_test (program_of w) text = Fuel).
      { clear - H1. induction w as [n tab|n tab runs|d m|n tbl|n tbl|g offs w IH]; cbn [program_of] in *.
        - destruct (proj1 (C86_vm n tab H1 text)); auto. - apply (C86_functional n tab runs text H1). - destruct (proj1 (C86_dfa d m H1 text)); auto. - destruct (proj1 (C86_flat_u8 n tbl H1 text)); auto. - destruct (proj1 (C86_flat n tbl H1 text)); auto.
        - cbn [fixed_program pg_ok pg_test] in *. apply andb_true_iff in H1 as [H1 _]. now apply IH. }
      destruct B as [(b & E)|[E|E]]; rewrite E; try reflexivity. cbn [bind]. apply fixed_same.
  Qed.
End Same.

(** ** Runs *)
Lemma sort_le_in {X} (le : X -> X -> bool) l x : In x (sort_le le l) -> In x l.
Proof.
  assert (I : forall y l, In x (insert_le le y l) -> x = y \/ In x l).
  { intros y k. induction k as [|z k IH]; cbn [insert_le In]; [intuition|]. destruct (le y z); cbn [In]; intuition. }
  induction l as [|y l IH]; cbn [sort_le]; [auto|]. intros H. apply I in H as [->|H]; [now left|right; auto].
Qed.
Lemma run_walk_fits syms start fuel : forall s rs tags int rs' tags' int' e, Forall (fun t => fst t <= length rs) tags ->
  run_walk fuel syms start s rs tags int = Ok (rs', tags', int', e) -> Forall (fun t => fst t <= length rs') tags'.
Proof.
  induction fuel as [|f IH]; intros s rs tags int rs' tags' int' e Ht H; cbn [run_walk] in H; [discriminate H|]. destruct (run_next syms s) as [[[t r] ts]|]; [|now injection H as <- <- _ _].
  destruct (t =? start); [now injection H as <- <- _ _|]. apply IH in H; [exact H|]. rewrite app_length. cbn [length]. apply Forall_app. split; [eapply Forall_impl; [|exact Ht]; cbn; intros; lia|]. apply Forall_forall. intros x Hx. apply in_map_iff in Hx as (y & <- & _). cbn [fst]. lia.
Qed.
Lemma upd_all {X} (P : X -> Prop) i x l : P x -> Forall P l -> Forall P (upd i x l).
Proof. intros Hx H. revert i. induction H as [|y l Hy H IH]; intros [|i]; cbn [upd]; constructor; auto. Qed.
Lemma compute_runs_fit syms runs : compute_runs syms = Ok runs -> Forall run_fits runs.
Proof.
  unfold compute_runs. set (F := fun out start => _). intros H.
  assert (G : forall l out, Forall run_fits out -> forall runs, foldM F l out = Ok runs -> Forall run_fits runs).
  { induction l as [|st l IH]; intros out Ho runs' Hr; cbn [foldM] in Hr; [injection Hr as <-; assumption|]. destruct (F out st) as [out'| | |] eqn:E; try discriminate Hr. cbn [bind] in Hr. revert Hr. apply IH. clear IH runs'.
    unfold F in E. destruct (run_start syms st); [|injection E as <-; assumption]. destruct (run_walk _ _ _ _ _ _ _) as [[[[rs tags] int] e]| | |] eqn:Ew; try discriminate E. cbn [bind] in E. destruct (e =? st); [injection E as <-; assumption|]. injection E as <-.
    apply upd_all; [exact I|]. assert (K : forall int o, Forall run_fits o -> Forall run_fits (fold_left (fun out i => upd i RInternal out) int o)) by (clear; induction int as [|i int IH]; intros o Ho; cbn [fold_left]; [exact Ho|]; apply IH; now apply upd_all).
    apply K. apply upd_all; [|exact Ho]. cbn [run_fits run_tags run_symbols]. apply run_walk_fits in Ew; [|constructor]. rewrite Forall_forall in Ew. apply Forall_forall. intros t Ht. apply Ew. eapply sort_le_in. exact Ht. }
  apply (G _ _) with (2 := H). apply Forall_forall. intros x Hx. apply repeat_spec in Hx. subst x. exact I.
Qed.

(** ** Whichever macro wrote the program *)
Definition writes (p : program) : Prop := exists w, p = program_of w /\ words_ok w.
Lemma one_pass_writes u p : write_one_pass u = Ok (Some p) -> writes p.
Proof.
  unfold write_one_pass. destruct (guard _); cbn [bind]; intros H; try discriminate H. destruct (op_analyse u) as [[tab|]| | |]; cbn [bind] in H; try discriminate H. destruct (topological_ordering u) as [[o|]| | |]; cbn [bind] in H; try discriminate H.
  - destruct (compute_runs (op_syms tab)) as [runs| | |] eqn:Er; cbn [bind] in H; try discriminate H. injection H as <-. exists (WFun u tab runs). split; [reflexivity|]. exact (compute_runs_fit _ _ Er).
  - injection H as <-. now exists (WVm u tab).
Qed.
Lemma flat_u8_writes u p : write_flat_u8 u = Ok p -> writes p.
Proof. unfold write_flat_u8. destruct (guard _); cbn [bind]; intros H; try discriminate H. destruct (flat_table u) as [tbl| | |]; cbn [bind] in H; try discriminate H. injection H as <-. now exists (WByte u tbl). Qed.
Lemma flat_writes n p : write_flat n = Ok p -> writes p.
Proof. unfold write_flat. destruct (guard _); cbn [bind]; intros H; try discriminate H. destruct (flat_table n) as [tbl| | |]; cbn [bind] in H; try discriminate H. injection H as <-. now exists (WChar n tbl). Qed.
Lemma dfa_writes d p : write_dfa d = Ok p -> writes p.
Proof. unfold write_dfa. destruct (dfa_from_tagged d) as [m| | |]; cbn [bind]; intros H; try discriminate H. injection H as <-. now exists (WDfa d m). Qed.
Lemma base_writes e p u : write_base e = Ok (p, u) -> writes p.
Proof.
  unfold write_base. destruct (working_new (tree_of e)) as [n| | |]; cbn [bind]; intros H; try discriminate H. destruct (u8_new n) as [v| | |]; cbn [bind] in H; try discriminate H. destruct (write_one_pass v) as [[q|]| | |] eqn:E1; cbn [bind] in H; try discriminate H.
  - injection H as -> ->. exact (one_pass_writes _ _ E1).
  - destruct (tdfa_from_nfa v (default_bound (length v))) as [[d|]| | |]; cbn [bind] in H; try discriminate H.
    + destruct (write_dfa d) as [q| | |] eqn:E2; cbn [bind] in H; try discriminate H. injection H as -> ->. exact (dfa_writes _ _ E2).
    + destruct (nfa_is_ascii n); [destruct (write_flat_u8 v) as [q| | |] eqn:E2|destruct (write_flat n) as [q| | |] eqn:E2]; cbn [bind] in H; try discriminate H; injection H as -> ->; [exact (flat_u8_writes _ _ E2)|exact (flat_writes _ _ E2)].
Qed.
Lemma fixed_writes g offs p : writes p -> writes (fixed_program g offs p).
Proof. intros (w & -> & Hw). now exists (WFixed g offs w). Qed.
Lemma with_ere_ok {X} s (f : ere -> res X) x : with_ere s f = Ok x -> exists e, f e = Ok x.
Proof. unfold with_ere. destruct (parse_str s); intros H; try discriminate H; eauto. Qed.
Lemma engine_writes e p : write_engine e = Ok p -> writes p.
Proof.
  unfold write_engine. destruct (write_base e) as [[b u]| | |] eqn:Eb; cbn [bind]; intros H; try discriminate H. apply base_writes in Eb. destruct (fixed_offsets u) as [[offs|]| | |]; cbn [bind] in H; try discriminate H; injection H as <-; [now apply fixed_writes|exact Eb].
Qed.
Lemma generated_writes s p : generated s p -> writes p.
Proof.
  intros [H|[H|[H|[H|[H|H]]]]]; apply with_ere_ok in H as (e & H).
  - exact (engine_writes e p H).
  - destruct (working_new (tree_of e)) as [n| | |]; cbn [bind] in H; try discriminate H. destruct (u8_new n) as [u| | |]; cbn [bind] in H; try discriminate H. destruct (tdfa_from_nfa u (default_bound (length u))) as [[d|]| | |]; cbn [bind] in H; try discriminate H.
    destruct (dfa_from_tagged d) as [m| | |]; cbn [bind] in H; try discriminate H. injection H as <-. now exists (WDfa d m).
  - destruct (working_new (tree_of e)) as [n| | |]; cbn [bind] in H; try discriminate H. exact (flat_writes n p H).
  - destruct (working_new (tree_of e)) as [n| | |]; cbn [bind] in H; try discriminate H. destruct (u8_new n) as [u| | |]; cbn [bind] in H; try discriminate H. exact (flat_u8_writes u p H).
  - destruct (working_new (tree_of e)) as [n| | |]; cbn [bind] in H; try discriminate H. destruct (u8_new n) as [u| | |]; cbn [bind] in H; try discriminate H. destruct (write_one_pass u) as [[q|]| | |] eqn:E1; cbn [bind] in H; try discriminate H. injection H as <-. exact (one_pass_writes u q E1).
  - destruct (write_base e) as [[b u]| | |] eqn:Eb; cbn [bind] in H; try discriminate H. apply base_writes in Eb. destruct (fixed_offsets u) as [[offs|]| | |]; cbn [bind] in H; try discriminate H; injection H as <-. now apply fixed_writes.
Qed.
Lemma generated_same s p : generated s p -> pg_ok p = true ->
  exists w, p = program_of w /\ forall over top T, blen T < top -> machine_test over top w T = pg_test p T /\ machine_exec over top w T = pg_exec p T.
Proof. intros H Ho. destruct (generated_writes s p H) as (w & -> & Hw). exists w. split; [reflexivity|]. intros over top T Ht. now apply machine_same. Qed.
