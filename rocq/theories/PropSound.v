(** The modelled checks of the compiler are sound for the modelled evaluation (C86). *)
From Coq Require Import String.
From Verif Require Import PSound PEmitFix.
Open Scope string_scope.
Open Scope nat_scope.
Open Scope list_scope.

(** C86.  The checks of Rust.v are only as good as what they rule out.  A function that passes them, called on any text with arguments of the types of
    its parameters, returns a value of its result type or panics: it never meets a variable that is not bound, an operation on values of another
    type, a match without an arm for the value, a local function that does not exist, or the end of its body ([NoCompile]), and it always ends.
    [vty] (PSound.v) says which values have a type; lengths of arrays are left to the panics of indexing. *)
Theorem C86_function : forall f text vs, accepts f = true -> Forall2 (vty (f_enum f)) vs (map snd (f_args f)) ->
  (exists v, run_func f text vs = Ok v /\ vty (f_enum f) v (f_result f)) \/ run_func f text vs = Panic.
Proof. intros f text vs H Hv. assert (S := func_sound f text vs H Hv). destruct (run_func f text vs) as [v| | |]; cbn [safe] in S; [left; eauto|now right|destruct S|destruct S]. Qed.
Print Assumptions C86_function.
(** For functions that call one another (RustFn.v), where the evaluation stops with [Fuel] after one call for every byte of the text: *)
Theorem C86_program : forall p text, accepts_prog p = true ->
  (exists v, run_prog text p = Ok v /\ vty [] v (g_result p)) \/ run_prog text p = Panic \/ run_prog text p = Fuel.
Proof. intros p text H. destruct (prog_sound p text H) as [E|S]; [auto|]. destruct (run_prog text p) as [v| | |]; cbn [safe] in S; [left; eauto|auto|destruct S|destruct S]. Qed.
Print Assumptions C86_program.
(** So for each engine: whatever the automaton and the tables the templates are filled with, right or wrong, if the compiler accepts the two functions then
    [test] gives a boolean and [exec] an option, or they panic. *)
Definition typed (p : program) : Prop := forall T,
  ((exists b, pg_test p T = Ok (VBool b)) \/ pg_test p T = Panic) /\ ((exists o, pg_exec p T = Ok (VOpt o)) \/ pg_exec p T = Panic).
Theorem C86_vm : forall n tab, pg_ok (vm_program n tab) = true -> typed (vm_program n tab).
Proof.
  intros n tab H T. apply andb_true_iff in H as [H1 H2]. cbn [pg_test pg_exec vm_program]. split.
  - destruct (C86_function _ T [] H1 (Forall2_nil _)) as [(v & E & Hv)|E]; [|now right]. left. inversion Hv; subst. eauto.
  - destruct (C86_function _ T [] H2 (Forall2_nil _)) as [(v & E & Hv)|E]; [|now right]. left. inversion Hv; subst; eauto.
Qed.
Print Assumptions C86_vm.
Theorem C86_dfa : forall d m, pg_ok (dfa_program d m) = true -> typed (dfa_program d m).
Proof.
  intros d m H T. apply andb_true_iff in H as [H1 H]. apply andb_true_iff in H as [H2 H3]. cbn [pg_test pg_exec dfa_program]. split.
  - assert (A : f_args (dfa_test_code m) = []) by (unfold dfa_test_code; destruct (ds_acc (d_start m)); reflexivity). assert (R : f_result (dfa_test_code m) = TBool) by (unfold dfa_test_code; destruct (ds_acc (d_start m)); reflexivity).
    destruct (C86_function _ T [] H1) as [(v & E & Hv)|E]; [rewrite A; constructor| |now right]. left. rewrite R in Hv. inversion Hv; subst. eauto.
  - unfold run_tdfa_code. destruct (C86_function _ T [] H2 (Forall2_nil _)) as [(v & E & Hv)|E]; rewrite E; [|now right]. cbn [bind]. inversion Hv as [| | | | | | | | | | |t|b t Hb]; subst; [left; eauto|].
    destruct (C86_function _ T [b] H3) as [(w & E' & Hw)|E']; [|left|now right].
    + constructor; [|constructor]. eapply vty_any; [|exact Hb]. reflexivity.
    + inversion Hw; subst; eauto.
Qed.
Print Assumptions C86_dfa.
Theorem C86_flat_u8 : forall n tbl, pg_ok (byte_program n tbl) = true -> typed (byte_program n tbl).
Proof.
  intros n tbl H T. apply andb_true_iff in H as [H1 H2]. cbn [pg_test pg_exec byte_program]. split.
  - destruct (C86_function _ T [] H1 (Forall2_nil _)) as [(v & E & Hv)|E]; [|now right]. left. inversion Hv; subst. eauto.
  - destruct (C86_function _ T [] H2 (Forall2_nil _)) as [(v & E & Hv)|E]; [|now right]. left. inversion Hv; subst; eauto.
Qed.
Print Assumptions C86_flat_u8.
Theorem C86_flat : forall n tbl, pg_ok (char_program n tbl) = true -> typed (char_program n tbl).
Proof.
  intros n tbl H T. apply andb_true_iff in H as [H1 H2]. cbn [pg_test pg_exec char_program]. split.
  - destruct (C86_function _ T [] H1 (Forall2_nil _)) as [(v & E & Hv)|E]; [|now right]. left. inversion Hv; subst. eauto.
  - destruct (C86_function _ T [] H2 (Forall2_nil _)) as [(v & E & Hv)|E]; [|now right]. left. inversion Hv; subst; eauto.
Qed.
Print Assumptions C86_flat.
(** Fixed offsets around any such program *)
Theorem C86_fixed : forall g offs p, pg_ok (fixed_program g offs p) = true -> typed p -> typed (fixed_program g offs p).
Proof.
  intros g offs p H Hp T. apply andb_true_iff in H as [_ H]. destruct (Hp T) as [Ht _]. cbn [pg_test pg_exec fixed_program]. split; [exact Ht|]. destruct Ht as [(b & E)|E]; rewrite E; [|now right]. cbn [bind].
  destruct (C86_function _ T [VBool b] H) as [(v & E' & Hv)|E']; [|left|now right]; [repeat constructor|]. inversion Hv; subst; eauto.
Qed.
Print Assumptions C86_fixed.
(** The functional one-pass engine; [Fuel] would be a function that calls on without reading. *)
Theorem C86_functional : forall n tab runs T, pg_ok (fun_program n tab runs) = true ->
  ((exists b, pg_test (fun_program n tab runs) T = Ok (VBool b)) \/ pg_test (fun_program n tab runs) T = Panic \/ pg_test (fun_program n tab runs) T = Fuel) /\
  ((exists o, pg_exec (fun_program n tab runs) T = Ok (VOpt o)) \/ pg_exec (fun_program n tab runs) T = Panic \/ pg_exec (fun_program n tab runs) T = Fuel).
Proof.
  intros n tab runs T H. apply andb_true_iff in H as [H1 H]. apply andb_true_iff in H as [H2 H3]. cbn [pg_test pg_exec fun_program]. split.
  - destruct (C86_program _ T H1) as [(v & E & Hv)|E]; [|now right]. left. inversion Hv; subst. eauto.
  - unfold run_fun_exec. destruct (C86_program _ T H2) as [(v & E & Hv)|[E|E]]; rewrite E; [|now auto..]. cbn [bind]. inversion Hv as [| | | | | | | | | | |t|b t Hb]; subst; [left; eauto|].
    destruct (C86_function _ T [b] H3) as [(w & E' & Hw)|E']; [|left|now auto].
    + constructor; [|constructor]. exact Hb.
    + inversion Hw; subst; eauto.
Qed.
Print Assumptions C86_functional.

(** A function written for a pattern passes the checks and gives a boolean; ... *)
Definition vm_of (s : list N) : res func := with_ere s (fun e => do n <- working_new (tree_of e); do u <- u8_new n; do t <- op_analyse u; match t with Some tab => Ok (vm_test_code u tab) | None => NoCompile end).
Example C86_function_case : (do f <- vm_of (s2l "^(a|bc*)$"); do v <- run_func f (s2l "bcc") []; Ok (accepts f, v)) = Ok (true, VBool true).
Proof. vm_compute. reflexivity. Qed.
(** ... functions that are refused and do get stuck: an unbound name, a condition that is not a boolean, a match without an arm for the second state, a body that
    can end without returning, a number of arguments that does not fit, and a local function with two parameters of one name (its argument is lost), ... *)
Definition refused_and_stuck (f : func) (T : list N) : bool := negb (accepts f) && match run_func f T [] with NoCompile => true | _ => false end.
Example C86_refused_case : map (fun f => refused_and_stuck f (s2l "a"))
  [ mkFunc [] [] TBool [] [SRet (EVar Xstate)];
    mkFunc [] [] TBool [] [SIf (ENum 1) [SRet (EBool true)] []; SRet (EBool false)];
    mkFunc [] [(LStart, None); (LNum 0, None)] TBool [] [SLet Xstate TEnum (ECon (LNum 0) None); SMatch (EVar Xstate) None [(mkPat LStart None None, None, [SRet (EBool true)])] None];
    mkFunc [] [] TBool [] [SIf (EEq ELen (ENum 0)) [SRet (EBool true)] []];
    mkFunc [] [] TBool [mkProc [(Xlist, TVec TBool)] [(Xidx, TNum)] []] [SLet Xlist (TVec TBool) EVec; SCall 0 [Xlist] []; SRet (EBool true)];
    mkFunc [] [] TBool [mkProc [(Xlist, TVec TBool)] [(Xlist, TNum)] [SSet Xlist [] (ENum 1)]] [SLet Xlist (TVec TBool) EVec; SCall 0 [Xlist] [ENum 0]; SRet (EIsEmpty (EVar Xlist))] ]
  = [true; true; true; true; true; true].
Proof. vm_compute. reflexivity. Qed.
(** ... and an accepted function that panics: indexing is not checked beyond literal indices. *)
Example C86_panic_case : let f := mkFunc [] [] TBool [] [SLet Xlist (TArr TBool 2) (ERep (EBool true) 2); SRet (EIdx (EVar Xlist) ELen)] in
  (accepts f, run_func f (s2l "a") [], run_func f (s2l "ab") []) = (true, Ok (VBool true), Panic).
Proof. vm_compute. reflexivity. Qed.
(** Programs of the engines meet the hypotheses: the state machine, functions inside fixed offsets, the DFA, both lockstep engines. *)
Example C86_programs_case : ((do p <- gen_vm (s2l "^(a|bc*)$"); Ok (option_map pg_ok p)), (do p <- gen_regex (s2l "^(a|b)c$"); Ok (pg_ok p)), (do p <- gen_regex (s2l "a(b*)c"); Ok (pg_ok p)),
  (do p <- gen_flat_u8 (s2l "a(b*)c"); Ok (pg_ok p)), (do p <- gen_flat (s2l "a(b*)c"); Ok (pg_ok p))) = (Ok (Some true), Ok true, Ok true, Ok true, Ok true).
Proof. vm_compute. reflexivity. Qed.
