(** The programs of Emit.v and EmitFn.v run with machine integers (RustW.v): the same functions, from the same lines of /repo. *)
From Verif Require Export RustW EmitFn.
Open Scope nat_scope.
Open Scope list_scope.

(** What a template is filled with; a program without and with machine integers *)
Inductive written :=
| WVm (n : nfa range) (tab : op_tables)                            (* op:368-588 *)
| WFun (n : nfa range) (tab : op_tables) (runs : list inclusion)   (* op:641-1130 *)
| WDfa (d : tdfa) (m : dfa)                                        (* dfa:37-322 *)
| WByte (n : nfa range) (tbl : list (list eprop))                  (* flat:109-664 *)
| WChar (n : nfa atom) (tbl : list (list eprop))                   (* char:109-650 *)
| WFixed (g : nat) (offs : bounds) (w : written).                  (* fo:81-100 *)
Fixpoint program_of (w : written) : program :=
  match w with
  | WVm n tab => vm_program n tab
  | WFun n tab runs => fun_program n tab runs
  | WDfa d m => dfa_program d m
  | WByte n tbl => byte_program n tbl
  | WChar n tbl => char_program n tbl
  | WFixed g offs w => fixed_program g offs (program_of w)
  end.
(** [let captures = f(text)?;] and the rest, dfa:238-251 and op:1103-1121 *)
Definition then_outer (over : nat -> nat -> res val) (top : nat) (outer : func) (text : list N) (r : res val) : res val :=
  do v <- r;
  match v with
  | VOpt (Some b) => run_funcw over top outer text [b]
  | VOpt None => Ok (VOpt None)
  | _ => NoCompile
  end.
Fixpoint machine_test (over : nat -> nat -> res val) (top : nat) (w : written) (text : list N) : res val :=
  match w with
  | WVm n tab => run_funcw over top (vm_test_code n tab) text []
  | WFun n tab runs => run_progw over top text (fun_test_prog n tab runs)
  | WDfa d m => run_funcw over top (dfa_test_code m) text []
  | WByte n tbl => run_funcw over top (byte_test_code n tbl) text []
  | WChar n tbl => run_funcw over top (char_test_code n tbl) text []
  | WFixed _ _ w => machine_test over top w text
  end.
Definition machine_exec (over : nat -> nat -> res val) (top : nat) (w : written) (text : list N) : res val :=
  match w with
  | WVm n tab => run_funcw over top (vm_exec_code n tab) text []
  | WFun n tab runs => then_outer over top (fun_outer_code (num_capture_groups n)) text (run_progw over top text (fun_exec_prog n tab runs))
  | WDfa d m => then_outer over top (tdfa_outer_code d) text (run_funcw over top (tdfa_inner_code d) text [])
  | WByte n tbl => run_funcw over top (byte_exec_code n tbl) text []
  | WChar n tbl => run_funcw over top (char_exec_code n tbl) text []
  | WFixed g offs w => do v <- machine_test over top w text; run_funcw over top (fixed_code g offs) text [v]
  end.
