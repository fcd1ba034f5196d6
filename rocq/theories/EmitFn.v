(** What the macros write for the functional one-pass engine ([ere-core/src/engines/one_pass_u8.rs], "op:") and for
    fixed offsets ([fixed_offset.rs], "fo:"). *)
From Verif Require Export RustFn Emit FixedOffset.
Open Scope nat_scope.
Open Scope list_scope.

(** ** Runs *)
(** [(#lower <= run_part[#i]) & (run_part[#i] <= #upper)], op:662-668, op:828-834 *)
Definition run_conditions (rs : list range) : list rexp :=
  flat_map (fun p : nat * range =>
              let x := EIdx (EVar Xrun_part) (ENum (fst p)) in
              [ELe (EByte (fst (snd p))) x; ELe x (EByte (snd (snd p)))]) (enumerate rs).
(** [let result = #(#conditions)&*;], op:675, op:855 *)
Definition run_result (rs : list range) : list fstmt :=
  match run_conditions rs with
  | [] => [FError]
  | c :: r => [FS (SLet Xresult TBool (fold_left EBoth r c))]
  end.
Definition test_args : list (var * ty) := [(Xbytes, TVec TByte); (Xstart, TBool)].
Definition exec_args (g : nat) : list (var * ty) := [(Xbytes, TVec TByte); (Xbyte_idx, TNum); (Xcaptures, t_bounds g); (Xstart, TBool)].
(** [functional_test::StateFnWithRun], op:648-682 *)
Definition test_run_code (s : nat) (r : run) : sfun :=
  mkSfun s test_args
    ([FSplit (length (run_symbols r)) [FS (SRet (EBool false))]]
     ++ run_result (run_symbols r)
     ++ [FIf (EVar Xresult) [FGo (run_end r) [EVar Xrest; EBool false]] [FS (SRet (EBool false))]]).
(** [functional_exec::StateFnWithRun], op:808-864 *)
Definition exec_run_code (g s : nat) (r : run) : sfun :=
  mkSfun s (exec_args g)
    ([FSplit (length (run_symbols r)) [FS (SRet ENothing)]]
     ++ run_result (run_symbols r)
     ++ [FIf (ENot (EVar Xresult)) [FS (SRet ENothing)] []]
     ++ map (fun t => FS (set_tag Xcaptures [] (EPlus (ENum (fst t)) (EVar Xbyte_idx)) (snd t))) (run_tags r)
     ++ [FGo (run_end r) [EVar Xrest; EPlus (EVar Xbyte_idx) (ENum (length (run_symbols r))); EVar Xcaptures; EBool false]]).

(** ** Other states *)
(** The guard of an arm, op:719-728, op:945-954 *)
Definition fun_guard (s : nat) (tu : tupd) : option rexp :=
  if tu_end tu || (tu_start tu && negb (s =? 0)) then Some (EBool false)
  else if tu_start tu && (s =? 0) then Some (EVar Xstart)
  else None.
(** The end case of [test], op:699-712 *)
Definition test_end (s : nat) (accs : list tupd) : rexp :=
  match accs with
  | [] => EBool false
  | _ => if existsb (fun tu => negb (tu_start tu)) accs then EBool true
         else if s =? 0 then EVar Xstart else EBool false
  end.
(** [functional_test::StateFnNormal], op:687-747 *)
Definition test_state_code (s : nat) (accs : list tupd) (syms : list strans) : sfun :=
  mkSfun s test_args
    [FNext [FS (SRet (test_end s accs))]
       (map (fun x => (fst x, fun_guard s (snd x), [FGo (tu_state (snd x)) [EVar Xbytes; EBool false]])) syms)
       [FS (SRet (EBool false))]].
(** [make_capture_statements], op:884-909 *)
Definition capture_code (tu : tupd) : list fstmt := map (fun t => FS (set_tag Xcaptures [] (EVar Xbyte_idx) t)) (tu_tags tu).
(** The end case of [exec], op:911-939 *)
Definition exec_end (s : nat) (accs : list tupd) : list fstmt :=
  match accs with
  | [] => [FS (SRet ENothing)]
  | [tu] => if tu_start tu && (s =? 0)
            then capture_code tu ++ [FIf (EVar Xstart) [FS (SRet (ESome (EVar Xcaptures)))] [FS (SRet ENothing)]]
            else if tu_start tu && negb (s =? 0) then [FS (SRet ENothing)]
            else capture_code tu ++ [FS (SRet (ESome (EVar Xcaptures)))]
  | _ => [FError]
  end.
(** [functional_exec::StateFnNormal], op:870-983 *)
Definition exec_state_code (g s : nat) (accs : list tupd) (syms : list strans) : sfun :=
  mkSfun s (exec_args g)
    [FNext (exec_end s accs)
       (map (fun x => (fst x, fun_guard s (snd x),
                       capture_code (snd x)
                       ++ [FGo (tu_state (snd x)) [EVar Xbytes; ESucc (EVar Xbyte_idx); EVar Xcaptures; EBool false]])) syms)
       [FS (SRet ENothing)]].

(** ** [codegen_functional] *)
(** The functions written, op:1061-1076, op:1084-1101 *)
Definition state_funs (ex : list bool) (runs : list inclusion) (with_run : nat -> run -> sfun) (normal : nat -> sfun) : list sfun :=
  flat_map (fun p : nat * inclusion =>
              match snd p with
              | RStart r => [with_run (fst p) r]
              | RInternal => []
              | REnd | RNone => [normal (fst p)]
              end) (kept ex runs).
(** op:1061-1082 *)
Definition fun_test_prog (n : nfa range) (tab : op_tables) (runs : list inclusion) : prog :=
  mkProg (state_funs (op_excluded n) runs test_run_code
            (fun s => test_state_code s (nth s (op_accs tab) []) (nth s (op_syms tab) [])))
    TBool [FGo 0 [EBytes; EBool true]].
(** op:1084-1107, up to [let captures = func_state_0(..)] *)
Definition fun_exec_prog (n : nfa range) (tab : op_tables) (runs : list inclusion) : prog :=
  let g := num_capture_groups n in
  mkProg (state_funs (op_excluded n) runs (exec_run_code g)
            (fun s => exec_state_code g s (nth s (op_accs tab) []) (nth s (op_syms tab) [])))
    (TOpt (t_bounds g))
    [FS (SLet Xcaptures (t_bounds g) (e_bounds g)); FGo 0 [EBytes; ENum 0; EVar Xcaptures; EBool true]].
(** op:1109-1121 *)
Definition fun_outer_code (g : nat) : func :=
  mkFunc [(Xcaptures, t_bounds g)] [] (t_result g) [] (finish_code Xcapture_strs g (EVar Xcaptures)).
(** [let captures = func_state_0(..)?;] and the rest *)
Definition run_fun_exec (n : nfa range) (tab : op_tables) (runs : list inclusion) (text : list N) : res val :=
  do v <- run_prog text (fun_exec_prog n tab runs);
  match v with
  | VOpt (Some b) => run_func (fun_outer_code (num_capture_groups n)) text [b]
  | VOpt None => Ok (VOpt None)
  | _ => NoCompile
  end.
Definition fun_program (n : nfa range) (tab : op_tables) (runs : list inclusion) : program :=
  mkProgram (num_capture_groups n) (accepts_prog (fun_test_prog n tab runs) && (accepts_prog (fun_exec_prog n tab runs) && accepts (fun_outer_code (num_capture_groups n))))
            (fun text => run_prog text (fun_test_prog n tab runs)) (run_fun_exec n tab runs).

(** ** [fixed_offset] *)
(** fo:81-86 *)
Definition fixed_part (p : option nat * option nat) : rexp :=
  match p with
  | (Some s, Some e) => ESome (ESlice (ENum s) (ENum e))
  | _ => ENothing
  end.
(** fo:88-100; [Xmatched] is the value of [(TEST_FN)(text)] *)
Definition fixed_code (g : nat) (offs : bounds) : func :=
  mkFunc [(Xmatched, TBool)] [] (t_result g) []
    [SIf (ENot (EVar Xmatched)) [SRet ENothing] []; SRet (ESome (EArr (map fixed_part offs)))].
Definition fixed_program (g : nat) (offs : bounds) (inner : program) : program :=
  mkProgram g (pg_ok inner && accepts (fixed_code g offs)) (pg_test inner)
            (fun text => do v <- pg_test inner text; run_func (fixed_code g offs) text [v]).
