(** How much code a macro writes: the number of nodes of its syntax, and the number of entries of the tables the
    templates are filled with. *)
From Verif Require Export EmitW SpecSize.
Open Scope nat_scope.
Open Scope list_scope.

(** ** Nodes of the syntax *)
(** Names, numbers and literals count 1, an atom written out one more than the number of its terms. *)
Definition terms (a : atom) : nat :=
  match a with NormalChar _ | Dot => 1 | MatchingList l | NonmatchingList l => S (length l) end.
Fixpoint esize (a : rexp) : nat :=
  match a with
  | EVar _ | EBool _ | ENum _ | EMax | EByte _ | ELen | EVec | ENothing | EBytes | ECon _ None => 1
  | ECon _ (Some a) | EField _ a | ERep a _ | ESome a | ENot a | ESucc a | EIsSome a | EAllNot a | EIsEmpty a
  | EExpect a | EFind a _ => S (esize a)
  | EIdx a b | EPair a b | EEq a b | EAnd a b | ELe a b | EWidth a b | EGet a b | EPlus a b | EBoth a b | ESlice a b =>
      S (esize a + esize b)
  | EArr l => S (list_sum (map esize l))
  | ECheck s a => S (terms s + esize a)
  end.
Definition osize (o : option rexp) : nat := match o with Some a => esize a | None => 0 end.
Definition asize (a : access) : nat := match a with AIdx k => S (esize k) | AField _ => 1 end.
Definition isize (it : Rust.iter) : nat := match it with IEach _ a | IPairs a => S (esize a) | _ => 1 end.
Fixpoint ssize (s : stmt) : nat :=
  match s with
  | SLet _ _ a | STry _ _ a | SRet a | SAssert a | SPush _ a => S (esize a)
  | SSet _ p a => S (list_sum (map asize p) + esize a)
  | SIf a l m => S (esize a + list_sum (map ssize l) + list_sum (map ssize m))
  | SFor it l => S (isize it + list_sum (map ssize l))
  | SMatch a c arms other =>
      S (esize a + osize c
         + list_sum (map (fun x => S (osize (snd (fst x)) + list_sum (map ssize (snd x)))) arms)
         + match other with Some l => list_sum (map ssize l) | None => 0 end)
  | SClear _ | SFill _ | SSwap _ _ => 1
  | SCall _ refs vals => S (length refs + list_sum (map esize vals))
  end.
Definition stmts (l : list stmt) : nat := list_sum (map ssize l).
Fixpoint fsize (s : fstmt) : nat :=
  match s with
  | FS s => ssize s
  | FIf a l m => S (esize a + list_sum (map fsize l) + list_sum (map fsize m))
  | FSplit _ l => S (list_sum (map fsize l))
  | FNext none arms other =>
      S (list_sum (map fsize none)
         + list_sum (map (fun x => S (osize (snd (fst x)) + list_sum (map fsize (snd x)))) arms)
         + list_sum (map fsize other))
  | FGo _ args => S (list_sum (map esize args))
  | FError => 1
  end.
Definition fstmts (l : list fstmt) : nat := list_sum (map fsize l).
(** Functions, with the variants of the enum *)
Definition func_size (f : func) : nat :=
  S (length (f_enum f) + list_sum (map (fun p => S (stmts (pr_body p))) (f_procs f)) + stmts (f_body f)).
Definition prog_size (p : prog) : nat :=
  S (list_sum (map (fun f => S (fstmts (sf_body f))) (g_states p)) + fstmts (g_body p)).
Fixpoint code_size (w : written) : nat :=
  match w with
  | WVm n tab => func_size (vm_test_code n tab) + func_size (vm_exec_code n tab)
  | WFun n tab runs => prog_size (fun_test_prog n tab runs) + prog_size (fun_exec_prog n tab runs) + func_size (fun_outer_code (num_capture_groups n))
  | WDfa d m => func_size (dfa_test_code m) + func_size (tdfa_inner_code d) + func_size (tdfa_outer_code d)
  | WByte n tbl => func_size (byte_test_code n tbl) + func_size (byte_exec_code n tbl)
  | WChar n tbl => func_size (char_test_code n tbl) + func_size (char_exec_code n tbl)
  | WFixed g offs w => code_size w + func_size (fixed_code g offs)
  end.

(** ** Entries of the tables *)
Definition sym_weight (row : list strans) : nat := list_sum (map (fun x => S (length (tu_tags (snd x)))) row).
Definition acc_weight (row : list tupd) : nat := list_sum (map (fun tu => S (length (tu_tags tu))) row).
Definition op_entries (tab : op_tables) : nat :=
  length (op_syms tab) + list_sum (map sym_weight (op_syms tab)) + list_sum (map acc_weight (op_accs tab)).
Definition run_entries (i : inclusion) : nat :=
  S (match i with RStart r => length (run_symbols r) + length (run_tags r) | _ => 0 end).
Definition acc_entries (a : tacc) : nat :=
  match a with AAnch a | ABoth a _ | AUnan a => length (at_tags a) | ANone => 0 end.
Definition td_entries (s : tstate) : nat :=
  S (list_sum (map (fun t => S (length (tt_copy t) + length (tt_add t))) (ts_trans s)) + acc_entries (ts_acc s)).
Definition d_entries (s : dstate) : nat := S (length (ds_trans s)).
Definition row_entries (row : list eprop) : nat := S (list_sum (map (fun p => S (length (ep_tags p))) row)).
Definition nfa_entries {A} (f : A -> nat) (n : nfa A) : nat :=
  list_sum (map (fun s => S (list_sum (map (fun t => f (snd t)) (trans s)))) n).
Fixpoint entries (w : written) : nat :=
  match w with
  | WVm n tab => op_entries tab
  | WFun n tab runs => op_entries tab + list_sum (map run_entries runs)
  | WDfa d m => list_sum (map td_entries (td_start d :: td_states d)) + list_sum (map d_entries (d_start m :: d_states m))
  | WByte n tbl => nfa_entries (fun _ => 1) n + list_sum (map row_entries tbl)
  | WChar n tbl => nfa_entries terms n + list_sum (map row_entries tbl)
  | WFixed _ offs w => S (length offs + entries w)
  end.

(** ** Bounds, for [k] states and [g] groups *)
(** Polynomial in [k] and [g] *)
Definition dfa_bound (k g : nat) : nat := S (Nat.max 100 (2 * k)) * (514 * (S k * (1 + 2 * S g))).
(** Polynomial in [k] once [g] is given; [arrangements] (SpecSize.v) is the number of lists without repetitions *)
Definition lockstep_bound (k g : nat) : nat := k * S (4 * k * arrangements (2 * g) * S (2 * g)).
