(** What the macros write: the [quote!] templates of the vm-like one-pass engine
    ([ere-core/src/engines/one_pass_u8.rs], "op:"), of the DFA engine ([dfa_u8.rs], "dfa:") and of the
    lockstep engines ([flat_lockstep_nfa_u8.rs], "flat:", and [flat_lockstep_nfa.rs], "char:"), as syntax
    of [Rust]. *)
From Verif Require Export Rust OnePass Dfa.
Open Scope nat_scope.
Open Scope list_scope.

Definition arm := (pat * option rexp * list stmt)%type.
(** [(usize, usize)] and [[(usize, usize); g]] *)
Definition t_pair : ty := TPair TNum TNum.
Definition t_bounds (g : nat) : ty := TArr t_pair g.
(** [Option<[Option<&str>; g]>] *)
Definition t_result (g : nat) : ty := TOpt (TArr (TOpt TStr) g).
(** [[(usize::MAX, usize::MAX); g]] *)
Definition e_bounds (g : nat) : rexp := ERep (EPair EMax EMax) g.
(** [x…[k].0 = e;] for [StartCapture], [.1] for [EndCapture]: op:452-463, op:494-505, dfa:187-194, dfa:302-313,
    flat:644-651 *)
Definition set_tag (x : var) (p : list access) (e : rexp) (t : tag) : stmt :=
  match t with
  | TagS k => SSet x (p ++ [AIdx (ENum k); AField false]) e
  | TagE k => SSet x (p ++ [AIdx (ENum k); AField true]) e
  end.
(** The end of every [exec]: op:573-584, dfa:239-250, flat:611-622.  [out] is the array of substrings. *)
Definition finish_code (out : var) (g : nat) (a : rexp) : list stmt :=
  [SLet out (TArr (TOpt TStr) g) (ERep ENothing g);
   SFor (IPairs a)
     [SIf (ENot (EEq (EVar Xstart) EMax))
        [SAssert (ENot (EEq (EVar Xend) EMax));
         SSet out [AIdx (EVar Xi)] (EGet (EVar Xstart) (EVar Xend));
         SAssert (EIsSome (EIdx (EVar out) (EVar Xi)))]
        [SAssert (EEq (EVar Xend) EMax)]];
   SRet (ESome (EVar out))].
(** The states without the excluded ones *)
Definition kept {X} (ex : list bool) (l : list X) : list (nat * X) :=
  filter (fun p => negb (nth (fst p) ex true)) (enumerate l).

(** ** The vm-like one-pass engine *)
(** [if i == 0], op:321-325, op:350-354, op:446-450, op:488-492 *)
Definition vm_guard (tu : tupd) : option rexp :=
  if tu_start tu then Some (EEq (EVar Xi) (ENum 0)) else None.
(** [MatchStatement::to_tokens], op:304-335 ([updates] empty) and op:429-473 *)
Definition vm_arms (updates : tupd -> list stmt) (ex : list bool) (p : nat * list strans) : list arm :=
  flat_map (fun x : strans =>
              let (r, tu) := x in
              if nth (tu_state tu) ex true then []
              else if tu_end tu then []
              else [(mkPat (LNum (fst p)) None (Some r), vm_guard tu,
                     updates tu ++ [SSet Xstate [] (ECon (LNum (tu_state tu)) None)])])
           (snd p).
(** [MatchStatementFinal::to_tokens], op:342-360 and op:479-513 *)
Definition vm_final (body : tupd -> list stmt) (p : nat * list tupd) : list arm :=
  map (fun tu => (mkPat (LNum (fst p)) None None, vm_guard tu, body tu)) (snd p).
Definition vm_enum (ex : list bool) (syms : list (list strans)) : list (label * option ty) :=
  map (fun p => (LNum (fst p), None)) (kept ex syms).
(** [TestFn::to_tokens], op:368-418 *)
Definition vm_test_code (n : nfa range) (tab : op_tables) : func :=
  let ex := op_excluded n in
  mkFunc [] (vm_enum ex (op_syms tab)) TBool []
    [SLet Xstate TEnum (ECon (LNum 0) None);
     SFor IEnum [SMatch (EVar Xstate) (Some (EVar Xc))
                   (flat_map (vm_arms (fun _ => []) ex) (kept ex (op_syms tab))) (Some [SRet (EBool false)])];
     SMatch (EVar Xstate) None (flat_map (vm_final (fun _ => [SRet (EBool true)])) (kept ex (op_accs tab)))
            (Some [SRet (EBool false)])].
(** [ExecFn::to_tokens], op:522-588 *)
Definition vm_exec_code (n : nfa range) (tab : op_tables) : func :=
  let ex := op_excluded n in
  let g := num_capture_groups n in
  mkFunc [] (vm_enum ex (op_syms tab)) (t_result g) []
    ([SLet Xstate TEnum (ECon (LNum 0) None);
      SLet Xcaptures (t_bounds g) (e_bounds g);
      SFor IEnum [SMatch (EVar Xstate) (Some (EVar Xc))
                    (flat_map (vm_arms (fun tu => map (set_tag Xcaptures [] (EVar Xi)) (tu_tags tu)) ex) (kept ex (op_syms tab)))
                    (Some [SRet ENothing])];
      SMatch (EVar Xstate) None
             (flat_map (vm_final (fun tu => map (set_tag Xcaptures [] ELen) (tu_tags tu))) (kept ex (op_accs tab)))
             (Some [SRet ENothing])]
     ++ finish_code Xcapture_strs g (EVar Xcaptures)).

(** ** The DFA engine *)
(** The states in the order of the templates, dfa:57-75, dfa:163-169 *)
Definition numbered {X} (l : list X) (start : X) : list (label * X) :=
  map (fun p => (LNum (fst p), snd p)) (enumerate l) ++ [(LStart, start)].
(** [NormalStateSymbolMatchStatements], dfa:103-140 *)
Definition dfa_arms (p : label * dstate) : list arm :=
  match ds_acc (snd p) with
  | DAlways => [(mkPat (fst p) None None, None, [SRet (EBool true)])]
  | _ => map (fun t => (mkPat (fst p) None (Some (snd t)), None, [SSet Xstate [] (ECon (LNum (fst t)) None)]))
             (ds_trans (snd p))
  end.
(** [TestFn::to_tokens], dfa:37-101 *)
Definition dfa_test_code (d : dfa) : func :=
  match ds_acc (d_start d) with
  | DAlways => mkFunc [] [] TBool [] [SRet (EBool true)]
  | _ =>
      mkFunc [] ((LStart, None) :: map (fun p => (LNum (fst p), None)) (enumerate (d_states d))) TBool []
        [SLet Xstate TEnum (ECon LStart None);
         SFor IBytes [SMatch (EVar Xstate) (Some (EVar Xc))
                        (flat_map dfa_arms (numbered (d_states d) (d_start d))) (Some [SRet (EBool false)])];
         SMatch (EVar Xstate) None
           (map (fun p => (mkPat (fst p) None None, None,
                           [SRet (EBool (match ds_acc (snd p) with DNone => false | _ => true end))]))
                (numbered (d_states d) (d_start d))) None]
  end.
(** The payload of the variant of a state with [k] NFA states, dfa:213-219 *)
Definition t_tags (g k : nat) : ty := TArr (t_bounds g) k.
(** [NormalTransitionMatchStatement], dfa:290-322 *)
Definition tdfa_arm (g : nat) (from : label) (t : ttrans) : arm :=
  (mkPat from (Some Xold_tags) (Some (tt_sym t)), None,
   [SLet Xnew_tags (t_tags g (length (tt_copy t))) (EArr (map (fun k => EIdx (EVar Xold_tags) (ENum k)) (tt_copy t)))]
   ++ map (fun x => set_tag Xnew_tags [AIdx (ENum (fst x))] (EVar Xi) (snd x)) (tt_add t)
   ++ [SSet Xstate [] (ECon (LNum (tt_to t)) (Some (EVar Xnew_tags)))]).
(** dfa:171-201, dfa:232-234 *)
Definition tdfa_final (g : nat) (p : label * tstate) : arm :=
  (mkPat (fst p) (Some Xold_tags) None, None,
   match ts_acc (snd p) with
   | ANone => [SRet ENothing]
   | AAnch a | ABoth a _ | AUnan a =>
       [SLet Xnew_tags (t_bounds g) (EIdx (EVar Xold_tags) (ENum (at_state a)))]
       ++ map (set_tag Xnew_tags [] ELen) (at_tags a)
       ++ [SRet (ESome (EVar Xnew_tags))]
   end).
(** [exec_inner], dfa:210-236 *)
Definition tdfa_inner_code (d : tdfa) : func :=
  let g := tdfa_groups d in
  mkFunc [] ((LStart, Some (t_tags g 1))
             :: map (fun p => (LNum (fst p), Some (t_tags g (length (ts_nfa (snd p)))))) (enumerate (td_states d)))
    (TOpt (t_bounds g)) []
    [SLet Xstate TEnum (ECon LStart (Some (ERep (e_bounds g) 1)));
     SFor IEnum [SMatch (EVar Xstate) (Some (EVar Xc))
                   (flat_map (fun p => map (tdfa_arm g (fst p)) (ts_trans (snd p))) (numbered (td_states d) (td_start d)))
                   (Some [SRet ENothing])];
     SMatch (EVar Xstate) None (map (tdfa_final g) (numbered (td_states d) (td_start d))) None].
(** The rest of [exec], dfa:238-251, after [let captures = exec_inner(text)?;] *)
Definition tdfa_outer_code (d : tdfa) : func :=
  let g := tdfa_groups d in
  mkFunc [(Xcaptures, t_bounds g)] [] (t_result g) [] (finish_code Xcapture_strs g (EVar Xcaptures)).
Definition run_tdfa_code (d : tdfa) (text : list N) : res val :=
  do v <- run_func (tdfa_inner_code d) text [];
  match v with
  | VOpt (Some b) => run_func (tdfa_outer_code d) text [b]
  | VOpt None => Ok (VOpt None)
  | _ => NoCompile
  end.

(** ** The lockstep engines *)
(** [#start <= c && c <= #end], flat:119, flat:361 *)
Definition in_code (r : range) : rexp :=
  EAnd (ELe (EByte (fst r)) (EVar Xc)) (ELe (EVar Xc) (EByte (snd r))).
(** [let symbol = #symbol; .. symbol.check(c)], char:116-117, char:348-349 *)
Definition check_code (a : atom) : rexp := ECheck a (EVar Xc).
(** The four groups of propagations of one state, flat:218-229, flat:469-480 *)
Definition groups_code (up : eprop -> stmt) (l : list eprop) : list stmt :=
  [SIf (EAnd (EVar Xis_start) (EVar Xis_end)) (map up (filter (fun p => ep_start p && ep_end p) l)) [];
   SIf (EVar Xis_start) (map up (filter (fun p => ep_start p && negb (ep_end p)) l)) [];
   SIf (EVar Xis_end) (map up (filter (fun p => negb (ep_start p) && ep_end p) l)) []]
  ++ map up (filter (fun p => negb (ep_start p) && negb (ep_end p)) l).
(** flat:282-283, flat:537-538 *)
Definition is_code : list stmt :=
  [SLet Xis_start TBool (EEq (EVar Xidx) (ENum 0)); SLet Xis_end TBool (EEq (EVar Xidx) (EVar Xlen))].
Definition flat_enum (ex : list bool) : list (label * option ty) :=
  map (fun p => (LNum (fst p), None)) (kept ex ex).
(** [Thread<g, VMStates>], flat:17-21 *)
Definition t_thread (g : nat) : ty := TPair TEnum (t_bounds g).
(** [serialize_thread_update_test], flat:632-637 *)
Definition mark_code (p : eprop) : stmt := SSet Xlist [AIdx (ENum (ep_state p))] (EBool true).
(** [serialize_thread_update_exec], flat:640-664 *)
Definition push_code (g : nat) (p : eprop) : stmt :=
  SIf (ENot (EIdx (EVar Xoccupied) (ENum (ep_state p))))
    ([SLet Xnew_thread (t_thread g) (EVar Xthread);
      SSet Xnew_thread [AField false] (ECon (LNum (ep_state p)) None)]
     ++ map (set_tag Xnew_thread [AField true] (EVar Xidx)) (ep_tags p)
     ++ [SPush Xnew_threads (EVar Xnew_thread);
         SSet Xoccupied [AIdx (ENum (ep_state p))] (EBool true)]) [].
(** The two engines differ in the test of a symbol, the type of [c], the iterator and the next index. *)
Section Lockstep.
  Context {A : Type}.
  Variable sym_code : A -> rexp.
  Variable t_sym : ty.
  Variable it : iter.
  Variable next : rexp.
  (** [transition_symbols_test], flat:109-176 *)
  Definition sym_test_proc (n : nfa A) : proc :=
    mkProc [(Xlist, TVec TBool); (Xnew_list, TVec TBool)] [(Xc, t_sym)]
      (map (fun p => SIf (EIdx (EVar Xlist) (ENum (fst p)))
                       (map (fun t => SIf (sym_code (snd t)) [SSet Xnew_list [AIdx (ENum (fst t))] (EBool true)] [])
                            (trans (snd p))) [])
           (kept (flat_excluded n) n)).
  (** [transition_epsilons_test], flat:178-289 *)
  Definition eps_test_proc (n : nfa A) (tbl : list (list eprop)) : proc :=
    mkProc [(Xlist, TVec TBool)] [(Xidx, TNum); (Xlen, TNum)]
      (is_code
       ++ map (fun p => SIf (EIdx (EVar Xlist) (ENum (fst p))) (groups_code mark_code (snd p)) [])
              (kept (flat_excluded n) tbl)).
  (** [TestFn::to_tokens], flat:291-344 *)
  Definition flat_test_code (n : nfa A) (tbl : list (list eprop)) : func :=
    let k := length n in
    mkFunc [] (flat_enum (flat_excluded n)) TBool [sym_test_proc n; eps_test_proc n tbl]
      [SLet Xlist (TArr TBool k) (ERep (EBool false) k);
       SLet Xnew_list (TArr TBool k) (ERep (EBool false) k);
       SSet Xlist [AIdx (ENum 0)] (EBool true);
       SCall 1 [Xlist] [ENum 0; ELen];
       SFor it
         [SCall 0 [Xlist; Xnew_list] [EVar Xc];
          SIf (EAllNot (EVar Xnew_list)) [SRet (EBool false)] [];
          SSwap Xlist Xnew_list;
          SCall 1 [Xlist] [next; ELen];
          SFill Xnew_list];
       SRet (EIdx (EVar Xlist) (ENum (k - 1)))].
  (** [transition_symbols_exec], flat:350-432 *)
  Definition sym_exec_proc (n : nfa A) : proc :=
    let g := num_capture_groups n in
    mkProc [(Xthreads, TVec (t_thread g)); (Xnew_threads, TVec (t_thread g))] [(Xc, t_sym)]
      [SFor (IEach Xthread (EVar Xthreads))
         [SMatch (EField false (EVar Xthread)) None
            (map (fun p => (mkPat (LNum (fst p)) None None, None,
                            map (fun t => SIf (sym_code (snd t))
                                            [SPush Xnew_threads (EPair (ECon (LNum (fst t)) None) (EField true (EVar Xthread)))] [])
                                (trans (snd p))))
                 (kept (flat_excluded n) n)) None]].
  (** [transition_epsilons_exec], flat:434-550 *)
  Definition eps_exec_proc (n : nfa A) (tbl : list (list eprop)) : proc :=
    let g := num_capture_groups n in
    mkProc [(Xthreads, TVec (t_thread g)); (Xnew_threads, TVec (t_thread g))] [(Xidx, TNum); (Xlen, TNum)]
      (is_code
       ++ [SLet Xoccupied (TVec TBool) (ERep (EBool false) (length n));
           SFor (IEach Xthread (EVar Xthreads))
             [SMatch (EField false (EVar Xthread)) None
                (map (fun p => (mkPat (LNum (fst p)) None None, None, groups_code (push_code g) (snd p)))
                     (kept (flat_excluded n) tbl)) None]]).
  (** [ExecFn::to_tokens], flat:552-626 *)
  Definition flat_exec_code (n : nfa A) (tbl : list (list eprop)) : func :=
    let g := num_capture_groups n in
    mkFunc [] (flat_enum (flat_excluded n)) (t_result g) [sym_exec_proc n; eps_exec_proc n tbl]
      ([SLet Xthreads (TVec (t_thread g)) EVec;
        SLet Xnew_threads (TVec (t_thread g)) EVec;
        SPush Xthreads (EPair (ECon (LNum 0) None) (e_bounds g));
        SCall 1 [Xthreads; Xnew_threads] [ENum 0; ELen];
        SSwap Xthreads Xnew_threads;
        SFor it
          [SClear Xnew_threads;
           SCall 0 [Xthreads; Xnew_threads] [EVar Xc];
           SSwap Xthreads Xnew_threads;
           SClear Xnew_threads;
           SCall 1 [Xthreads; Xnew_threads] [next; ELen];
           SSwap Xthreads Xnew_threads;
           SIf (EIsEmpty (EVar Xthreads)) [SRet ENothing] []];
        STry Xbounds (t_thread g) (EFind (EVar Xthreads) (LNum (length n - 1)))]
       ++ finish_code Xcaptures g (EField true (EVar Xbounds))).
End Lockstep.
(** [text.bytes().enumerate()], [i + 1], flat:328-334, flat:594-600 *)
Definition byte_test_code := flat_test_code in_code TByte IEnum (ESucc (EVar Xi)).
Definition byte_exec_code := flat_exec_code in_code TByte IEnum (ESucc (EVar Xi)).
(** [text.char_indices()], [i + c.len_utf8()], char:316-322, char:580-586 *)
Definition char_test_code := flat_test_code check_code TChar IChars (EWidth (EVar Xi) (EVar Xc)).
Definition char_exec_code := flat_exec_code check_code TChar IChars (EWidth (EVar Xi) (EVar Xc)).

(** ** Values of the model as values of the program *)
Definition enc_num (o : option nat) : val := match o with Some n => VNum n | None => VMax end.
Definition enc_pair (p : option nat * option nat) : val := VPair (enc_num (fst p)) (enc_num (snd p)).
Definition enc_bounds (b : bounds) : val := VArr (map enc_pair b).
Definition enc_result (o : option (list (option span))) : val :=
  VOpt (option_map (fun l => VArr (map (fun o => VOpt (option_map VStr o)) l)) o).

(** ** The programs of the macros *)
(** The two functions of an engine: the [N] in [Option<[Option<&str>; N]>], the result of [exec], whether the compiler accepts them, and what calling them gives *)
Record program := mkProgram { pg_groups : nat; pg_ok : bool; pg_test : list N -> res val; pg_exec : list N -> res val }.
Definition vm_program (n : nfa range) (tab : op_tables) : program :=
  mkProgram (num_capture_groups n) (accepts (vm_test_code n tab) && accepts (vm_exec_code n tab))
            (fun text => run_func (vm_test_code n tab) text []) (fun text => run_func (vm_exec_code n tab) text []).
Definition dfa_program (d : tdfa) (m : dfa) : program :=
  mkProgram (tdfa_groups d) (accepts (dfa_test_code m) && (accepts (tdfa_inner_code d) && accepts (tdfa_outer_code d)))
            (fun text => run_func (dfa_test_code m) text []) (run_tdfa_code d).
Definition byte_program (n : nfa range) (tbl : list (list eprop)) : program :=
  mkProgram (num_capture_groups n) (accepts (byte_test_code n tbl) && accepts (byte_exec_code n tbl))
            (fun text => run_func (byte_test_code n tbl) text []) (fun text => run_func (byte_exec_code n tbl) text []).
Definition char_program (n : nfa atom) (tbl : list (list eprop)) : program :=
  mkProgram (num_capture_groups n) (accepts (char_test_code n tbl) && accepts (char_exec_code n tbl))
            (fun text => run_func (char_test_code n tbl) text []) (fun text => run_func (char_exec_code n tbl) text []).
