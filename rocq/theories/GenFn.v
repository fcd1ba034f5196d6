(** From a pattern to the program each macro generates for it, all engines; as in Gen.v, no check is made here on
    whether the program compiles.  Models the same lines of [ere-core/src/lib.rs] as the [compile_*] functions of Pick.v. *)
From Verif Require Export Gen EmitFn.
Open Scope nat_scope.
Open Scope list_scope.

(** [serialize_one_pass_token_stream], one_pass_u8.rs:50-138; [None] if the automaton is not one-pass *)
Definition write_one_pass (u : nfa range) : res (option program) :=
  do _ <- guard (wfb u && tu_tags_ok u);
  do t <- op_analyse u;
  match t with
  | None => Ok None
  | Some tab =>
      do o <- topological_ordering u;
      match o with
      | Some _ => do runs <- compute_runs (op_syms tab); Ok (Some (fun_program u tab runs))
      | None => Ok (Some (vm_program u tab))
      end
  end.
(** [serialize_dfa_u8_token_stream] *)
Definition write_dfa (d : tdfa) : res program := do m <- dfa_from_tagged d; Ok (dfa_program d m).
(** [serialize_flat_lockstep_nfa_u8_token_stream] *)
Definition write_flat_u8 (u : nfa range) : res program :=
  do _ <- guard (wfb u && (1 <=? length u)); do tbl <- flat_table u; Ok (byte_program u tbl).
(** [serialize_flat_lockstep_nfa_token_stream] *)
Definition write_flat (n : nfa atom) : res program :=
  do _ <- guard (wfb n && (1 <=? length n)); do tbl <- flat_table n; Ok (char_program n tbl).
(** [pick_base_engine], 60-113 *)
Definition write_base (e : ere) : res (program * nfa range) :=
  do n <- working_new (tree_of e);
  do u <- u8_new n;
  do op <- write_one_pass u;
  match op with
  | Some p => Ok (p, u)
  | None =>
      do d <- tdfa_from_nfa u (default_bound (length u));
      match d with
      | Some d => do p <- write_dfa d; Ok (p, u)
      | None => do p <- (if nfa_is_ascii n then write_flat_u8 u else write_flat n); Ok (p, u)
      end
  end.
(** [pick_engine], 118-141 *)
Definition write_engine (e : ere) : res program :=
  do r <- write_base e;
  let '(b, u) := r in
  do o <- fixed_offsets u;
  match o with
  | Some offs => Ok (fixed_program (num_capture_groups u) offs b)
  | None => Ok b
  end.
(** [__compile_regex], 143-152 *)
Definition gen_regex (s : list N) : res program := with_ere s write_engine.
(** [__compile_regex_engine_one_pass_u8], 209-228; [NoCompile] stands for the error the macro itself reports *)
Definition gen_one_pass (s : list N) : res program :=
  with_ere s (fun e =>
    do n <- working_new (tree_of e); do u <- u8_new n;
    do p <- write_one_pass u;
    match p with Some p => Ok p | None => NoCompile end).
(** [__compile_regex_engine_fixed_offset], 232-253 *)
Definition gen_fixed (s : list N) : res program :=
  with_ere s (fun e =>
    do r <- write_base e;
    let '(b, u) := r in
    do o <- fixed_offsets u;
    match o with
    | Some offs => Ok (fixed_program (num_capture_groups u) offs b)
    | None => NoCompile
    end).

(** ** The attribute *)
(** [struct_args], 321-334 *)
Definition field_code (p : nat * bool) : rexp :=
  let x := EIdx (EVar Xresult) (ENum (fst p)) in if snd p then x else EExpect x.
(** Whether [#struct_name(#struct_args)] has the types of the fields of the struct, with [result] of [g] elements; 369-372 *)
Definition fields_accepted (g : nat) (opts : list bool) (types : list ty) : bool :=
  all2 (Rust.has [] [(Xresult, TArr (TOpt TStr) g)]) (map field_code (enumerate opts)) types.
(** The body of [exec], 368-373; a struct is the list of its fields *)
Definition run_fields (opts : list bool) (text : list N) (v : val) : res val :=
  match v with
  | VOpt (Some r) => do l <- mapM (eval text [(Xresult, r)]) (map field_code (enumerate opts)); Ok (VOpt (Some (VArr l)))
  | VOpt None => Ok (VOpt None)
  | _ => NoCompile
  end.
(** [__compile_regex_attr], 256-378, on a tuple struct with fields of these types (290-300: one for each group) *)
Definition gen_attr (s : list N) (types : list ty) : res program :=
  with_ere s (fun e =>
    do n <- working_new (tree_of e);
    let g := num_capture_groups n in
    do opts <- mapM (capture_group_is_optional n) (seq 0 g);
    if negb (length types =? length opts) then NoCompile
    else do p <- write_engine e;
         Ok (mkProgram g (pg_ok p && (pg_groups p =? g) && fields_accepted g opts types) (pg_test p)
                       (fun text => do v <- pg_exec p text; run_fields opts text v))).
