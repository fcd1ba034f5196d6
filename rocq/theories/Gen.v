(** From a pattern to the program the macros generate for it; no check is made here on whether it compiles.
    Models the same lines of [ere-core/src/lib.rs] as the [compile_*] functions of Pick.v. *)
From Verif Require Export Emit Pick.
Open Scope nat_scope.
Open Scope list_scope.

(** 194-204, [serialize_flat_lockstep_nfa_u8_token_stream] *)
Definition gen_flat_u8 (s : list N) : res program :=
  with_ere s (fun e =>
    do n <- working_new (tree_of e); do u <- u8_new n;
    do _ <- guard (wfb u && (1 <=? length u)); do tbl <- flat_table u; Ok (byte_program u tbl)).
(** 182-191, [serialize_flat_lockstep_nfa_token_stream] *)
Definition gen_flat (s : list N) : res program :=
  with_ere s (fun e =>
    do n <- working_new (tree_of e);
    do _ <- guard (wfb n && (1 <=? length n)); do tbl <- flat_table n; Ok (char_program n tbl)).
(** 155-179; [None] for "too many states" *)
Definition gen_dfa (s : list N) : res (option program) :=
  with_ere s (fun e =>
    do n <- working_new (tree_of e); do u <- u8_new n;
    do d <- tdfa_from_nfa u (default_bound (length u));
    match d with Some d => do m <- dfa_from_tagged d; Ok (Some (dfa_program d m)) | None => Ok None end).
(** 209-228 and [serialize_one_pass_token_stream] (one_pass_u8.rs:50-138) as far as [codegen_vmlike];
    [None] if the automaton is not one-pass or [codegen_functional] is used *)
Definition gen_vm (s : list N) : res (option program) :=
  with_ere s (fun e =>
    do n <- working_new (tree_of e); do u <- u8_new n;
    do _ <- guard (wfb u && tu_tags_ok u);
    do t <- op_analyse u;
    match t with
    | None => Ok None
    | Some tab => do o <- topological_ordering u; match o with Some _ => Ok None | None => Ok (Some (vm_program u tab)) end
    end).
