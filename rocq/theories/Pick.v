(** Choosing an engine.  Models [ere-core/src/lib.rs]. *)
From Verif Require Export Parser Tree Nfa U8Nfa Flat OnePass Dfa FixedOffset NfaStatic.
Open Scope nat_scope.
Open Scope list_scope.

(** lib.rs:71-78 *)
Definition nfa_is_ascii (n : nfa atom) : bool :=
  forallb (fun s => forallb (fun t => forallb (fun r => (snd r <? 128)%N) (to_ranges (snd t))) (trans s)) n.

(** The expression [(test_fn, exec_fn)] produced by one of the engines. *)
Inductive engine :=
| EOnePass (e : op_engine)
| EDfa (d : tdfa)
| EFlatU8 (n : nfa range)
| EFlat (n : nfa atom)
| EFixed (e : engine) (offs : bounds).   (* [serialize_fixed_offset_token_stream] around [e] *)
Fixpoint engine_test (e : engine) (text : list N) : res bool :=
  match e with
  | EOnePass e => op_test e text
  | EDfa d => dfa_test d text
  | EFlatU8 n => flat_u8_test n text
  | EFlat n => flat_char_test n text
  | EFixed e _ => engine_test e text
  end.
Definition engine_exec (e : engine) (text : list N) : res (option (list (option span))) :=
  match e with
  | EOnePass e => op_exec e text
  | EDfa d => dfa_exec d text
  | EFlatU8 n => flat_u8_exec n text
  | EFlat n => flat_char_exec n text
  | EFixed e offs => do m <- engine_test e text; fo_exec offs m text
  end.
(** The array length [N] in the type of [exec_fn]. *)
Definition engine_groups (e : engine) : nat :=
  match e with
  | EOnePass e => op_groups e
  | EDfa d => tdfa_groups d
  | EFlatU8 n => num_capture_groups n
  | EFlat n => num_capture_groups n
  | EFixed _ offs => length offs
  end.

(** The engines, each with the checks rustc makes on the emitted code. *)
Definition make_dfa (d : tdfa) : res engine := do _ <- dfa_from_tagged d; Ok (EDfa d).
Definition make_flat_u8 (n : nfa range) : res engine := do _ <- flat_make n; Ok (EFlatU8 n).
(** The character engine serialises its atoms (flat_lockstep_nfa.rs:114, 345). *)
Definition make_flat (n : nfa atom) : res engine :=
  do _ <- flat_make n; if nfa_compiles n then Ok (EFlat n) else NoCompile.

(** [pick_base_engine], 60-113: the engine and the byte automaton *)
Definition pick_base_engine (e : ere) : res (engine * nfa range) :=
  do n <- working_new (tree_of e);
  do u <- u8_new n;
  do op <- op_make u;
  match op with
  | Some op => Ok (EOnePass op, u)
  | None =>
      do d <- tdfa_from_nfa u (default_bound (length u));
      match d with
      | Some d => do e <- make_dfa d; Ok (e, u)
      | None => do e <- (if nfa_is_ascii n then make_flat_u8 u else make_flat n); Ok (e, u)
      end
  end.
(** [pick_engine], 118-141.  The array literal of [exec] has [offs] elements and must have
    [num_capture_groups] of them (it does: see [fixed_offsets]). *)
Definition pick_engine (e : ere) : res engine :=
  do r <- pick_base_engine e;
  let '(b, u) := r in
  do o <- fixed_offsets u;
  match o with
  | Some offs => if length offs =? num_capture_groups u then Ok (EFixed b offs) else NoCompile
  | None => Ok b
  end.

(** The macros.  A parse failure is reported by [syn] as a compile error. *)
Definition with_ere {A} (s : list N) (k : ere -> res A) : res A :=
  match parse_str s with ROk e => k e | RErr _ => NoCompile | RFuel => Fuel end.
(** [__compile_regex], 143-152 *)
Definition compile_regex (s : list N) : res engine := with_ere s pick_engine.
(** [__compile_regex_engine_dfa_u8], 155-179 *)
Definition compile_dfa (s : list N) : res engine :=
  with_ere s (fun e =>
    do n <- working_new (tree_of e); do u <- u8_new n;
    do d <- tdfa_from_nfa u (default_bound (length u));
    match d with Some d => make_dfa d | None => NoCompile end).
(** [__compile_regex_engine_flat_lockstep_nfa], 182-191 *)
Definition compile_flat (s : list N) : res engine :=
  with_ere s (fun e => do n <- working_new (tree_of e); make_flat n).
(** [__compile_regex_engine_flat_lockstep_nfa_u8], 194-204 *)
Definition compile_flat_u8 (s : list N) : res engine :=
  with_ere s (fun e => do n <- working_new (tree_of e); do u <- u8_new n; make_flat_u8 u).
(** [__compile_regex_engine_one_pass_u8], 209-228 *)
Definition compile_one_pass (s : list N) : res engine :=
  with_ere s (fun e =>
    do n <- working_new (tree_of e); do u <- u8_new n;
    do op <- op_make u;
    match op with Some op => Ok (EOnePass op) | None => NoCompile end).
(** [__compile_regex_engine_fixed_offset], 232-253 *)
Definition compile_fixed (s : list N) : res engine :=
  with_ere s (fun e =>
    do r <- pick_base_engine e;
    let '(b, u) := r in
    do o <- fixed_offsets u;
    match o with
    | Some offs => if length offs =? num_capture_groups u then Ok (EFixed b offs) else NoCompile
    | None => NoCompile
    end).

(** [__compile_regex_attr], 256-378: the fields of the struct returned by [exec].  [groups] and
    [optional] come from the character automaton (267-270); the array length of the engine must equal
    [groups] (342-346) or the emitted code is rejected.  A field of a non-optional group is
    [result[k].expect(..)] (321-334). *)
Definition attr_compile (s : list N) : res (engine * list bool) :=
  with_ere s (fun e =>
    do n <- working_new (tree_of e);
    do opts <- mapM (capture_group_is_optional n) (seq 0 (num_capture_groups n));
    do en <- pick_engine e;
    if engine_groups en =? num_capture_groups n then Ok (en, opts) else NoCompile).
Definition attr_field (r : list (option span)) (k : nat) (opt : bool) : res (option span) :=
  match nth k r None with Some sp => Ok (Some sp) | None => if opt then Ok None else Panic end.
Definition attr_exec (en : engine) (opts : list bool) (text : list N) : res (option (list (option span))) :=
  do r <- engine_exec en text;
  match r with
  | None => Ok None
  | Some r => do fs <- mapM (fun p : nat * bool => attr_field r (fst p) (snd p)) (enumerate opts); Ok (Some fs)
  end.
