(** The size of the generated code (C88). *)
From Coq Require Import String.
From Verif Require Import PWordAll PCodeFlat GenFn Gen SpecSize SpecGroups.
From Coq Require Import ZifyBool ZifyNat ZifyN.
Open Scope string_scope.
Open Scope nat_scope.
Open Scope list_scope.

(** C88.  [code_size w] counts the nodes of the syntax of the functions a macro writes when it fills its template with [w] (SpecCode.v); one would hope
    that it is bounded by a polynomial in the length of the pattern.  It is not: the lockstep macros write more than [2 ^ k] statements for
    [(a?)?] repeated [k] times, code the compiler accepts. *)
Theorem C88_chars_refuted : forall k, exists s n tbl, List.length s = 5 * k /\ Forall scalar s /\
  gen_flat s = Ok (program_of (WChar n tbl)) /\ pg_ok (program_of (WChar n tbl)) = true /\ 2 ^ k <= code_size (WChar n tbl).
Proof. exact flat_big. Qed.
Print Assumptions C88_chars_refuted.
Theorem C88_bytes_refuted : forall k, exists s n tbl, List.length s = 5 * k /\ Forall scalar s /\
  gen_flat_u8 s = Ok (program_of (WByte n tbl)) /\ pg_ok (program_of (WByte n tbl)) = true /\ 2 ^ k <= code_size (WByte n tbl).
Proof. exact flat_u8_big. Qed.
Print Assumptions C88_bytes_refuted.

(** Whatever macro it is and however its template is filled, the code is linear in the tables it is filled with ([entries], SpecCode.v): no
    template writes an entry more than a fixed number of times. *)
Theorem C88_linear : forall w, code_size w <= 200 + 60 * entries w.
Proof. exact code_linear. Qed.
Print Assumptions C88_linear.
Theorem C88_generated : forall s p, generated s p -> exists w, p = program_of w /\ code_size w <= 200 + 60 * entries w.
Proof. intros s p H. destruct (generated_writes s p H) as (w & -> & _). exists w. split; [reflexivity|]. apply code_linear. Qed.
Print Assumptions C88_generated.

(** The DFA macro, which limits the number of states, writes code polynomial in the number of states of the byte automaton and the number of groups;
    without reversed ranges in bracket expressions (C52) that is polynomial in the pattern. *)
Theorem C88_dfa_partial : forall s p, Forall scalar s -> gen_dfa s = Ok (Some p) -> exists e n u d m,
  parse_str s = ROk e /\ working_new (tree_of e) = Ok n /\ u8_new n = Ok u /\ p = program_of (WDfa d m) /\
  code_size (WDfa d m) <= 200 + 60 * dfa_bound (List.length u) (groups e) /\
  ((forall a, In a (atoms e) -> atom_fwd a) -> code_size (WDfa d m) <= 200 + 60 * dfa_bound (4 * size (fun a => 27 * intervals a) e + 223) (groups e)).
Proof. exact dfa_code_bound. Qed.
Print Assumptions C88_dfa_partial.
(** The lockstep macros, for a given number of groups: polynomial in the automaton, with the code of its symbols ([nfa_entries]). *)
Theorem C88_lockstep_partial :
  (forall n tbl, flat_make n = Ok tbl -> code_size (WChar n tbl) <= 200 + 60 * (nfa_entries terms n + lockstep_bound (List.length n) (num_capture_groups n))) /\
  (forall n tbl, flat_make n = Ok tbl -> code_size (WByte n tbl) <= 200 + 60 * (nfa_entries (fun _ => 1) n + lockstep_bound (List.length n) (num_capture_groups n))).
Proof. split; [exact flat_code_chars|exact flat_code_bytes]. Qed.
Print Assumptions C88_lockstep_partial.

(** The nodes and the entries: [(a?)?] repeated, with the lockstep macros. *)
Definition flat_sizes (s : list N) : res (nat * nat * nat) :=
  with_ere s (fun e => do n <- working_new (tree_of e); do t <- flat_table n; Ok (List.length n, entries (WChar n t), code_size (WChar n t))).
Example C88_chars_case : map (fun k => flat_sizes (concat (repeat (s2l "(a?)?") k))) [1; 2; 3] =
  [Ok (11, 77, 1018); Ok (15, 170, 1847); Ok (19, 383, 3648)].
Proof. vm_compute. reflexivity. Qed.
(** The same with the DFA macro. *)
Definition dfa_sizes (s : list N) : res (nat * nat * nat) :=
  with_ere s (fun e => do n <- working_new (tree_of e); do u <- u8_new n; do d <- tdfa_from_nfa u (default_bound (List.length u));
    match d with Some d => do m <- dfa_from_tagged d; Ok (List.length u, entries (WDfa d m), code_size (WDfa d m)) | None => NoCompile end).
Example C88_dfa_case : map (fun k => dfa_sizes (concat (repeat (s2l "(a?)?") k))) [1; 2; 3; 4] =
  [Ok (25, 286, 1291); Ok (29, 454, 2229); Ok (33, 666, 3455); Ok (37, 926, 4997)].
Proof. vm_compute. reflexivity. Qed.
(** [regex!] itself: the vm-like one-pass engine, which it uses here, has an arm for each set of the optional groups that the end of the text may
    pass through. *)
Definition vm_sizes (s : list N) : res (nat * nat * nat) :=
  with_ere s (fun e => do n <- working_new (tree_of e); do u <- u8_new n; do t <- op_analyse u; do o <- topological_ordering u;
    match t, o with Some tab, None => Ok (List.length u, entries (WVm u tab), code_size (WVm u tab)) | _, _ => NoCompile end).
Example C88_regex_case : map (fun k => vm_sizes (s2l "^x+" ++ concat (repeat (s2l "($)?") k) ++ s2l "$")) [1; 2; 3; 4; 5; 6] =
    [Ok (9, 31, 122); Ok (12, 66, 170); Ok (15, 149, 286); Ok (18, 344, 558); Ok (21, 795, 1182); Ok (24, 1822, 2590)] /\
  (do p <- gen_regex (s2l "^x+($)?($)?$"); Ok (pg_ok p)) = Ok true.
Proof. vm_compute. split; reflexivity. Qed.
