(** Machine integers in the generated code (C87). *)
From Coq Require Import String.
From Verif Require Import PWordAll PropEmitFn.
From Coq Require Import ZifyBool ZifyNat ZifyN.
Open Scope string_scope.
Open Scope nat_scope.
Open Scope list_scope.

(** C87.  Rust.v keeps [usize::MAX], which the templates use for a bound that is not set, apart from the numbers, and adds without limit.  In the programs
    that run it is a number, and sums beyond it overflow.  [machine_test over top w] and [machine_exec over top w] (EmitW.v, RustW.v) evaluate the
    functions in which a template was filled with [w], with [usize::MAX] the number [top] and [over m n] for a sum beyond it: [checked], a panic, in a
    build with overflow checks, [wrapping top] in one without.  Whatever
    the templates are filled with, right or wrong, if the compiler accepts the functions and [top] is larger than the length of the
    text, they give the same: no sum overflows and no index into the text is taken for a bound that is not set. *)
Theorem C87_programs : forall w over top T, pg_ok (program_of w) = true -> words_ok w -> blen T < top ->
  machine_test over top w T = pg_test (program_of w) T /\ machine_exec over top w T = pg_exec (program_of w) T.
Proof. intros w over top T Ho Hw Ht. now apply machine_same. Qed.
Print Assumptions C87_programs.
(** What the macros write for a pattern is such a program, ... *)
Theorem C87_generated : forall s p, generated s p -> pg_ok p = true ->
  exists w, p = program_of w /\ forall over top T, blen T < top -> machine_test over top w T = pg_test p T /\ machine_exec over top w T = pg_exec p T.
Proof. exact generated_same. Qed.
Print Assumptions C87_generated.
(** ... so C85 holds with machine integers: [test] tells whether the pattern occurs, [exec] gives the captures of a match, neither panics. *)
Theorem C87_right : forall s p e T over top, generated s p -> pg_ok p = true -> Forall scalar s -> Forall scalar T -> G_ere e s -> caret_ok e = true -> blen T < top ->
  exists w b o, p = program_of w /\ machine_test over top w T = Ok (VBool b) /\ (b = true <-> occurs e T) /\
    machine_exec over top w T = Ok (enc_result o) /\ match o with Some cs => captures_of e T cs | None => ~ occurs e T end.
Proof.
  intros s p e T over top H Ho Hs HT Hg Hk Ht. destruct (generated_same s p H Ho) as (w & Ew & Hw). destruct (Hw over top T Ht) as [E1 E2]. destruct (C85_right s p e T H Ho Hs HT Hg Hk) as (b & o & H1 & H2 & H3 & H4).
  exists w, b, o. rewrite E1, E2. auto.
Qed.
Print Assumptions C87_right.
(** With 64 bits, and a text of at most [isize::MAX] bytes, as every text in memory. *)
Theorem C87_64 : forall s p T, generated s p -> pg_ok p = true -> (N.of_nat (blen T) < 2 ^ 63)%N ->
  exists w, p = program_of w /\ let top := N.to_nat (2 ^ 64 - 1) in
    (machine_test checked top w T = pg_test p T /\ machine_exec checked top w T = pg_exec p T) /\ machine_test (wrapping top) top w T = pg_test p T /\ machine_exec (wrapping top) top w T = pg_exec p T.
Proof.
  intros s p T H Ho Hl. destruct (generated_same s p H Ho) as (w & Ew & Hw). exists w. split; [exact Ew|]. cbv zeta. assert (Ht : blen T < N.to_nat (2 ^ 64 - 1)); [|split; now apply Hw]. change (2 ^ 63)%N with 9223372036854775808%N in Hl. change (2 ^ 64 - 1)%N with 18446744073709551615%N. lia.
Qed.
Print Assumptions C87_64.

(** The programs for some patterns: the state machine, functions, the DFA, both lockstep engines. *)
Definition from_u8 (s : list N) (f : nfa range -> res written) : res written := with_ere s (fun e => do n <- working_new (tree_of e); do u <- u8_new n; f u).
Definition written_vm (s : list N) : res written := from_u8 s (fun u => do t <- op_analyse u; match t with Some tab => Ok (WVm u tab) | None => NoCompile end).
Definition written_fun (s : list N) : res written := from_u8 s (fun u => do t <- op_analyse u; match t with Some tab => do runs <- compute_runs (op_syms tab); Ok (WFun u tab runs) | None => NoCompile end).
Definition written_dfa (s : list N) : res written := from_u8 s (fun u => do d <- tdfa_from_nfa u 100; match d with Some d => do m <- dfa_from_tagged d; Ok (WDfa d m) | None => NoCompile end).
Definition written_byte (s : list N) : res written := from_u8 s (fun u => do tbl <- flat_table u; Ok (WByte u tbl)).
Definition written_char (s : list N) : res written := with_ere s (fun e => do n <- working_new (tree_of e); do tbl <- flat_table n; Ok (WChar n tbl)).
Definition both (top : nat) (T : list N) (w : written) : bool * res val * res val := (pg_ok (program_of w), pg_exec (program_of w) T, machine_exec checked top w T).
Definition spans (l : list (option span)) : res val := Ok (enc_result (Some l)).
Example C87_case : (do w <- written_vm (s2l "^(a|bc*)$"); Ok (both 4 (s2l "bcc") w), do w <- written_fun (s2l "^x(a|b)c$"); Ok (both 4 (s2l "xbc") w),
  do w <- written_dfa (s2l "a(b*)c"); Ok (both 4 (s2l "abc") w), do w <- written_byte (s2l "a(b*)c"); Ok (both 4 (s2l "abc") w), do w <- written_char (s2l "a(b*)c"); Ok (both 4 (s2l "abc") w))
  = (Ok (true, spans [Some (0, 3); Some (0, 3)], spans [Some (0, 3); Some (0, 3)]), Ok (true, spans [Some (0, 3); Some (1, 2)], spans [Some (0, 3); Some (1, 2)]),
     Ok (true, spans [Some (0, 3); Some (1, 2)], spans [Some (0, 3); Some (1, 2)]), Ok (true, spans [Some (0, 3); Some (1, 2)], spans [Some (0, 3); Some (1, 2)]), Ok (true, spans [Some (0, 3); Some (1, 2)], spans [Some (0, 3); Some (1, 2)])).
Proof. vm_compute. reflexivity. Qed.
(** The bound is needed: if [usize::MAX] is the length of the text, the end of the match is taken for a bound that is not set and an assertion fails; ... *)
Example C87_equal_case : (do w <- written_vm (s2l "^(a|bc*)$"); Ok (both 3 (s2l "bcc") w), do w <- written_fun (s2l "^x(a|b)c$"); Ok (both 3 (s2l "xbc") w), do w <- written_dfa (s2l "a(b*)c"); Ok (both 3 (s2l "abc") w))
  = (Ok (true, spans [Some (0, 3); Some (0, 3)], Panic), Ok (true, spans [Some (0, 3); Some (1, 2)], Panic), Ok (true, spans [Some (0, 3); Some (1, 2)], Panic)).
Proof. vm_compute. reflexivity. Qed.
(** ... below that a sum overflows. *)
Example C87_overflow_case : (do w <- written_byte (s2l "a(b*)c"); Ok (machine_test checked 2 w (s2l "abc"), machine_test checked 3 w (s2l "abc")), do w <- written_char [233%N]; Ok (machine_test checked 1 w [233%N], machine_test checked 2 w [233%N]))
  = (Ok (Panic, Ok (VBool true)), Ok (Panic, Ok (VBool true))).
Proof. vm_compute. reflexivity. Qed.
(** Without the checks the index would wrap around there, and the end of the text not be noticed. *)
Example C87_wrapping_case : (do w <- written_byte (s2l "c$"); Ok (pg_test (program_of w) (s2l "abc"), machine_test (wrapping 2) 2 w (s2l "abc"), machine_test (wrapping 4) 4 w (s2l "abc")))
  = Ok (Ok (VBool true), Ok (VBool false), Ok (VBool true)).
Proof. vm_compute. reflexivity. Qed.
(** The offsets of the tags of computed runs are within them, as [words_ok] asks; for the others it asks nothing. *)
Example C87_runs_case : forall syms runs, compute_runs syms = Ok runs -> Forall run_fits runs.
Proof. exact compute_runs_fit. Qed.
Example C87_generated_case : (do p <- gen_regex (s2l "^(a|b)c$"); do v <- pg_exec p (s2l "bc"); Ok (pg_ok p, v)) = Ok (true, enc_result (Some [Some (0, 2); Some (0, 1)])).
Proof. vm_compute. reflexivity. Qed.
