(** How long matching takes: C80, C81. *)
From Coq Require Import String Lia.
From Verif Require Import PCostLow SpecSize SpecTime.
Open Scope nat_scope.
Open Scope list_scope.

(** C80.  [engine_test_t] and [engine_exec_t] (Cost.v) are the generated functions with a counter of elementary steps.  They return what
    the functions return. *)
Theorem C80_same : forall en T, fst (engine_test_t en T) = engine_test en T /\ fst (engine_exec_t en T) = engine_exec en T.
Proof. intros en T. split; [apply engine_test_fst|apply engine_exec_fst]. Qed.
Print Assumptions C80_same.
(** For every engine there is one constant such that every text is matched in at most that many steps for each byte, and for the end. *)
Theorem C80_test : forall en, linear (fun T => snd (engine_test_t en T)).
Proof. exact engine_test_linear. Qed.
Print Assumptions C80_test.
Theorem C80_exec : forall en, linear (fun T => snd (engine_exec_t en T)).
Proof. exact engine_exec_linear. Qed.
Print Assumptions C80_exec.
(** The counter counts at least one step for every character of a text that is matched. *)
Theorem C80_reads : forall en T r, bare en -> engine_exec en T = Ok (Some r) -> List.length T <= snd (engine_exec_t en T).
Proof. exact exec_low. Qed.
Print Assumptions C80_reads.
(** The constants of the lockstep engines. *)
Theorem C80_lockstep_bytes : forall n tbl, flat_make n = Ok tbl -> let g := num_capture_groups n in let price := fun _ : range => 1 in forall T,
  snd (engine_test_t (EFlatU8 n) T) <= (1 + List.length (utf8 T)) * (1 + 4 * List.length n + evaluation price n + jumps tbl) /\
  snd (engine_exec_t (EFlatU8 n) T) <= 1 + 3 * g + 2 * List.length n + copying g tbl + List.length (utf8 T) * (1 + 2 * List.length n + evaluation price n + arrows n * (1 + g + copying g tbl)).
Proof. intros n tbl Hm g price T. exact (lockstep_bytes n tbl T Hm). Qed.
Print Assumptions C80_lockstep_bytes.
Theorem C80_lockstep_chars : forall n tbl, flat_make n = Ok tbl -> let g := num_capture_groups n in forall T,
  snd (engine_test_t (EFlat n) T) <= (1 + List.length T) * (1 + 4 * List.length n + evaluation atom_price n + jumps tbl) /\
  snd (engine_exec_t (EFlat n) T) <= 1 + 3 * g + 2 * List.length n + copying g tbl + List.length T * (1 + 2 * List.length n + evaluation atom_price n + arrows n * (1 + g + copying g tbl)).
Proof. intros n tbl Hm g T. exact (lockstep_chars n tbl T Hm). Qed.
Print Assumptions C80_lockstep_chars.

(** C81.  The steps for one character are not polynomial in the pattern: [(a?)?] written [k] times has [5 * k] characters, at most
    [28 * k + 20] states, and needs more than [2 ^ k] steps for the empty text. *)
Theorem C81_refuted : forall k, exists s n, List.length s = 5 * k /\ Forall scalar s /\ compile_flat s = Ok (EFlat n) /\ List.length n <= 28 * k + 20 /\ 2 ^ k <= snd (engine_test_t (EFlat n) []).
Proof. intros k. destruct (options_slow k) as (n & H1 & H2 & H3). exists (options_text k), n. split; [apply options_length|]. split; [apply options_scalar|]. auto. Qed.
Print Assumptions C81_refuted.
Theorem C81_bytes_refuted : forall k, exists s m, List.length s = 5 * k /\ Forall scalar s /\ compile_flat_u8 s = Ok (EFlatU8 m) /\ 2 ^ k <= snd (engine_test_t (EFlatU8 m) []).
Proof. intros k. destruct (options_slow_u8 k) as (m & H1 & H2). exists (options_text k), m. split; [apply options_length|]. split; [apply options_scalar|]. auto. Qed.
Print Assumptions C81_bytes_refuted.
(** For a given number of groups they are: [2 * g] tags can be arranged in a fixed number of ways. *)
Theorem C81_bytes : forall n tbl, flat_make n = Ok tbl -> let g := num_capture_groups n in let S := List.length n in let A := 4 * S * S * arrangements (2 * g) in forall T,
  snd (engine_test_t (EFlatU8 n) T) <= (1 + List.length (utf8 T)) * (1 + 4 * S + 2 * arrows n + A) /\
  snd (engine_exec_t (EFlatU8 n) T) <= 1 + 3 * g + 2 * S + A * (2 + 3 * g) + List.length (utf8 T) * (1 + 2 * S + arrows n * (3 + g + A * (2 + 3 * g))).
Proof. intros n tbl Hm g S A T. exact (poly_bytes n tbl T Hm). Qed.
Print Assumptions C81_bytes.
Theorem C81_chars : forall n tbl, flat_make n = Ok tbl -> let g := num_capture_groups n in let S := List.length n in let A := 4 * S * S * arrangements (2 * g) in forall T,
  snd (engine_test_t (EFlat n) T) <= (1 + List.length T) * (1 + 4 * S + evaluation atom_price n + A) /\
  snd (engine_exec_t (EFlat n) T) <= 1 + 3 * g + 2 * S + A * (2 + 3 * g) + List.length T * (1 + 2 * S + evaluation atom_price n + arrows n * (1 + g + A * (2 + 3 * g))).
Proof. intros n tbl Hm g S A T. exact (poly_chars n tbl T Hm). Qed.
Print Assumptions C81_chars.

(** A pattern on which backtracking takes exponentially many steps: 45 steps of [test] and 30 of [exec] for each character. *)
Example C80_case : map (fun k => do en <- compile_flat_u8 (s2l "^(a*)*b$"); Ok (engine_test_t en (repeat 97%N k), snd (engine_exec_t en (repeat 97%N k)))) [0; 1; 2; 10; 20] =
  [Ok (Ok false, 34, 29); Ok (Ok false, 79, 59); Ok (Ok false, 124, 89); Ok (Ok false, 484, 329); Ok (Ok false, 934, 629)].
Proof. vm_compute. reflexivity. Qed.
(** The other engines, on texts they match: one-pass, DFA, and fixed offsets. *)
Example C80_case_engines : map (fun p => do en <- compile_regex (s2l (fst p)); Ok (match en with EOnePass _ => 1 | EDfa _ => 2 | EFixed _ _ => 3 | _ => 0 end, engine_test en (s2l (snd p)), snd (engine_test_t en (s2l (snd p))), snd (engine_exec_t en (s2l (snd p)))))
  [("^a+(b+)$", "aab"); ("^a+(b+)$", "aaaabbb"); ("a(b|bc)d?", "xxabcx"); ("a(b|bc)d?", "xxxxxxxxabcx"); ("^([ab]c)-([0-9])$", "bc-7")]%string =
  [Ok (1, Ok true, 9, 19); Ok (1, Ok true, 17, 27); Ok (2, Ok true, 16, 74); Ok (2, Ok true, 40, 116); Ok (3, Ok true, 12, 15)].
Proof. vm_compute. reflexivity. Qed.
Example C81_case : map (fun k => do en <- compile_flat (concat (repeat (s2l "(a?)?") k)); Ok (snd (engine_test_t en []), snd (engine_exec_t en []))) [1; 2; 3; 4; 5; 6] =
  [Ok (44, 48); Ok (63, 78); Ok (88, 118); Ok (125, 174); Ok (186, 258); Ok (295, 394)].
Proof. vm_compute. reflexivity. Qed.
