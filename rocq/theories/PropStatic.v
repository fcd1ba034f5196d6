(** The automaton linked into the user's binary: C37. *)
From Coq Require Import String.
From Verif Require Import PRun PStatic.
Open Scope nat_scope.
Open Scope list_scope.

(** C37.  The serialised automaton gives the answer of the compile-time one, for every automaton and text. *)
Theorem C37_static_agrees : forall n T, static_test (static_nfa n) T = working_test n T.
Proof. exact static_test_eq. Qed.
Print Assumptions C37_static_agrees.
(** For the automaton of a pattern, that answer is whether the pattern occurs. *)
Theorem C37_static_test : forall s e n T, G_ere e s -> Forall scalar s -> Forall scalar T -> working_new (tree_of e) = Ok n -> n <> [] ->
  exists b, static_test (static_nfa n) T = Ok b /\ (b = true <-> occurs e T).
Proof.
  intros s e n T Hg Hs HT En Hn. rewrite static_test_eq. apply parse_iff in Hg. destruct (parsed_working_ne s e Hg Hs n En Hn) as [Ha _]. now apply working_test_spec.
Qed.
Print Assumptions C37_static_test.
Example C37_case : with_ere (s2l "^(a|[^x-z.[:digit:]]|.b)$") (fun e => do n <- working_new (tree_of e);
  do x <- static_test (static_nfa n) (s2l "a"); do y <- static_test (static_nfa n) (s2l "5"); do z <- static_test (static_nfa n) ([0x1F600%N] ++ s2l "b"); Ok (x, y, z)) = Ok (true, false, true).
Proof. vm_compute. reflexivity. Qed.
