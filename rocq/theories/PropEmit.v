(** The code the macros generate, as Rust (C84). *)
From Coq Require Import String.
From Verif Require Import PEmitAll.
From Coq Require Import ZifyBool ZifyNat ZifyN.
Open Scope string_scope.
Open Scope nat_scope.
Open Scope list_scope.

(** C84.  What the generated functions compute is what the engines of the model compute, and the compiler takes them exactly when the model says so.
    The lockstep engine on bytes: ... *)
Theorem C84_flat_u8 : forall s, Forall scalar s ->
  (forall p, gen_flat_u8 s = Ok p -> exists en, compile_flat_u8 s = Ok en /\ pg_ok p = true /\ gives p en) /\
  (forall en, compile_flat_u8 s = Ok en -> exists p, gen_flat_u8 s = Ok p).
Proof. intros s Hs. split; [intros p; now apply gen_flat_u8_to|intros en; now apply gen_flat_u8_from]. Qed.
Print Assumptions C84_flat_u8.
(** ... on characters, whose program may be refused (a class with a range that no literal can write), ... *)
Theorem C84_flat : forall s, Forall scalar s ->
  (forall p, gen_flat s = Ok p -> exists n, compile_flat s = (if pg_ok p then Ok (EFlat n) else NoCompile) /\ gives p (EFlat n)) /\
  (forall en, compile_flat s = Ok en -> exists p, gen_flat s = Ok p).
Proof. intros s Hs. split; [intros p; now apply gen_flat_to|intros en; now apply gen_flat_from]. Qed.
Print Assumptions C84_flat.
(** ... the DFA, ... *)
Theorem C84_dfa : forall s, Forall scalar s ->
  (forall p, gen_dfa s = Ok (Some p) -> exists en, compile_dfa s = Ok en /\ pg_ok p = true /\ gives p en) /\
  (forall en, compile_dfa s = Ok en -> exists p, gen_dfa s = Ok (Some p)).
Proof. intros s Hs. split; [intros p; now apply gen_dfa_to|intros en; now apply gen_dfa_from]. Qed.
Print Assumptions C84_dfa.
(** ... and the one-pass engine of a pattern whose automaton has a cycle. *)
Theorem C84_one_pass : forall s, Forall scalar s ->
  (forall p, gen_vm s = Ok (Some p) -> exists g tab, let en := EOnePass (mkEngine g tab OpVm) in
     compile_one_pass s = (if pg_ok p then Ok en else NoCompile) /\ (pg_ok p = true -> gives p en)) /\
  (forall g tab, compile_one_pass s = Ok (EOnePass (mkEngine g tab OpVm)) -> exists p, gen_vm s = Ok (Some p)).
Proof. intros s Hs. split; [intros p; now apply gen_vm_to|intros g tab; now apply gen_vm_from]. Qed.
Print Assumptions C84_one_pass.

(** From the pattern to the value of the generated function: [test] tells whether the pattern occurs in the text. *)
Theorem C84_flat_u8_test : forall s p T, Forall scalar s -> Forall scalar T -> gen_flat_u8 s = Ok p ->
  exists e b, G_ere e s /\ pg_test p T = Ok (VBool b) /\ (b = true <-> occurs e T).
Proof.
  intros s p T Hs HT H. destruct (gen_flat_u8_to s p Hs H) as (en & En & _ & G). destruct (compile_flat_u8_right s en En Hs) as (e & He & Hr & _). destruct (right_test e en Hr T HT) as (b & Hb & Hb').
  exists e, b. split; [assumption|]. split; [|assumption]. rewrite (proj1 (proj2 G T)), Hb. reflexivity.
Qed.
Print Assumptions C84_flat_u8_test.
Theorem C84_flat_test : forall s p T, Forall scalar s -> Forall scalar T -> gen_flat s = Ok p -> pg_ok p = true ->
  exists e b, G_ere e s /\ pg_test p T = Ok (VBool b) /\ (b = true <-> occurs e T).
Proof.
  intros s p T Hs HT H Ho. destruct (gen_flat_to s p Hs H) as (n & En & G). rewrite Ho in En. destruct (compile_flat_right s _ En Hs) as (e & He & Hr & _). destruct (right_test e _ Hr T HT) as (b & Hb & Hb').
  exists e, b. split; [assumption|]. split; [|assumption]. rewrite (proj1 (proj2 G T)), Hb. reflexivity.
Qed.
Print Assumptions C84_flat_test.
Theorem C84_one_pass_test : forall s p T, Forall scalar s -> Forall scalar T -> gen_vm s = Ok (Some p) -> pg_ok p = true ->
  exists e b, G_ere e s /\ pg_test p T = Ok (VBool b) /\ (b = true <-> occurs e T).
Proof.
  intros s p T Hs HT H Ho. destruct (gen_vm_to s p Hs H) as (g & tab & En & G). rewrite Ho in En. specialize (G Ho). destruct (compile_one_pass_right s _ En Hs) as (e & He & Hr & _). destruct (right_test e _ Hr T HT) as (b & Hb & Hb').
  exists e, b. split; [assumption|]. split; [|assumption]. rewrite (proj1 (proj2 G T)), Hb. reflexivity.
Qed.
Print Assumptions C84_one_pass_test.

Example C84_flat_u8_case : (do p <- gen_flat_u8 (s2l "^(a|(b))+c"); do x <- pg_test p (s2l "abacd"); do y <- pg_exec p (s2l "abacd"); do z <- pg_exec p (s2l "bd"); Ok (pg_ok p, x, y, z))
  = Ok (true, VBool true, enc_result (Some [Some (0, 4); Some (2, 3); Some (1, 2)]), enc_result None).
Proof. vm_compute. reflexivity. Qed.
Example C84_flat_case : (do p <- gen_flat (s2l "^(" ++ [233%N] ++ s2l "|[b-d])*$"); do q <- gen_flat (s2l "[[:graph:]]"); do x <- pg_test p (s2l "a"); do y <- pg_exec p (s2l "c" ++ [233%N]); Ok (pg_ok p, pg_ok q, x, y))
  = Ok (true, false, VBool false, enc_result (Some [Some (0, 3); Some (1, 3)])).
Proof. vm_compute. reflexivity. Qed.
Example C84_dfa_case : (do p <- gen_dfa (s2l "a(b*)c"); match p with Some p => do x <- pg_test p (s2l "zabbc"); do y <- pg_exec p (s2l "zabbc"); do z <- pg_exec p (s2l "ab"); Ok (pg_ok p, x, y, z) | None => NoCompile end)
  = Ok (true, VBool true, enc_result (Some [Some (1, 5); Some (2, 4)]), enc_result None).
Proof. vm_compute. reflexivity. Qed.
(** The second pattern is one of those that the compiler refuses (F3). *)
Example C84_one_pass_case : (do p <- gen_vm (s2l "^(a|b)*c$"); do q <- gen_vm (s2l "^a*$"); match p with Some p => do x <- pg_test p (s2l "abc"); do y <- pg_exec p (s2l "abc"); do z <- pg_exec p (s2l "cc"); Ok (pg_ok p, option_map pg_ok q, x, y, z) | None => NoCompile end)
  = Ok (true, Some false, VBool true, enc_result (Some [Some (0, 3); Some (1, 2)]), enc_result None).
Proof. vm_compute. reflexivity. Qed.
