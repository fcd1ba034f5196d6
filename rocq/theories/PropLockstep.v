(** The two lockstep engines: C14, C15, and their part of C18, C19, C20, C21. *)
From Coq Require Import String.
From Verif Require Import PRun.
Open Scope nat_scope.
Open Scope list_scope.

(** C14.  The character engine decides matching. *)
Theorem C14_flat_test : forall s en T, compile_flat s = Ok en -> Forall scalar s -> Forall scalar T ->
  exists e b, G_ere e s /\ engine_test en T = Ok b /\ (b = true <-> occurs e T).
Proof.
  intros s en T H Hs HT. destruct (compile_flat_right s en H Hs) as (e & Hg & Hr & _). destruct (right_test e en Hr T HT) as (b & Hb). eauto.
Qed.
Print Assumptions C14_flat_test.
Example C14_case : (do en <- compile_flat (s2l "^(a|[^b-y])*c$"); do x <- engine_test en (s2l "azac"); do y <- engine_test en (s2l "abac"); Ok (x, y)) = Ok (true, false).
Proof. vm_compute. reflexivity. Qed.

(** C15.  So does the byte engine. *)
Theorem C15_flat_u8_test : forall s en T, compile_flat_u8 s = Ok en -> Forall scalar s -> Forall scalar T ->
  exists e b, G_ere e s /\ engine_test en T = Ok b /\ (b = true <-> occurs e T).
Proof.
  intros s en T H Hs HT. destruct (compile_flat_u8_right s en H Hs) as (e & Hg & Hr & _). destruct (right_test e en Hr T HT) as (b & Hb). eauto.
Qed.
Print Assumptions C15_flat_u8_test.
Example C15_case : (do en <- compile_flat_u8 (s2l "^(a|[^b-y])*c$"); do x <- engine_test en (s2l "a" ++ [0x1F600%N] ++ s2l "c"); do y <- engine_test en (s2l "abac"); Ok (x, y)) = Ok (true, false).
Proof. vm_compute. reflexivity. Qed.
