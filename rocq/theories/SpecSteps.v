(** How many iterations a loop takes (C66). *)
From Coq Require Import List Arith NArith.
Import ListNotations.
From Verif Require Import Spec.
Open Scope nat_scope.

(** A loop is given by what one iteration makes of a state: another state, or the result. *)
Fixpoint run_for {S R} (k : nat) (step : S -> S + R) (x : S + R) : S + R :=
  match k, x with
  | Datatypes.S k', inl s => run_for k' step (step s)
  | _, _ => x
  end.
(** It ends with [r] in the [k]th iteration. *)
Definition takes {S R} (step : S -> S + R) (s : S) (k : nat) (r : R) : Prop :=
  run_for k step (inl s) = inr r /\ forall j, j < k -> exists s', run_for j step (inl s) = inl s'.

(** Two texts that no way through an automaton of intervals can both take if only the texts in which [e] occurs are to be accepted: of
    different lengths in bytes, or with a text between them, byte by byte, in which the pattern does not occur. *)
Definition between (a b c : N) : Prop := (a <= c <= b \/ b <= c <= a)%N.
Fixpoint all_between (x y z : list N) : Prop :=
  match x, y, z with
  | [], [], [] => True
  | a :: x', b :: y', c :: z' => between a b c /\ all_between x' y' z'
  | _, _, _ => False
  end.
Definition cut_off (e : ere) (T U : list N) : Prop :=
  length (utf8 T) <> length (utf8 U) \/
  exists V, Forall scalar V /\ all_between (utf8 T) (utf8 U) (utf8 V) /\ ~ occurs e V.
