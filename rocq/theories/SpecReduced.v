(** What it means that an automaton has been optimised to the end: no state that could be merged with another or skipped is left. *)
From Verif Require Export SpecAuto.
Open Scope nat_scope.
Open Scope list_scope.

Section Reduced.
  Context {A : Type}.
  Implicit Types n : nfa A.
  (** Two states with the same edges out, and at least one. *)
  Definition twins n (i j : nat) : Prop := get n i = get n j /\ (trans (get n i) <> [] \/ eps (get n i) <> []).
  (** A state one can only leave by one unmarked edge. *)
  Definition passed n (i : nat) : Prop := trans (get n i) = [] /\ exists t, eps (get n i) = [(t, ENone)].
  (** A state without symbols, into which there is one edge only, an unmarked one. *)
  Definition lone n (i : nat) : Prop := trans (get n i) = [] /\ (forall s a, ~ In (i, a) (trans (get n s))) /\
    exists s p, nth_error (eps (get n s)) p = Some (i, ENone) /\ forall s' p' k, nth_error (eps (get n s')) p' = Some (i, k) -> s' = s /\ p' = p.
  (** The first and the last state are never removed. *)
  Definition reduced n : Prop :=
    (3 <= length n -> forall i, NoDup (eps (get n i))) /\
    forall i, 1 <= i -> S i < length n -> (forall j, S j < length n -> i <> j -> ~ twins n i j) /\ ~ passed n i /\ ~ lone n i.
End Reduced.
