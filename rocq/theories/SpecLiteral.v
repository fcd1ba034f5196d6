(** Patterns that stand for a string of characters.  Stated over texts alone. *)
From Verif Require Export SpecGrammar Spec.
From Coq Require Import String.
Open Scope list_scope.
Open Scope N_scope.

(** A string written so that every character stands for itself. *)
Definition quote1 (c : N) : list N := if existsb (N.eqb c) special_chars then [ch "\"; c] else [c].
Definition quote (w : list N) : list N := flat_map quote1 w.
(** The same after [^] when [a], before [$] when [z]. *)
Definition word_text (a z : bool) (w : list N) : list N := (if a then s2l "^" else []) ++ quote w ++ (if z then s2l "$" else []).
(** Several strings written as alternatives. *)
Fixpoint quote_any (ws : list (list N)) : list N :=
  match ws with [] => [] | [w] => quote w | w :: r => quote w ++ s2l "|" ++ quote_any r end.
(** [w] stands in [T] after [U]: anywhere; at the beginning, at the end, or both, when [a] or [z] says so. *)
Definition stands (a z : bool) (w T U : list N) : Prop := exists V, T = U ++ w ++ V /\ (a = true -> U = []) /\ (z = true -> V = []).
Definition stands_first (a z : bool) (w T U : list N) : Prop := stands a z w T U /\ forall U', stands a z w T U' -> (List.length U <= List.length U')%nat.
(** The bytes it takes to write a text. *)
Definition bytes_of (U : list N) : nat := list_sum (map char_bytes U).
