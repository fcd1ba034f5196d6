(** What the labels of the nodes of the drawing of a tagged DFA say.  Used in the statements of C72. *)
From Coq Require Import String.
From Verif Require Export SpecWalk PTree.
Open Scope nat_scope.
Open Scope list_scope.

(** A list of numbers, with commas between them. *)
Inductive listing : list N -> list nat -> Prop :=
| ls_one : forall k s, decimal (N.of_nat k) s -> listing s [k]
| ls_more : forall k s ks t, decimal (N.of_nat k) s -> listing t ks -> listing (s ++ s2l "," ++ t) (k :: ks).
(** In the drawing of the byte automaton, some tour that can be made on the bytes ends in node [q], its last arrow reading the last byte. *)
Definition lands (g : graph) (bytes : list N) (q : nat) : Prop := exists x w p l t b,
  initial g x /\ tour has_byte g x w p /\ arc_to g p l q /\ prints l t /\ has_byte t b /\ reads bytes 0 (w ++ [IC b]) (List.length bytes).
