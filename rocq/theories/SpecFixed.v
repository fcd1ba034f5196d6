(** Patterns whose captures never move (C65). *)
From Verif Require Export Spec.
Open Scope nat_scope.

(** Every match, in whichever text, takes up the whole text and puts every group at the same bytes: what the first lines of
    [fixed_offset.rs] (1-13) say of the patterns the engine is for. *)
Definition rigid (e : ere) : Prop := exists f : nat -> option (nat * nat),
  forall T i j L, Forall scalar T -> matches T e i j L -> i = 0 /\ j = length T /\ forall k, capture T L k = f k.
