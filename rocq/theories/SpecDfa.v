(** Texts that a pattern tells apart.  Stated over matches alone. *)
From Verif Require Export Spec.
Open Scope nat_scope.
Open Scope list_scope.

(** Of any two texts of the list, some continuation makes one of them match and not the other. *)
Definition told_apart (e : ere) (Ts : list (list N)) : Prop :=
  forall t u, In t Ts -> In u Ts -> t <> u -> exists z, Forall scalar z /\ ~ (occurs e (t ++ z) <-> occurs e (u ++ z)).
