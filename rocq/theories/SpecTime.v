(** What is meant by a linear number of steps, and the sizes the steps of the lockstep engines are measured against. *)
From Verif Require Export Pick.
Open Scope nat_scope.
Open Scope list_scope.

(** At most a constant times the number of bytes (and one). *)
Definition linear (steps : list N -> nat) : Prop := exists K, forall T, steps T <= K * (1 + length (utf8 T)).

Definition sum_of {X} (f : X -> nat) (l : list X) : nat := list_sum (map f l).
(** Symbol transitions; together with the work of evaluating their symbols. *)
Definition arrows {A} (n : nfa A) : nat := sum_of (fun s => length (trans s)) n.
Definition evaluation {A} (price : A -> nat) (n : nfa A) : nat := sum_of (fun s => sum_of (fun t => 1 + price (snd t)) (trans s)) n.
(** Propagations; together with the work of copying the bounds of a thread with [g] groups and setting tags. *)
Definition jumps (tbl : list (list eprop)) : nat := sum_of (fun row => length row) tbl.
Definition copying (g : nat) (tbl : list (list eprop)) : nat := sum_of (fun row => sum_of (fun p => 2 + g + length (ep_tags p)) row) tbl.

(** The engines that read the text themselves (the fixed-offset engine leaves that to [test] of another one, which may stop early). *)
Definition bare (en : engine) : Prop := match en with EFixed _ _ => False | _ => True end.
