(** What a listing of an automaton tells.  Used in the statements of C74. *)
From Verif Require Export Nfa.
Open Scope nat_scope.
Open Scope list_scope.

(** The automaton without what its zero-width transitions are for. *)
Definition skeleton {A} (n : nfa A) : list (list nat * list (nat * A)) := map (fun s => (map fst (eps s), trans s)) n.
