(** Moving what was found in a text by a number of bytes. *)
From Verif Require Export SpecLiteral.
Open Scope nat_scope.
Open Scope list_scope.

(** The captures of a text, seen from [d] bytes before it. *)
Definition moved (d : nat) (cs : list (option (nat * nat))) : list (option (nat * nat)) :=
  map (option_map (fun s => (d + fst s, d + snd s))) cs.
