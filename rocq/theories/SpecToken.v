(** Patterns for the tokens of a text: a list of keywords, a character class with a quantifier, the fields of a record.  Stated over texts alone. *)
From Verif Require Export SpecLiteral.
From Coq Require Import String.
Open Scope list_scope.
Open Scope nat_scope.

(** ** Keywords
    Several strings as alternatives, each in parentheses. *)
Fixpoint group_any (ws : list (list N)) : list N :=
  match ws with [] => [] | [w] => s2l "(" ++ quote w ++ s2l ")" | w :: r => (s2l "(" ++ quote w ++ s2l ")") ++ s2l "|" ++ group_any r end.
(** The string with number [k] stands in [T] after [U]; no string stands before it, and none with a smaller number in the same place. *)
Definition first_of (ws : list (list N)) (T U : list N) (k : nat) (w : list N) : Prop :=
  nth_error ws k = Some w /\ stands false false w T U /\
  forall k' w' U', nth_error ws k' = Some w' -> stands false false w' T U' -> List.length U < List.length U' \/ List.length U = List.length U' /\ k <= k'.

(** ** One character class with a quantifier
    [R] stands in [T] after [U], its characters are all of the class, and there are as many as the quantifier allows. *)
Definition run_of (a : atom) (q : quant) (T U R : list N) : Prop :=
  (exists V, T = U ++ R ++ V) /\ Forall (atom_has a) R /\ quant_allows (q_type q) (List.length R).
(** The first one; of those that begin in the same place the longest, or the shortest if the quantifier is lazy. *)
Definition best_run (a : atom) (q : quant) (T U R : list N) : Prop :=
  run_of a q T U R /\
  forall U' R', run_of a q T U' R' -> List.length U < List.length U' \/
    List.length U = List.length U' /\ if q_alt q then List.length R <= List.length R' else List.length R' <= List.length R.

(** ** Fields
    The pattern for [k + 1] fields between separators [s], in full and in parentheses: each field is anything without a separator. *)
Definition field_text (s : N) : list N := s2l "([^" ++ [s] ++ s2l "]*)".
Fixpoint more_fields (s : N) (k : nat) : list N := match k with 0 => [] | S k' => quote1 s ++ field_text s ++ more_fields s k' end.
Definition fields_text (s : N) (k : nat) : list N := s2l "^" ++ (field_text s ++ more_fields s k) ++ s2l "$".
Fixpoint join (s : N) (Fs : list (list N)) : list N :=
  match Fs with [] => [] | [F] => F | F :: r => F ++ s :: join s r end.
(** The byte ranges of the fields when the first one begins at [p]. *)
Fixpoint field_spans (s : N) (p : nat) (Fs : list (list N)) : list (option (nat * nat)) :=
  match Fs with [] => [] | F :: r => Some (p, p + bytes_of F) :: field_spans s (p + bytes_of F + char_bytes s) r end.
