(** Conditions on patterns used in the laws about matching.  Stated over the syntax tree alone. *)
From Coq Require Import String.
From Verif Require Export SpecGroups SpecPriority SpecGrammar.
Open Scope nat_scope.
Open Scope list_scope.

(** No [^] and no [$]. *)
Fixpoint free_part (p : part) : bool :=
  match p with
  | PSingle e | PQuant e _ => free_expr e
  | PStart | PEnd => false
  end
with free_expr (e : expr) : bool :=
  match e with
  | XAtom _ => true
  | XSub bs => forallb (fun b => forallb free_part b) bs
  end.
Definition anchor_free (e : ere) : bool := forallb (fun b => forallb free_part b) e.

(** Every atom has a character. *)
Definition inhabited_atoms (e : ere) : Prop := forall a, In a (atoms e) -> exists c, scalar c /\ atom_has a c.

(** Texts built from the texts of patterns. *)
Definition either (p q : list N) : list N := p ++ s2l "|" ++ q.
Definition parens (p : list N) : list N := s2l "(" ++ p ++ s2l ")".
Definition entire (p : list N) : list N := s2l "^(" ++ p ++ s2l ")$".
