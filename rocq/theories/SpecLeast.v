(** The least number of bytes a match of a pattern takes.  Stated over the syntax tree alone. *)
From Verif Require Export SpecLen.
Open Scope nat_scope.
Open Scope list_scope.

(** The least number of repetitions. *)
Definition quant_least (q : qtype) : nat := match q with QStar | QQuestion => 0 | QPlus => 1 | QMultiple k | QRange k _ => N.to_nat k end.
Definition minimum (l : list nat) : nat := match l with [] => 0 | x :: r => fold_right Nat.min x r end.
Section Least.
  Variable width : atom -> nat.
  Fixpoint least_part (p : part) : nat :=
    match p with
    | PSingle e => least_expr e
    | PQuant e q => quant_least (q_type q) * least_expr e
    | PStart | PEnd => 0
    end
  with least_expr (e : expr) : nat :=
    match e with
    | XAtom a => width a
    | XSub bs => minimum (map (fun b => list_sum (map least_part b)) bs)
    end.
  Definition least_branch (b : branch) : nat := list_sum (map least_part b).
  Definition least (e : ere) : nat := minimum (map least_branch e).
  (** The width given to each atom is that of its shortest characters. *)
  Definition narrowest (a : atom) : Prop := (forall c, scalar c -> atom_has a c -> width a <= char_bytes c) /\ exists c, scalar c /\ atom_has a c /\ char_bytes c = width a.
End Least.
