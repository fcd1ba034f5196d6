(** How large a pattern is once its quantifiers are unrolled.  Stated over the syntax tree alone. *)
From Verif Require Export SpecAtom.
Open Scope nat_scope.
Open Scope list_scope.

(** How many copies of its body a quantifier needs. *)
Definition copies (q : qtype) : nat :=
  match q with
  | QStar | QQuestion => 1
  | QPlus => 2
  | QMultiple n => N.to_nat n
  | QRange n None => S (N.to_nat n)
  | QRange _ (Some m) => N.to_nat m
  end.
(** One for every atom, anchor, group, alternative and quantifier; [w] is what an atom weighs on top of that. *)
Section Size.
  Variable w : atom -> nat.
  Fixpoint size_part (p : part) : nat :=
    match p with
    | PSingle e => size_expr e
    | PQuant e q => 1 + copies (q_type q) * (1 + size_expr e)
    | PStart | PEnd => 1
    end
  with size_expr (e : expr) : nat :=
    match e with
    | XAtom a => 1 + w a
    | XSub bs => 1 + list_sum (map (fun b => 1 + list_sum (map size_part b)) bs)
    end.
  Definition size_branch (b : branch) : nat := 1 + list_sum (map size_part b).
  Definition size (e : ere) : nat := 1 + list_sum (map size_branch e).
End Size.

(** The number of intervals written in an atom; a named class has at most four. *)
Definition term_intervals (t : term) : nat := match t with Class _ => 4 | _ => 1 end.
Definition intervals (a : atom) : nat :=
  match a with
  | NormalChar _ | Dot => 1
  | MatchingList ts => list_sum (map term_intervals ts)
  | NonmatchingList ts => 1 + list_sum (map term_intervals ts)
  end.

(** The number of lists without repetition of elements of a set of [m]. *)
Fixpoint arrangements (m : nat) : nat := match m with 0 => 1 | S m' => 1 + m * arrangements m' end.
