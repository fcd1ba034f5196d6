(** Patterns of a fixed width: how many characters they take, which ones, and where their groups stand.  Stated over the syntax tree alone. *)
From Verif Require Export SpecLiteral SpecGroups SpecCut.
From Coq Require Import String.
Open Scope list_scope.
Open Scope nat_scope.

(** A quantifier that fixes the number of repetitions. *)
Definition exactly (q : qtype) : option nat :=
  match q with
  | QMultiple n => Some (N.to_nat n)
  | QRange n (Some m) => if (n =? m)%N then Some (N.to_nat n) else None
  | _ => None
  end.
(** The number of characters; of alternatives, that of the first one. *)
Fixpoint width_part (p : part) : nat :=
  match p with
  | PSingle e => width_expr e
  | PQuant e q => match exactly (q_type q) with Some n => n * width_expr e | None => 0 end
  | PStart | PEnd => 0
  end
with width_expr (e : expr) : nat :=
  match e with
  | XAtom _ => 1
  | XSub [] => 0
  | XSub (b :: _) => list_sum (map width_part b)
  end.
Definition width_branch (b : branch) : nat := list_sum (map width_part b).
(** Characters, dots and bracket expressions, groups, exact numbers of repetitions; alternatives only in a group, of equal width and without groups in
    them; no anchors. *)
Fixpoint steady_part (p : part) : bool :=
  match p with
  | PSingle e => steady_expr e
  | PQuant e q => match exactly (q_type q) with Some _ => steady_expr e | None => false end
  | PStart | PEnd => false
  end
with steady_expr (e : expr) : bool :=
  match e with
  | XAtom _ => true
  | XSub bs => match bs with [] => false | [_] => true | _ => forallb (fun b => (list_sum (map groups_part b) =? 0) && (list_sum (map width_part b) =? width_expr e)) bs end
               && forallb (fun b => forallb steady_part b) bs
  end.
Definition steady_branch (b : branch) : bool := forallb steady_part b.
(** The strings of atoms that it stands for. *)
Definition mix {A} (X Y : list (list A)) : list (list A) := flat_map (fun x => map (app x) Y) X.
Fixpoint power {A} (n : nat) (X : list (list A)) : list (list A) := match n with 0 => [[]] | S n' => mix X (power n' X) end.
Fixpoint shapes_part (p : part) : list (list atom) :=
  match p with
  | PSingle e => shapes_expr e
  | PQuant e q => match exactly (q_type q) with Some n => power n (shapes_expr e) | None => [] end
  | PStart | PEnd => []
  end
with shapes_expr (e : expr) : list (list atom) :=
  match e with
  | XAtom a => [[a]]
  | XSub bs => flat_map (fun b => fold_right (fun p Y => mix (shapes_part p) Y) [[]] b) bs
  end.
Definition shapes_branch (b : branch) : list (list atom) := fold_right (fun p Y => mix (shapes_part p) Y) [[]] b.
(** A string of characters that fits one of them. *)
Definition shaped (b : branch) (R : list N) : Prop := exists sh, In sh (shapes_branch b) /\ Forall2 atom_has sh R.
(** The places of the groups, in the order of their opening parentheses, when the first character has number 0.  A repeated group stands where it
    stood last. [moved] (SpecCut) adds to both ends. *)
Fixpoint places_part (p : part) : list (option (nat * nat)) :=
  match p with
  | PSingle e => places_expr e
  | PQuant e q => match exactly (q_type q) with
                  | Some (S n) => moved (n * width_expr e) (places_expr e)
                  | _ => repeat None (groups_expr e)
                  end
  | PStart | PEnd => []
  end
with places_expr (e : expr) : list (option (nat * nat)) :=
  match e with
  | XAtom _ => []
  | XSub bs => Some (0, width_expr e) :: flat_map (fun b => fold_right (fun p Y => places_part p ++ moved (width_part p) Y) [] b) bs
  end.
Definition places_branch (b : branch) : list (option (nat * nat)) := fold_right (fun p Y => places_part p ++ moved (width_part p) Y) [] b.
(** The same in bytes. *)
Definition in_bytes (T : list N) : list (option (nat * nat)) -> list (option (nat * nat)) := map (option_map (fun s => (byte_pos T (fst s), byte_pos T (snd s)))).
(** The pattern after [^] when [a], before [$] when [z]. *)
Definition template (a z : bool) (b : branch) : ere := [(if a then [PStart] else []) ++ b ++ (if z then [PEnd] else [])].
(** A string of that shape stands in [T] after [U]. *)
Definition fits_at (a z : bool) (b : branch) (T U R : list N) : Prop := stands a z R T U /\ shaped b R.
(** The whole match, then the groups. *)
Definition all_places (b : branch) : list (option (nat * nat)) := Some (0, width_branch b) :: places_branch b.

(** ** Repetitions of which the number is open
    A sequence of such pieces, each of which may be repeated in any way; a number for each quantifier makes it a pattern of a fixed width. *)
Definition loose_part (p : part) : bool := match p with PSingle e | PQuant e _ => steady_expr e | PStart | PEnd => false end.
Definition loose_branch (b : branch) : bool := forallb loose_part b.
Inductive counted_as : branch -> list nat -> branch -> Prop :=
| ca_nil : counted_as [] [] []
| ca_single : forall e b ks b', counted_as b ks b' -> counted_as (PSingle e :: b) ks (PSingle e :: b')
| ca_quant : forall e q n b ks b', quant_allows (q_type q) n -> counted_as b ks b' ->
    counted_as (PQuant e q :: b) (n :: ks) (PQuant e {| q_type := QMultiple (N.of_nat n); q_alt := q_alt q |} :: b').
(** The first numbers that differ decide: more is better, fewer after a second question mark. *)
Fixpoint prefers (b : branch) (ks ks' : list nat) : Prop :=
  match b with
  | [] => True
  | PQuant _ q :: b' =>
      match ks, ks' with
      | k :: r, k' :: r' => (if q_alt q then k < k' else k' < k) \/ k = k' /\ prefers b' r r'
      | _, _ => False
      end
  | _ :: b' => prefers b' ks ks'
  end.
(** Every quantified expression takes up characters. *)
Definition wide_branch (b : branch) : bool := forallb (fun p => match p with PQuant e _ => 0 <? width_expr e | _ => true end) b.
