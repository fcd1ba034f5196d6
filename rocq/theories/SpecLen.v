(** Conditions on patterns under which bounds on the length of a match are attained.  Stated over the syntax tree alone. *)
From Verif Require Export SpecLaws.
Open Scope nat_scope.
Open Scope list_scope.

(** No quantifier forbids everything ([{2,1}]), and every list of alternatives has one. *)
Fixpoint possible_part (p : part) : Prop :=
  match p with
  | PSingle e => possible_expr e
  | PQuant e q => (exists n, quant_allows (q_type q) n) /\ possible_expr e
  | PStart | PEnd => True
  end
with possible_expr (e : expr) : Prop :=
  match e with
  | XAtom _ => True
  | XSub bs => bs <> [] /\ fold_right (fun b P => fold_right (fun p Q => possible_part p /\ Q) True b /\ P) True bs
  end.
Definition possible_branch (b : branch) : Prop := fold_right (fun p Q => possible_part p /\ Q) True b.
Definition possible (e : ere) : Prop := e <> [] /\ fold_right (fun b P => possible_branch b /\ P) True e.

(** Some way through reads a character. *)
Fixpoint readable_part (p : part) : Prop :=
  match p with
  | PSingle e => readable_expr e
  | PQuant e q => (exists n, 1 <= n /\ quant_allows (q_type q) n) /\ readable_expr e
  | PStart | PEnd => False
  end
with readable_expr (e : expr) : Prop :=
  match e with
  | XAtom _ => True
  | XSub bs => fold_right (fun b P => fold_right (fun p Q => readable_part p \/ Q) False b \/ P) False bs
  end.
Definition readable_branch (b : branch) : Prop := fold_right (fun p Q => readable_part p \/ Q) False b.
Definition readable (e : ere) : Prop := fold_right (fun b P => readable_branch b \/ P) False e.

(** What is repeated without bound can read a character. *)
Definition endless (q : qtype) : bool := match q with QStar | QPlus | QRange _ None => true | _ => false end.
Fixpoint running_part (p : part) : Prop :=
  match p with
  | PSingle e => running_expr e
  | PQuant e q => (endless (q_type q) = true -> readable_expr e) /\ running_expr e
  | PStart | PEnd => True
  end
with running_expr (e : expr) : Prop :=
  match e with
  | XAtom _ => True
  | XSub bs => fold_right (fun b P => fold_right (fun p Q => running_part p /\ Q) True b /\ P) True bs
  end.
Definition running_branch (b : branch) : Prop := fold_right (fun p Q => running_part p /\ Q) True b.
Definition running (e : ere) : Prop := fold_right (fun b P => running_branch b /\ P) True e.

(** No range in a bracket list is reversed. *)
Definition forward_atoms (e : ere) : Prop := forall a, In a (atoms e) -> atom_fwd a.
