(** The groups of a pattern in the order of their opening parentheses, and the nodes of a lowered tree. *)
From Verif Require Export Spec Tree.
Open Scope nat_scope.
Open Scope list_scope.

Fixpoint opens_part (p : part) : list ere :=
  match p with
  | PSingle e | PQuant e _ => opens_expr e
  | PStart | PEnd => []
  end
with opens_expr (e : expr) : list ere :=
  match e with
  | XAtom _ => []
  | XSub bs => bs :: flat_map (fun b => flat_map opens_part b) bs
  end.
Definition opens_branch (b : branch) : list ere := flat_map opens_part b.
Definition opens (e : ere) : list ere := flat_map opens_branch e.

Inductive subtree : tree -> tree -> Prop :=
| st_refl : forall t, subtree t t
| st_union : forall t u l, In u l -> subtree t u -> subtree t (TUnion l)
| st_concat : forall t u l, In u l -> subtree t u -> subtree t (TConcat l)
| st_capture : forall t u k, subtree t u -> subtree t (TCapture u k)
| st_repeat : forall t u n, subtree t u -> subtree t (TRepeat u n)
| st_upto : forall t u n b, subtree t u -> subtree t (TUpTo u n b)
| st_star : forall t u b, subtree t u -> subtree t (TStar u b).

(** No quantifier forbids its expression altogether ([{0}], [{0,0}], [{2,1}]). *)
Fixpoint used_part (p : part) : Prop :=
  match p with
  | PSingle e => used_expr e
  | PQuant e q => (exists n, 1 <= n /\ quant_allows (q_type q) n) /\ used_expr e
  | PStart | PEnd => True
  end
with used_expr (e : expr) : Prop :=
  match e with
  | XAtom _ => True
  | XSub bs => fold_right (fun b P => fold_right (fun p Q => used_part p /\ Q) True b /\ P) True bs
  end.
Definition used_branch (b : branch) : Prop := fold_right (fun p Q => used_part p /\ Q) True b.
Definition used (e : ere) : Prop := fold_right (fun b P => used_branch b /\ P) True e.

(** The atoms of a pattern. *)
Fixpoint atoms_part (p : part) : list atom :=
  match p with
  | PSingle e | PQuant e _ => atoms_expr e
  | PStart | PEnd => []
  end
with atoms_expr (e : expr) : list atom :=
  match e with
  | XAtom a => [a]
  | XSub bs => flat_map (fun b => flat_map atoms_part b) bs
  end.
Definition atoms_branch (b : branch) : list atom := flat_map atoms_part b.
Definition atoms (e : ere) : list atom := flat_map atoms_branch e.

(** No [?] and no [{n,m}] with [n < m]. *)
Definition exact_quant (q : qtype) : Prop :=
  match q with
  | QQuestion => False
  | QRange n (Some m) => (m <= n)%N
  | _ => True
  end.
Fixpoint exact_part (p : part) : Prop :=
  match p with
  | PSingle e => exact_expr e
  | PQuant e q => exact_quant (q_type q) /\ exact_expr e
  | PStart | PEnd => True
  end
with exact_expr (e : expr) : Prop :=
  match e with
  | XAtom _ => True
  | XSub bs => fold_right (fun b P => fold_right (fun p Q => exact_part p /\ Q) True b /\ P) True bs
  end.
Definition exact_branch (b : branch) : Prop := fold_right (fun p Q => exact_part p /\ Q) True b.
Definition exact (e : ere) : Prop := fold_right (fun b P => exact_branch b /\ P) True e.

(** No term of a bracket is [[:graph:]] or [[:xdigit:]]. *)
Definition named_well (a : atom) : Prop :=
  match a with MatchingList l | NonmatchingList l => ~ In (Class Graphic) l /\ ~ In (Class HexDigit) l | _ => True end.
(** An atom written with ASCII characters only. *)
Definition ascii_atom (a : atom) : Prop :=
  match a with
  | NormalChar c => (c < 128)%N
  | MatchingList l => Forall (fun t => match t with Single c | Range _ c => (c < 128)%N | Class _ => True end) l
  | _ => False
  end.
(** All matches of a pattern in a text have the same captures. *)
Definition one_answer (e : ere) : Prop :=
  forall T i j L i' j' L' k, Forall scalar T -> matches T e i j L -> matches T e i' j' L' -> capture T L k = capture T L' k.
