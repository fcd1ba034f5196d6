(** Patterns in which a [^] cannot be the last thing passed after some character has been read.  Stated over the
    syntax tree alone. *)
From Verif Require Export Spec.
Open Scope nat_scope.
Open Scope list_scope.

(** ** The number of [^] passed, when every way through passes the same number *)
Definition opt_eqb (a b : option nat) : bool :=
  match a, b with Some x, Some y => x =? y | None, None => true | _, _ => false end.
Definition common (l : list (option nat)) : option nat :=
  match l with [] => Some 0 | x :: r => if forallb (opt_eqb x) r then x else None end.
Definition total (l : list (option nat)) : option nat :=
  fold_right (fun a b => match a, b with Some x, Some y => Some (x + y) | _, _ => None end) (Some 0) l.
Fixpoint carets_part (p : part) : option nat :=
  match p with
  | PSingle e => carets_expr e
  | PQuant e _ => match carets_expr e with Some 0 => Some 0 | _ => None end
  | PStart => Some 1
  | PEnd => Some 0
  end
with carets_expr (e : expr) : option nat :=
  match e with
  | XAtom _ => Some 0
  | XSub bs => common (map (fun b => total (map carets_part b)) bs)
  end.
Definition carets_branch (b : branch) : option nat := total (map carets_part b).
Definition carets (e : ere) : option nat := common (map carets_branch e).

(** ** Every way through reads a character *)
Definition at_least_once (q : qtype) : bool :=
  match q with QStar | QQuestion => false | QPlus => true | QMultiple n | QRange n _ => (1 <=? n)%N end.
Fixpoint consumes_part (p : part) : bool :=
  match p with
  | PSingle e => consumes_expr e
  | PQuant e q => at_least_once (q_type q) && consumes_expr e
  | PStart | PEnd => false
  end
with consumes_expr (e : expr) : bool :=
  match e with
  | XAtom _ => true
  | XSub bs => forallb (fun b => existsb consumes_part b) bs
  end.

(** ** After every [^] a character is read; [ne] says that one is read after the piece *)
Fixpoint led_part (p : part) (ne : bool) : bool :=
  match p with
  | PSingle e | PQuant e _ => led_expr e ne
  | PStart => ne
  | PEnd => true
  end
with led_expr (e : expr) (ne : bool) : bool :=
  match e with
  | XAtom _ => true
  | XSub bs => forallb (fun b => (fix go b := match b with [] => true | p :: b' => led_part p (existsb consumes_part b' || ne) && go b' end) b) bs
  end.
Fixpoint led_branch (b : branch) (ne : bool) : bool :=
  match b with [] => true | p :: b' => led_part p (existsb consumes_part b' || ne) && led_branch b' ne end.
Definition led (e : ere) : bool := forallb (fun b => led_branch b false) e.

(** Either condition will do. *)
Definition caret_ok (e : ere) : bool := match carets e with Some _ => true | None => led e end.

(** ** The pattern without its [^] *)
Definition is_caret (p : part) : bool := match p with PStart => true | _ => false end.
Fixpoint uncaret_part (p : part) : part :=
  match p with
  | PSingle e => PSingle (uncaret_expr e)
  | PQuant e q => PQuant (uncaret_expr e) q
  | _ => p
  end
with uncaret_expr (e : expr) : expr :=
  match e with
  | XAtom a => XAtom a
  | XSub bs => XSub (map (fun b => flat_map (fun p => if is_caret p then [] else [uncaret_part p]) b) bs)
  end.
Definition uncaret_branch (b : branch) : branch := flat_map (fun p => if is_caret p then [] else [uncaret_part p]) b.
Definition uncaret (e : ere) : ere := map uncaret_branch e.

(** ** Matching in which [^] holds at the positions [P]
    The judgements of Spec.v with one clause changed: a [^] is passed at any position of which [P] holds. *)
Section MatchAt.
  Variable T : list N.
  Variable P : nat -> Prop.
  Inductive a_part : part -> nat -> nat -> nat -> log -> Prop :=
  | ap_single : forall e g i j L, a_expr e g i j L -> a_part (PSingle e) g i j L
  | ap_quant : forall e q n g i j L, quant_allows (q_type q) n -> a_iter e n g i j L -> a_part (PQuant e q) g i j L
  | ap_start : forall g i, P i -> i <= length T -> a_part PStart g i i []
  | ap_end : forall g, a_part PEnd g (length T) (length T) []
  with a_iter : expr -> nat -> nat -> nat -> nat -> log -> Prop :=
  | ai_none : forall e g i, i <= length T -> a_iter e 0 g i i []
  | ai_more : forall e n g i j k L1 L2, a_expr e g i j L1 -> a_iter e n g j k L2 -> a_iter e (S n) g i k (L1 ++ L2)
  with a_expr : expr -> nat -> nat -> nat -> log -> Prop :=
  | ae_atom : forall a g i c, nth_error T i = Some c -> atom_has a c -> a_expr (XAtom a) g i (S i) []
  | ae_group : forall bs g i j L, a_alts bs (S g) i j L -> a_expr (XSub bs) g i j (L ++ [(g, (i, j))])
  with a_alts : ere -> nat -> nat -> nat -> log -> Prop :=
  | aa_here : forall b bs g i j L, a_branch b g i j L -> a_alts (b :: bs) g i j L
  | aa_later : forall b bs g i j L, a_alts bs (g + groups_branch b) i j L -> a_alts (b :: bs) g i j L
  with a_branch : branch -> nat -> nat -> nat -> log -> Prop :=
  | ab_nil : forall g i, i <= length T -> a_branch [] g i i []
  | ab_cons : forall p b g i j k L1 L2, a_part p g i j L1 -> a_branch b (g + groups_part p) j k L2 ->
                a_branch (p :: b) g i k (L1 ++ L2).
  Definition matches_at (e : ere) (i j : nat) (L : log) : Prop :=
    exists L', a_alts e 1 i j L' /\ L = L' ++ [(0, (i, j))].
End MatchAt.
Scheme a_part_i := Induction for a_part Sort Prop
with a_iter_i := Induction for a_iter Sort Prop
with a_expr_i := Induction for a_expr Sort Prop
with a_alts_i := Induction for a_alts Sort Prop
with a_branch_i := Induction for a_branch Sort Prop.
Combined Scheme at_ind from a_part_i, a_iter_i, a_expr_i, a_alts_i, a_branch_i.

(** A match in which every [^] is passed at the beginning of the text or where the match ends, the latter, if
    [whole], only at the end of the text. *)
Definition late_match (whole : bool) (T : list N) (e : ere) (i j : nat) (L : log) : Prop :=
  matches_at T (fun k => k = 0 \/ k = j /\ (whole = true -> j = length T)) e i j L.
