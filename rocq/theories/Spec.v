(** What it means for a pattern to match part of a text, and which captures a match has.  Stated over the
    syntax tree alone; nothing here refers to the lowering, the automata or the engines. *)
From Verif Require Export SpecAtom.
Open Scope nat_scope.
Open Scope list_scope.

(** ** Groups: one for each opening parenthesis *)
Fixpoint groups_part (p : part) : nat :=
  match p with
  | PSingle e | PQuant e _ => groups_expr e
  | PStart | PEnd => 0
  end
with groups_expr (e : expr) : nat :=
  match e with
  | XAtom _ => 0
  | XSub bs => S (list_sum (map (fun b => list_sum (map groups_part b)) bs))
  end.
Definition groups_branch (b : branch) : nat := list_sum (map groups_part b).
Definition groups (e : ere) : nat := list_sum (map groups_branch e).

(** ** How often a quantifier repeats *)
Definition quant_allows (q : qtype) (n : nat) : Prop :=
  match q with
  | QStar => True
  | QPlus => 1 <= n
  | QQuestion => n <= 1
  | QMultiple k => N.of_nat n = k
  | QRange a None => (a <= N.of_nat n)%N
  | QRange a (Some b) => (a <= N.of_nat n <= b)%N
  end.

(** ** Matching
    Every judgement says that a piece of syntax whose first group has number [g] matches the characters
    [i .. j) of the text.  The list records the groups that took part, [(number, (start, end))], in the
    order in which they were closed. *)
Definition log := list (nat * (nat * nat)).

Section Match.
  Variable T : list N.

  Inductive m_part : part -> nat -> nat -> nat -> log -> Prop :=
  | mp_single : forall e g i j L, m_expr e g i j L -> m_part (PSingle e) g i j L
  | mp_quant : forall e q n g i j L, quant_allows (q_type q) n -> m_iter e n g i j L -> m_part (PQuant e q) g i j L
  | mp_start : forall g, m_part PStart g 0 0 []
  | mp_end : forall g, m_part PEnd g (length T) (length T) []
  with m_iter : expr -> nat -> nat -> nat -> nat -> log -> Prop :=
  | mi_none : forall e g i, i <= length T -> m_iter e 0 g i i []
  | mi_more : forall e n g i j k L1 L2, m_expr e g i j L1 -> m_iter e n g j k L2 -> m_iter e (S n) g i k (L1 ++ L2)
  with m_expr : expr -> nat -> nat -> nat -> log -> Prop :=
  | me_atom : forall a g i c, nth_error T i = Some c -> atom_has a c -> m_expr (XAtom a) g i (S i) []
  | me_group : forall bs g i j L, m_alts bs (S g) i j L -> m_expr (XSub bs) g i j (L ++ [(g, (i, j))])
  with m_alts : ere -> nat -> nat -> nat -> log -> Prop :=
  | ma_here : forall b bs g i j L, m_branch b g i j L -> m_alts (b :: bs) g i j L
  | ma_later : forall b bs g i j L, m_alts bs (g + groups_branch b) i j L -> m_alts (b :: bs) g i j L
  with m_branch : branch -> nat -> nat -> nat -> log -> Prop :=
  | mb_nil : forall g i, i <= length T -> m_branch [] g i i []
  | mb_cons : forall p b g i j k L1 L2, m_part p g i j L1 -> m_branch b (g + groups_part p) j k L2 ->
                m_branch (p :: b) g i k (L1 ++ L2).

  (** The whole pattern matches [i .. j): group 0 is the match itself, the others start at 1. *)
  Definition matches (e : ere) (i j : nat) (L : log) : Prop :=
    exists L', m_alts e 1 i j L' /\ L = L' ++ [(0, (i, j))].
End Match.

Scheme m_part_i := Induction for m_part Sort Prop
with m_iter_i := Induction for m_iter Sort Prop
with m_expr_i := Induction for m_expr Sort Prop
with m_alts_i := Induction for m_alts Sort Prop
with m_branch_i := Induction for m_branch Sort Prop.
Combined Scheme match_ind from m_part_i, m_iter_i, m_expr_i, m_alts_i, m_branch_i.

(** Some part of the text matches. *)
Definition occurs (e : ere) (T : list N) : Prop := exists i j L, matches T e i j L.

(** ** Captures as byte ranges *)
Definition char_bytes (c : N) : nat := if (c <? 0x80)%N then 1 else if (c <? 0x800)%N then 2 else if (c <? 0x10000)%N then 3 else 4.
Definition byte_pos (T : list N) (i : nat) : nat := list_sum (map char_bytes (firstn i T)).
(** The last participation of group [k]. *)
Fixpoint last_of (k : nat) (L : log) : option (nat * nat) :=
  match L with
  | [] => None
  | (g, s) :: r => match last_of k r with Some x => Some x | None => if g =? k then Some s else None end
  end.
Definition capture (T : list N) (L : log) (k : nat) : option (nat * nat) :=
  match last_of k L with Some (i, j) => Some (byte_pos T i, byte_pos T j) | None => None end.
(** [cs] are the captures of some match of [e] in [T]. *)
Definition captures_of (e : ere) (T : list N) (cs : list (option (nat * nat))) : Prop :=
  exists i j L, matches T e i j L /\ cs = map (capture T L) (seq 0 (length cs)).
