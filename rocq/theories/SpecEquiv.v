(** When two patterns are two ways to write the same thing.  Each rule rewrites a pattern without regard to group numbers and to the
    order of preference; how often something may be repeated is compared by the numbers of repetitions a quantifier allows. *)
From Coq Require Export Permutation.
From Verif Require Export Spec.
Open Scope nat_scope.
Open Scope list_scope.

Definition allows (q : quant) (n : nat) : Prop := quant_allows (q_type q) n.
Inductive eq_expr : expr -> expr -> Prop :=
| xe_refl : forall x, eq_expr x x
| xe_sub : forall a b, eq_ere a b -> eq_expr (XSub a) (XSub b)
(** atoms with the same characters *)
| xe_atom : forall a b, (forall c, atom_has a c <-> atom_has b c) -> eq_expr (XAtom a) (XAtom b)
with eq_part : part -> part -> Prop :=
| pe_refl : forall p, eq_part p p
| pe_single : forall x y, eq_expr x y -> eq_part (PSingle x) (PSingle y)
(** greedy or lazy, [*] or [{0,}], [?] or [{0,1}], ... *)
| pe_quant : forall x y q r, eq_expr x y -> (forall n, allows q n <-> allows r n) -> eq_part (PQuant x q) (PQuant y r)
with eq_branch : branch -> branch -> Prop :=
| be_refl : forall b, eq_branch b b
| be_sym : forall a b, eq_branch a b -> eq_branch b a
| be_trans : forall a b c, eq_branch a b -> eq_branch b c -> eq_branch a c
| be_cons : forall p q a b, eq_part p q -> eq_branch a b -> eq_branch (p :: a) (q :: b)
(** [x{1}] and [x], [x{0}] and nothing *)
| be_once : forall x q b, (forall n, allows q n <-> n = 1) -> eq_branch (PQuant x q :: b) (PSingle x :: b)
| be_none : forall x q b, (forall n, allows q n <-> n = 0) -> eq_branch (PQuant x q :: b) b
(** [x+] and [x{1}x*], [x{2,5}] and [x{2}x{0,3}] *)
| be_unroll : forall x q r t b, (forall n, allows q n <-> exists k l, n = k + l /\ allows r k /\ allows t l) ->
    eq_branch (PQuant x q :: b) (PQuant x r :: PQuant x t :: b)
(** [(x+)*] and [x*] *)
| be_nested : forall x q r t b, (forall n, allows q n <-> exists l, allows t (length l) /\ Forall (allows r) l /\ n = list_sum l) ->
    eq_branch (PQuant x q :: b) (PQuant (XSub [[PQuant x r]]) t :: b)
(** [(ab)c] and [abc] *)
| be_inline : forall a b, eq_branch (PSingle (XSub [a]) :: b) (a ++ b)
| be_start : forall b, eq_branch (PStart :: PStart :: b) (PStart :: b)
| be_end : forall b, eq_branch (PEnd :: PEnd :: b) (PEnd :: b)
with eq_ere : ere -> ere -> Prop :=
| ee_refl : forall e, eq_ere e e
| ee_sym : forall a b, eq_ere a b -> eq_ere b a
| ee_trans : forall a b c, eq_ere a b -> eq_ere b c -> eq_ere a c
| ee_cons : forall a b d e, eq_branch a b -> eq_ere d e -> eq_ere (a :: d) (b :: e)
(** alternatives in another order, or written twice *)
| ee_perm : forall a b, Permutation a b -> eq_ere a b
| ee_twice : forall b e, eq_ere (b :: b :: e) (b :: e)
(** [x(a|b)y] and [xay|xby] *)
| ee_distribute : forall x a y e, eq_ere ((x ++ PSingle (XSub a) :: y) :: e) (map (fun b => x ++ b ++ y) a ++ e)
(** [x?] and [x{1}|x{0}] *)
| ee_split : forall u x q r t v e, (forall n, allows q n <-> allows r n \/ allows t n) ->
    eq_ere ((u ++ PQuant x q :: v) :: e) ((u ++ PQuant x r :: v) :: (u ++ PQuant x t :: v) :: e).
Scheme eq_expr_i := Induction for eq_expr Sort Prop
with eq_part_i := Induction for eq_part Sort Prop
with eq_branch_i := Induction for eq_branch Sort Prop
with eq_ere_i := Induction for eq_ere Sort Prop.
Combined Scheme eq_ind4 from eq_expr_i, eq_part_i, eq_branch_i, eq_ere_i.
