(** When two patterns are two ways to write the same thing down to the captures: rules for rewriting a pattern that keep the numbers of
    its groups and the order of preference.  (SpecEquiv.v has the rules that keep only the places where a pattern matches.) *)
From Verif Require Export SpecEquiv SpecPriority.
Open Scope nat_scope.
Open Scope list_scope.

Definition one_count (q : quant) (k : nat) : Prop := forall n, allows q n <-> n = k.
(** The same numbers of repetitions, in the same order. *)
Definition same_quant (q r : quant) : Prop := (forall n, allows q n <-> allows r n) /\ (q_alt q = q_alt r \/ exists k, one_count q k).
Definition no_common (a c : atom) : Prop := forall x, atom_has a x -> atom_has c x -> False.

Inductive same_expr : expr -> expr -> Prop :=
| sx_refl : forall x, same_expr x x
| sx_sub : forall a b, same_ere a b -> same_expr (XSub a) (XSub b)
| sx_atom : forall a b, (forall c, atom_has a c <-> atom_has b c) -> same_expr (XAtom a) (XAtom b)
with same_part : part -> part -> Prop :=
| sp_refl : forall p, same_part p p
| sp_single : forall x y, same_expr x y -> same_part (PSingle x) (PSingle y)
(** [*] or [{0,}], [?] or [{0,1}], [{3}] or [{3,3}?], ... *)
| sp_quant : forall x y q r, same_expr x y -> same_quant q r -> same_part (PQuant x q) (PQuant y r)
with same_branch : branch -> branch -> Prop :=
| sbr_refl : forall b, same_branch b b
| sbr_sym : forall a b, same_branch a b -> same_branch b a
| sbr_trans : forall a b c, same_branch a b -> same_branch b c -> same_branch a c
| sbr_cons : forall p q a b, same_part p q -> same_branch a b -> same_branch (p :: a) (q :: b)
(** [x{1}] and [x], [a{0}] and nothing *)
| sbr_once : forall x q b, one_count q 1 -> same_branch (PQuant x q :: b) (PSingle x :: b)
| sbr_none : forall a q b, one_count q 0 -> same_branch (PQuant (XAtom a) q :: b) b
(** [a+] and [a{1}a*], [a{2,5}?] and [a{2}a{0,3}?] *)
| sbr_unroll : forall a q r t b k, one_count r k -> (q_alt q = q_alt t \/ exists m, one_count q m) -> (forall n, allows q n <-> exists l, n = k + l /\ allows t l) ->
    same_branch (PQuant (XAtom a) q :: b) (PQuant (XAtom a) r :: PQuant (XAtom a) t :: b)
(** [a{2}a*] and [a*a{2}] *)
| sbr_swap : forall a r t b k, one_count r k -> same_branch (PQuant (XAtom a) r :: PQuant (XAtom a) t :: b) (PQuant (XAtom a) t :: PQuant (XAtom a) r :: b)
| sbr_start : forall b, same_branch (PStart :: PStart :: b) (PStart :: b)
| sbr_end : forall b, same_branch (PEnd :: PEnd :: b) (PEnd :: b)
with same_ere : ere -> ere -> Prop :=
| se_refl : forall e, same_ere e e
| se_sym : forall a b, same_ere a b -> same_ere b a
| se_trans : forall a b c, same_ere a b -> same_ere b c -> same_ere a c
| se_cons : forall a b d e, same_branch a b -> same_ere d e -> same_ere (a :: d) (b :: e)
(** an alternative that comes again later *)
| se_again : forall b m e, groups_branch b = 0 -> same_ere (b :: m ++ b :: e) (b :: m ++ e)
(** an alternative that cannot match: [xa{2,1}] *)
| se_never : forall u x q v e, groups_branch (u ++ PQuant x q :: v) = 0 -> (forall n, ~ allows q n) -> same_ere ((u ++ PQuant x q :: v) :: e) e
(** [a?v] and [av|v]; [a??v] and [v|av] *)
| se_optional : forall a q v e, groups_branch v = 0 -> (forall n, allows q n <-> n <= 1) ->
    same_ere ((PQuant (XAtom a) q :: v) :: e) (if q_alt q then v :: (PSingle (XAtom a) :: v) :: e else (PSingle (XAtom a) :: v) :: v :: e)
(** alternatives that begin with different characters *)
| se_apart : forall a u c v e, groups_branch u = 0 -> groups_branch v = 0 -> no_common a c ->
    same_ere ((PSingle (XAtom a) :: u) :: (PSingle (XAtom c) :: v) :: e) ((PSingle (XAtom c) :: v) :: (PSingle (XAtom a) :: u) :: e).
Scheme same_expr_i := Induction for same_expr Sort Prop
with same_part_i := Induction for same_part Sort Prop
with same_branch_i := Induction for same_branch Sort Prop
with same_ere_i := Induction for same_ere Sort Prop.
Combined Scheme same_ind4 from same_expr_i, same_part_i, same_branch_i, same_ere_i.
