(** How the groups of a pattern lie to each other: one inside another, one after another, in different alternatives, repeated together. *)
From Verif Require Export Spec.
Open Scope nat_scope.
Open Scope list_scope.

(** The parts of a pattern, everywhere in it, each with the number of the first group in it. *)
Fixpoint places_part (p : part) (g : nat) : list (nat * part) :=
  (g, p) :: match p with
            | PSingle e | PQuant e _ => places_expr e g
            | PStart | PEnd => []
            end
with places_expr (e : expr) (g : nat) : list (nat * part) :=
  match e with
  | XAtom _ => []
  | XSub bs =>
      (fix alts (bs : ere) (g : nat) : list (nat * part) :=
         match bs with
         | [] => []
         | b :: r => (fix parts (b : branch) (g : nat) : list (nat * part) :=
                        match b with
                        | [] => []
                        | p :: r => places_part p g ++ parts r (g + groups_part p)
                        end) b g ++ alts r (g + groups_branch b)
         end) bs (S g)
  end.
Fixpoint places_branch (b : branch) (g : nat) : list (nat * part) :=
  match b with
  | [] => []
  | p :: r => places_part p g ++ places_branch r (g + groups_part p)
  end.
Fixpoint places_ere (e : ere) (g : nat) : list (nat * part) :=
  match e with
  | [] => []
  | b :: r => places_branch b g ++ places_ere r (g + groups_branch b)
  end.
Definition places (e : ere) : list (nat * part) := places_ere e 1.

(** [bs] is what stands between the parentheses of group [k]. *)
Definition bears (ps : list (nat * part)) (k : nat) (bs : ere) : Prop := In (k, PSingle (XSub bs)) ps \/ exists q, In (k, PQuant (XSub bs) q) ps.
Definition group_is (e : ere) (k : nat) (bs : ere) : Prop := k = 0 /\ bs = e \/ bears (places e) k bs.
(** Group [k'] is inside group [k]. *)
Definition encloses (e : ere) (k k' : nat) : Prop := exists bs, group_is e k bs /\ k < k' <= k + groups bs.
(** Groups [k] and [k'] are both in something that may be repeated more than once. *)
Definition looped (ps : list (nat * part)) (k k' : nat) : Prop :=
  exists g x q n, In (g, PQuant x q) ps /\ quant_allows (q_type q) n /\ 2 <= n /\ g <= k < g + groups_expr x /\ g <= k' < g + groups_expr x.
Definition together (e : ere) (k k' : nat) : Prop := looped (places e) k k'.
(** Groups [k] and [k'] are in different alternatives, [k] in the earlier one. *)
Definition rivals (e : ere) (k k' : nat) : Prop :=
  exists h l b r, group_is e h (l ++ b :: r) /\ let g := S h + groups l in g <= k < g + groups_branch b /\ g + groups_branch b <= k' < g + groups_branch b + groups r.

(** Group [k] takes part whenever the syntax does. *)
Inductive always_part : part -> nat -> nat -> Prop :=
| al_here : forall bs g, always_part (PSingle (XSub bs)) g g
| al_inside : forall b g k, always_branch b (S g) k -> always_part (PSingle (XSub [b])) g k
| al_quant : forall x q g k, ~ quant_allows (q_type q) 0 -> always_part (PSingle x) g k -> always_part (PQuant x q) g k
with always_branch : branch -> nat -> nat -> Prop :=
| al_first : forall p b g k, always_part p g k -> always_branch (p :: b) g k
| al_rest : forall p b g k, always_branch b (g + groups_part p) k -> always_branch (p :: b) g k.
(** Group [k'] takes part in every pass of group [k]. *)
Definition bound_to (e : ere) (k k' : nat) : Prop := exists b, group_is e k [b] /\ always_branch b (S k) k'.
