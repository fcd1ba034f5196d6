(** The simplified syntax tree.  Models [ere-core/src/simplified_tree.rs]. *)
From Verif Require Export Base Ast.
Open Scope nat_scope.
Open Scope list_scope.

(** [SimplifiedTreeNode], simplified_tree.rs:9-26.  [NonZeroUsize] counts are [nat]; the smart
    constructors below never build a zero count. *)
Inductive tree :=
| TEmpty
| TSymbol (a : atom)
| TUnion (l : list tree)
| TCapture (t : tree) (k : nat)
| TConcat (l : list tree)
| TRepeat (t : tree) (n : nat)
| TUpTo (t : tree) (n : nat) (longest : bool)
| TStar (t : tree) (longest : bool)
| TStart
| TEnd
| TNever.

(** simplified_tree.rs:41-47 *)
Definition t_concat (a b : tree) : tree :=
  match a with TConcat c => TConcat (c ++ [b]) | _ => TConcat [a; b] end.
(** simplified_tree.rs:48-53 *)
Definition t_repeat (t : tree) (n : nat) : tree := match n with O => TEmpty | _ => TRepeat t n end.
(** simplified_tree.rs:54-59 *)
Definition t_upto (t : tree) (n : nat) (longest : bool) : tree := match n with O => TEmpty | _ => TUpTo t n longest end.
(** simplified_tree.rs:28-30 *)
Definition t_optional (t : tree) (longest : bool) : tree := t_upto t 1 longest.
(** simplified_tree.rs:60-62 *)
Definition t_star (t : tree) (longest : bool) : tree := TStar t longest.

(** [AmbiguousSubmatchMode], config.rs:1-18. *)
Inductive submatch_mode := Greedy.
(** [Config], config.rs:20-26. *)
Record config := mkConfig { ambiguous_submatches : submatch_mode }.
(** [Config::quantifiers_prefer_longest], config.rs:28-32. *)
Definition quantifiers_prefer_longest (c : config) : bool := match ambiguous_submatches c with Greedy => true end.
(** [Config::const_default] and [Config::default], config.rs:36-45. *)
Definition config_default : config := mkConfig Greedy.

(** simplified_tree.rs:208-231, the quantifier part of [from_ere_part].  Every caller passes [Config::default()], so the
    configuration is not threaded through the functions below. *)
Definition quant_tree (child : tree) (q : quant) : tree :=
  let longest := xorb (quantifiers_prefer_longest config_default) (q_alt q) in
  match q_type q with
  | QStar => t_star child longest
  | QPlus => t_concat child (t_star child longest)
  | QQuestion => t_optional child longest
  | QMultiple n => t_repeat child (N.to_nat n)
  | QRange n None => t_concat (t_repeat child (N.to_nat n)) (t_star child longest)
  | QRange n (Some m) =>
      if (m <? n)%N then TNever
      else if (m =? n)%N then t_repeat child (N.to_nat n)
      else t_concat (t_repeat child (N.to_nat n)) (t_upto child (N.to_nat (m - n)) longest)
  end.

(** [from_ere_part] 199-235, [from_ere_expression] 236-252, [from_ere_branch] 182-198,
    [from_sub_ere] 165-181 (the last two are inlined as local loops so that the recursion is
    structural; see [tree_of_branch], [tree_of_sub]). *)
Fixpoint tree_of_part (p : part) (g : nat) : tree * nat :=
  match p with
  | PSingle e => tree_of_expr e g
  | PQuant e q => let '(c, g') := tree_of_expr e g in (quant_tree c q, g')
  | PStart => (TStart, g)
  | PEnd => (TEnd, g)
  end
with tree_of_expr (e : expr) (g : nat) : tree * nat :=
  match e with
  | XAtom a => (TSymbol a, g)
  | XSub bs =>
      let '(ts, g') :=
        (fix subs (l : list (list part)) (g : nat) : list tree * nat :=
           match l with
           | [] => ([], g)
           | b :: l' =>
               let '(ps, g1) :=
                 (fix parts (b : list part) (g : nat) : list tree * nat :=
                    match b with
                    | [] => ([], g)
                    | p :: b' => let '(t, g1) := tree_of_part p g in
                                 let '(ts, g2) := parts b' g1 in (t :: ts, g2)
                    end) b g in
               let '(ts, g2) := subs l' g1 in (TConcat ps :: ts, g2)
           end) bs (S g) in
      (TCapture (TUnion ts) g, g')
  end.
Fixpoint trees_of_parts (b : branch) (g : nat) : list tree * nat :=
  match b with
  | [] => ([], g)
  | p :: b' => let '(t, g1) := tree_of_part p g in
               let '(ts, g2) := trees_of_parts b' g1 in (t :: ts, g2)
  end.
Definition tree_of_branch (b : branch) (g : nat) : tree * nat :=
  let '(ts, g') := trees_of_parts b g in (TConcat ts, g').
Fixpoint trees_of_branches (e : ere) (g : nat) : list tree * nat :=
  match e with
  | [] => ([], g)
  | b :: e' => let '(t, g1) := tree_of_branch b g in
               let '(ts, g2) := trees_of_branches e' g1 in (t :: ts, g2)
  end.
Definition tree_of_sub (e : ere) (g : nat) : tree * nat :=
  let '(ts, g') := trees_of_branches e g in (TUnion ts, g').
(** [from_ere], simplified_tree.rs:254-257: the tree and the number of groups. *)
Definition from_ere (e : ere) : tree * nat :=
  let '(t, g) := tree_of_sub e 1 in (TCapture t 0, g).
(** [impl From<ERE>], simplified_tree.rs: [from_ere(value, &Config::default()).0]. *)
Definition tree_of (e : ere) : tree := fst (from_ere e).

(** [max_bytes], simplified_tree.rs:110-134.  Without machine integers; for overflow see [Overflow]. *)
Definition opt_max (a b : option nat) : option nat :=
  match a, b with Some x, Some y => Some (Nat.max x y) | _, _ => None end.
Definition opt_add (a b : option nat) : option nat :=
  match a, b with Some x, Some y => Some (x + y) | _, _ => None end.
Fixpoint max_bytes (t : tree) : option nat :=
  match t with
  | TEmpty | TStart | TEnd | TNever => Some 0
  | TSymbol a => match rev (to_ranges a) with [] => None | r :: _ => Some (len_utf8 (snd r)) end
  | TUnion l => match map max_bytes l with [] => Some 0 | x :: r => fold_left opt_max r x end
  | TCapture t _ => max_bytes t
  | TConcat l => fold_left opt_add (map max_bytes l) (Some 0)
  | TRepeat t n | TUpTo t n _ => option_map (fun x => x * n) (max_bytes t)
  | TStar _ _ => None
  end.
(** [min_bytes], simplified_tree.rs:137-162. *)
Fixpoint min_bytes (t : tree) : nat :=
  match t with
  | TEmpty | TStart | TEnd | TNever | TStar _ _ => 0
  | TSymbol a => match to_ranges a with [] => 0 | r :: _ => len_utf8 (fst r) end
  | TUnion l => match map min_bytes l with [] => 0 | x :: r => fold_left Nat.min r x end
  | TCapture t _ => min_bytes t
  | TConcat l => fold_left Nat.add (map min_bytes l) 0
  | TRepeat t n | TUpTo t n _ => min_bytes t * n
  end.

(** Induction over the nested tree. *)
Section TreeInd.
  Variable P : tree -> Prop.
  Hypothesis Hempty : P TEmpty.
  Hypothesis Hsym : forall a, P (TSymbol a).
  Hypothesis Hunion : forall l, Forall P l -> P (TUnion l).
  Hypothesis Hcap : forall t k, P t -> P (TCapture t k).
  Hypothesis Hconcat : forall l, Forall P l -> P (TConcat l).
  Hypothesis Hrep : forall t n, P t -> P (TRepeat t n).
  Hypothesis Hupto : forall t n b, P t -> P (TUpTo t n b).
  Hypothesis Hstar : forall t b, P t -> P (TStar t b).
  Hypothesis Hstart : P TStart.
  Hypothesis Hend : P TEnd.
  Hypothesis Hnever : P TNever.
  Fixpoint tree_ind' (t : tree) : P t :=
    let fix all (l : list tree) : Forall P l :=
      match l with [] => Forall_nil P | x :: r => Forall_cons x (tree_ind' x) (all r) end in
    match t with
    | TEmpty => Hempty
    | TSymbol a => Hsym a
    | TUnion l => Hunion l (all l)
    | TCapture t k => Hcap t k (tree_ind' t)
    | TConcat l => Hconcat l (all l)
    | TRepeat t n => Hrep t n (tree_ind' t)
    | TUpTo t n b => Hupto t n b (tree_ind' t)
    | TStar t b => Hstar t b (tree_ind' t)
    | TStart => Hstart
    | TEnd => Hend
    | TNever => Hnever
    end.
End TreeInd.
