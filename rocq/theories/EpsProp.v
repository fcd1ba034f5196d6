(** Squashing of epsilon paths.  Models [ere-core/src/epsilon_propogation.rs]; the [_char] (42-98) and
    [_u8] (105-161) versions are the same code. *)
From Verif Require Export Nfa.
Open Scope nat_scope.
Open Scope list_scope.

(** [Tag], epsilon_propogation.rs:7-12 *)
Inductive tag := TagS (k : nat) | TagE (k : nat).
Definition tag_eqb (a b : tag) : bool :=
  match a, b with TagS k, TagS l | TagE k, TagE l => k =? l | _, _ => false end.
(** 15-19 *)
Definition tag_group (t : tag) : nat := match t with TagS k | TagE k => k end.
(** Effect of a tag on capture bounds at text index [i] (e.g. flat_lockstep_nfa_u8.rs:644-651). *)
Definition apply_tag (i : nat) (b : bounds) (t : tag) : bounds :=
  match t with TagS k => set_start k i b | TagE k => set_end k i b end.
Definition apply_tags (i : nat) (ts : list tag) (b : bounds) : bounds := fold_left (apply_tag i) ts b.

(** [EpsilonPropogation], 24-36 *)
Record eprop := mkEp { ep_state : nat; ep_tags : list tag; ep_start : bool; ep_end : bool }.
Definition eprop_eqb (a b : eprop) : bool :=
  (ep_state a =? ep_state b) && list_eqb tag_eqb (ep_tags a) (ep_tags b)
  && Bool.eqb (ep_start a) (ep_start b) && Bool.eqb (ep_end a) (ep_end b).

(** Extending a thread by one epsilon transition, 56-80 *)
Definition add_tag (t : tag) (ts : list tag) : list tag := if existsb (tag_eqb t) ts then ts else ts ++ [t].
Definition ep_step (th : eprop) (e : nat * epsk) : eprop :=
  match snd e with
  | ENone => mkEp (fst e) (ep_tags th) (ep_start th) (ep_end th)
  | EStart => mkEp (fst e) (ep_tags th) true (ep_end th)
  | EEnd => mkEp (fst e) (ep_tags th) (ep_start th) true
  | ESC k => mkEp (fst e) (add_tag (TagS k) (ep_tags th)) (ep_start th) (ep_end th)
  | EEC k => mkEp (fst e) (add_tag (TagE k) (ep_tags th)) (ep_start th) (ep_end th)
  end.

Section Prop_.
  Context {A : Type}.
  (** [traverse], 49-86 / 112-149.  [fuel] bounds the recursion depth. *)
  Fixpoint traverse (fuel : nat) (n : nfa A) (th : eprop) (out : list eprop) : res (list eprop) :=
    match fuel with
    | O => Fuel
    | S f =>
        foldM (fun out e =>
                 let th' := ep_step th e in
                 if existsb (eprop_eqb th') out then Ok out else traverse f n th' out)
              (eps (get n (ep_state th))) (out ++ [th])
    end.
  (** [calculate_epsilon_propogations_*] *)
  Definition eps_props (n : nfa A) (s : nat) : res (list eprop) :=
    traverse (S (S (length n) * (nfa_size n + 3))) n (mkEp s [] false false) [].
End Prop_.
