(** Notions about automata used in the statements of the properties: connections and zero-width walks.
    Words and languages of automata are in [Words]. *)
From Verif Require Export Words EpsProp.
Open Scope nat_scope.
Open Scope list_scope.

Section Auto.
  Context {A : Type}.
  (** There are edges leading from one state to another. *)
  Inductive linked (n : nfa A) : nat -> nat -> Prop :=
  | lk_refl : forall s, linked n s s
  | lk_eps : forall s t u e, In (t, e) (eps (get n s)) -> linked n t u -> linked n s u
  | lk_sym : forall s t u a, In (t, a) (trans (get n s)) -> linked n t u -> linked n s u.
  (** A walk over zero-width edges only, with the kinds of the edges taken. *)
  Inductive walk (n : nfa A) : nat -> list epsk -> nat -> Prop :=
  | wk_nil : forall s, walk n s [] s
  | wk_step : forall s t u e es, In (t, e) (eps (get n s)) -> walk n t es u -> walk n s (e :: es) u.
  (** There is an edge, and there is no way round a cycle. *)
  Definition arrow (n : nfa A) (s t : nat) : Prop :=
    (exists e, In (t, e) (eps (get n s))) \/ (exists a, In (t, a) (trans (get n s))).
  Definition no_cycle (n : nfa A) : Prop := forall s t, arrow n s t -> ~ linked n t s.
  (** Every target is the index of a state. *)
  Definition closed (n : nfa A) : Prop := forall s t,
    (exists e, In (t, e) (eps (get n s))) \/ (exists a, In (t, a) (trans (get n s))) -> t < length n.
End Auto.

(** The capture marks of a walk, each at its first occurrence. *)
Fixpoint capture_marks (es : list epsk) : list tag :=
  match es with
  | [] => []
  | ESC k :: r => TagS k :: capture_marks r
  | EEC k :: r => TagE k :: capture_marks r
  | _ :: r => capture_marks r
  end.
Fixpoint firsts (l : list tag) : list tag :=
  match l with
  | [] => []
  | x :: r => x :: filter (fun y => negb (tag_eqb x y)) (firsts r)
  end.
