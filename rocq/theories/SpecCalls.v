(** The calls written in the functions that the one-pass macro generates.  Used in the statements of C73. *)
From Verif Require Export OnePass.
Open Scope nat_scope.
Open Scope list_scope.

(** The body of the function of state [s] calls the function of state [t]: the function of a run calls that of its last state, the
    function of any other state has a call in each arm of its match.  one_pass_u8.rs:660-678, 730-733 ([test]), 823-860, 955-961 ([exec]). *)
Definition calls (tab : op_tables) (runs : list inclusion) (s t : nat) : Prop :=
  match nth s runs RNone with
  | RStart r => t = run_end r
  | _ => exists r tu, In (r, tu) (nth s (op_syms tab) []) /\ t = tu_state tu
  end.
(** Functions that may be active at the same time, each called by the one before it. *)
Inductive nested (R : nat -> nat -> Prop) : list nat -> Prop :=
| nst_one : forall s, nested R [s]
| nst_call : forall s t l, R s t -> nested R (t :: l) -> nested R (s :: t :: l).
