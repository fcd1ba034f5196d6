(** Printed listings of automata.  Models the [Display] impls of [WorkingNFA] (working_nfa.rs:68-72, 108-112, 987-1001),
    [U8NFA] (working_u8_nfa.rs:83-87, 977-991) and [NFAStatic] (nfa_static.rs:58-83, 106-110, 211-224).  The [Display] impls of
    a single state (working_nfa.rs:172-182, working_u8_nfa.rs:136-146) are the same lines in the other order and are not used. *)
From Coq Require Import String.
From Verif Require Export Layout NfaStatic.
Open Scope nat_scope.
Open Scope list_scope.

(** [Display for EpsilonTransition], working_nfa.rs:68-72 *)
Definition show_eps (e : nat * epsk) : list N := s2l "-> " ++ show_nat (fst e).
(** [Display for WorkingTransition], working_nfa.rs:108-112, and [for U8Transition], working_u8_nfa.rs:83-87 *)
Definition show_trans {A} (show : A -> list N) (t : nat * A) : list N := s2l "-(" ++ show (snd t) ++ s2l ")> " ++ show_nat (fst t).
(** [Display for NFATransitionStatic], nfa_static.rs:106-110 *)
Definition show_static_trans {A} (show : A -> list N) (t : nat * A) : list N := s2l "-" ++ show (snd t) ++ s2l "> " ++ show_nat (fst t).
(** One line of the listing of a state. *)
Definition line (t : list N) : list N := s2l "  " ++ t ++ nl.
(** The loops working_nfa.rs:989-999, working_u8_nfa.rs:979-989, nfa_static.rs:213-222; [after] is what follows the number of a state. *)
Definition print_nfa {A} (after : list N) (tr : nat * A -> list N) (n : nfa A) : list N :=
  flat_map (fun '(i, s) =>
              s2l "State " ++ show_nat i ++ after ++ nl
              ++ flat_map (fun e => line (show_eps e)) (eps s)
              ++ flat_map (fun t => line (tr t)) (trans s)) (enumerate n).
Definition working_text (n : nfa atom) : list N := print_nfa (s2l ":") (show_trans show_atom) n.
Definition u8_text (n : nfa range) : list N := print_nfa (s2l ":") (show_trans show_u8_atom) n.
(** [Display for AtomStatic], nfa_static.rs:58-83 *)
Definition show_static (a : atom_static) : list N :=
  match a with
  | SNormalChar c => if is_escapable c then [ch "\"; c] else [c]
  | SCharClass => s2l "."
  | SMatchingList ts => s2l "[" ++ flat_map show_term ts ++ s2l "]"
  | SNonmatchingList ts => s2l "[^" ++ flat_map show_term ts ++ s2l "]"
  end.
Definition static_text (n : nfa atom_static) : list N := print_nfa [] (show_static_trans show_static) n.
