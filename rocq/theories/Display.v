(** Printing of parsed patterns.  Models the [Display] impls of [ere-core/src/parse_tree.rs]. *)
From Verif Require Export Parser.
From Coq Require Import String.
Open Scope N_scope.
Open Scope list_scope.

(** [u32]'s [Display]: decimal without leading zeros. *)
Fixpoint show_N_fuel (fuel : nat) (n : N) : list N :=
  match fuel with
  | O => []
  | S fuel => if n <? 10 then [ch "0" + n] else show_N_fuel fuel (n / 10) ++ [ch "0" + n mod 10]
  end.
Definition show_N (n : N) : list N := show_N_fuel (S (N.size_nat n)) n.

(** parse_tree.rs:250-261 *)
Definition show_qtype (q : qtype) : list N :=
  match q with
  | QStar => s2l "*"
  | QPlus => s2l "+"
  | QQuestion => s2l "?"
  | QMultiple n => s2l "{" ++ show_N n ++ s2l "}"
  | QRange n None => s2l "{" ++ show_N n ++ s2l ",}"
  | QRange n (Some m) => s2l "{" ++ show_N n ++ s2l "," ++ show_N m ++ s2l "}"
  end.
(** parse_tree.rs:311-320 *)
Definition show_quant (q : quant) : list N :=
  show_qtype (q_type q) ++ (if q_alt q then s2l "?" else []).
(** parse_tree.rs:794-802 *)
Definition show_term (t : term) : list N :=
  match t with
  | Single c => [c]
  | Range a b => [a; ch "-"; b]
  | Class k => class_text k
  end.
(** parse_tree.rs:594-616 *)
Definition show_atom (a : atom) : list N :=
  match a with
  | NormalChar c => if is_escapable c then [ch "\"; c] else [c]
  | Dot => s2l "."
  | MatchingList ts => s2l "[" ++ flat_map show_term ts ++ s2l "]"
  | NonmatchingList ts => s2l "[^" ++ flat_map show_term ts ++ s2l "]"
  end.
(** parse_tree.rs:111-123 (separator [|]) *)
Fixpoint join_bar (ss : list (list N)) : list N :=
  match ss with
  | [] => []
  | [s] => s
  | s :: ss' => s ++ s2l "|" ++ join_bar ss'
  end.
(** parse_tree.rs:190-199 and 206-213 *)
Fixpoint show_part (p : part) : list N :=
  match p with
  | PSingle e => show_expr e
  | PQuant e q => show_expr e ++ show_quant q
  | PStart => s2l "^"
  | PEnd => s2l "$"
  end
with show_expr (e : expr) : list N :=
  match e with
  | XAtom a => show_atom a
  | XSub bs => s2l "(" ++ join_bar (map (flat_map show_part) bs) ++ s2l ")"
  end.
(** parse_tree.rs:148-155 *)
Definition show_branch (b : branch) : list N := flat_map show_part b.
(** parse_tree.rs:111-123 *)
Definition show_ere (e : ere) : list N := join_bar (map show_branch e).
