(** The concrete grammar of patterns as inductive relations between syntax trees and texts, stated
    without reference to the parser.  No look-ahead side conditions are needed except inside brackets. *)
From Verif Require Export Ast.
From Coq Require Import String.
Open Scope N_scope.
Open Scope list_scope.

(** Characters that do not stand for themselves outside brackets. *)
Definition special_chars : list N := s2l "^.[$()|*+?{\".
(** Characters that may follow a backslash. *)
Definition escapable_chars : list N := s2l "^.[$()|*+?{\]}".

(** Decimal numerals: digits (leading zeros allowed), optional leading [+], value below 2^32. *)
Definition is_digit (d : N) : Prop := ch "0" <= d <= ch "9".
Definition digits_value (ds : list N) : N := fold_left (fun a d => 10 * a + (d - ch "0")) ds 0.
Inductive G_num : N -> list N -> Prop :=
| Gn_plain : forall ds, ds <> [] -> Forall is_digit ds -> digits_value ds < 2 ^ 32 -> G_num (digits_value ds) ds
| Gn_plus : forall ds, ds <> [] -> Forall is_digit ds -> digits_value ds < 2 ^ 32 ->
            G_num (digits_value ds) (s2l "+" ++ ds).

Inductive G_qtype : qtype -> list N -> Prop :=
| Gq_star : G_qtype QStar (s2l "*")
| Gq_plus : G_qtype QPlus (s2l "+")
| Gq_question : G_qtype QQuestion (s2l "?")
| Gq_mult : forall n t, G_num n t -> G_qtype (QMultiple n) (s2l "{" ++ t ++ s2l "}")
| Gq_from : forall n t, G_num n t -> G_qtype (QRange n None) (s2l "{" ++ t ++ s2l ",}")
| Gq_range : forall n m t u, G_num n t -> G_num m u ->
             G_qtype (QRange n (Some m)) (s2l "{" ++ t ++ s2l "," ++ u ++ s2l "}").
(** A trailing [?] selects the other preference. *)
Inductive G_quant : quant -> list N -> Prop :=
| Gq_default : forall q t, G_qtype q t -> G_quant {| q_type := q; q_alt := false |} t
| Gq_alt : forall q t, G_qtype q t -> G_quant {| q_type := q; q_alt := true |} (t ++ s2l "?").

Definition class_name (k : cclass) : string :=
  match k with
  | Alphanumeric => "alnum" | Control => "cntrl" | Lower => "lower" | Space => "space"
  | Alphabet => "alpha" | Digit => "digit" | Print_ => "print" | Upper => "upper"
  | Blank => "blank" | Graphic => "graph" | Punctuation => "punct" | HexDigit => "xdigit"
  end.
Definition class_expr (k : cclass) : list N := s2l "[:" ++ s2l (class_name k) ++ s2l ":]".

Definition begins (c : N) (t : list N) : Prop := exists r, t = c :: r.
Definition begins_class (t : list N) : Prop := exists k r, t = class_expr k ++ r.
(** The inside of a bracket expression up to and including its closing bracket. *)
Inductive G_body : list term -> list N -> Prop :=
| Gb_end : G_body [] (s2l "]")
| Gb_class : forall k ts t, G_body ts t -> G_body (Class k :: ts) (class_expr k ++ t)
| Gb_single : forall c ts t, c <> ch "]" -> ~ begins_class (c :: t) -> ~ begins (ch "-") t ->
              G_body ts t -> G_body (Single c :: ts) (c :: t)
| Gb_range : forall c d ts t, c <> ch "]" -> d <> ch "]" ->
             G_body ts t -> G_body (Range c d :: ts) (c :: ch "-" :: d :: t)
| Gb_last_dash : forall c, c <> ch "]" -> G_body [Single c; Single (ch "-")] (c :: s2l "-]").
(** A closing bracket right after the opening (or after [^]) is literal. *)
Inductive G_list : list term -> list N -> Prop :=
| Gl_plain : forall ts t, ~ begins (ch "]") t -> G_body ts t -> G_list ts t
| Gl_bracket : forall ts t, G_body ts t -> G_list (Single (ch "]") :: ts) (ch "]" :: t).

Inductive G_atom : atom -> list N -> Prop :=
| Ga_char : forall c, ~ In c special_chars -> G_atom (NormalChar c) [c]
| Ga_escape : forall c, In c escapable_chars -> G_atom (NormalChar c) [ch "\"; c]
| Ga_dot : G_atom Dot (s2l ".")
| Ga_list : forall ts t, ~ begins (ch "^") t -> G_list ts t -> G_atom (MatchingList ts) (s2l "[" ++ t)
| Ga_nlist : forall ts t, G_list ts t -> G_atom (NonmatchingList ts) (s2l "[^" ++ t).

Inductive G_part : part -> list N -> Prop :=
| Gp_start : G_part PStart (s2l "^")
| Gp_end : G_part PEnd (s2l "$")
| Gp_single : forall e t, G_expr e t -> G_part (PSingle e) t
| Gp_quant : forall e q t u, G_expr e t -> G_quant q u -> G_part (PQuant e q) (t ++ u)
with G_expr : expr -> list N -> Prop :=
| Gx_atom : forall a t, G_atom a t -> G_expr (XAtom a) t
| Gx_sub : forall e t, G_ere e t -> G_expr (XSub e) (s2l "(" ++ t ++ s2l ")")
with G_branch : branch -> list N -> Prop :=
| Gbr_nil : G_branch [] []
| Gbr_cons : forall p b t u, G_part p t -> G_branch b u -> G_branch (p :: b) (t ++ u)
with G_ere : ere -> list N -> Prop :=
| Ge_one : forall b t, G_branch b t -> G_ere [b] t
| Ge_more : forall b e t u, G_branch b t -> G_ere e u -> G_ere (b :: e) (t ++ s2l "|" ++ u).

Scheme G_part_mind := Minimality for G_part Sort Prop
with G_expr_mind := Minimality for G_expr Sort Prop
with G_branch_mind := Minimality for G_branch Sort Prop
with G_ere_mind := Minimality for G_ere Sort Prop.
Combined Scheme G_mutind from G_part_mind, G_expr_mind, G_branch_mind, G_ere_mind.
