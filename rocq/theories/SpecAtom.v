(** What single-character patterns mean, stated without reference to the code being modelled
    (only the syntax types are shared). *)
From Verif Require Export Ast.
From Coq Require Import String.
Open Scope N_scope.
Open Scope list_scope.

(** The POSIX character classes in the C locale, following the standard's wording:
    each class is given by enumeration or in terms of other classes. *)
Definition between (a b : string) (c : N) : Prop := ch a <= c <= ch b.
Definition sp_upper (c : N) : Prop := between "A" "Z" c.
Definition sp_lower (c : N) : Prop := between "a" "z" c.
Definition sp_alpha (c : N) : Prop := sp_upper c \/ sp_lower c.
Definition sp_digit (c : N) : Prop := between "0" "9" c.
Definition sp_alnum (c : N) : Prop := sp_alpha c \/ sp_digit c.
Definition sp_xdigit (c : N) : Prop := sp_digit c \/ between "A" "F" c \/ between "a" "f" c.
Definition sp_cntrl (c : N) : Prop := c < 0x20 \/ c = 0x7f.
Definition sp_space (c : N) : Prop := In c [0x20; 0x09; 0x0a; 0x0b; 0x0c; 0x0d].
Definition sp_blank (c : N) : Prop := In c [0x20; 0x09].
(** printable: an ASCII character that is not a control character *)
Definition sp_print (c : N) : Prop := c < 0x80 /\ ~ sp_cntrl c.
(** graphic: printable and not the space character *)
Definition sp_graph (c : N) : Prop := sp_print c /\ c <> 0x20.
(** punctuation: graphic and not alphanumeric *)
Definition sp_punct (c : N) : Prop := sp_graph c /\ ~ sp_alnum c.
Definition class_has (k : cclass) : N -> Prop :=
  match k with
  | Alphanumeric => sp_alnum | Control => sp_cntrl | Lower => sp_lower | Space => sp_space
  | Alphabet => sp_alpha | Digit => sp_digit | Print_ => sp_print | Upper => sp_upper
  | Blank => sp_blank | Graphic => sp_graph | Punctuation => sp_punct | HexDigit => sp_xdigit
  end.

Definition term_has (t : term) (c : N) : Prop :=
  match t with
  | Single a => c = a
  | Range a b => a <= c <= b
  | Class k => class_has k c
  end.
(** [.] is any character but NUL; a bracket expression is the union of its terms, or the complement. *)
Definition atom_has (a : atom) (c : N) : Prop :=
  match a with
  | NormalChar x => c = x
  | Dot => c <> 0
  | MatchingList ts => exists t, In t ts /\ term_has t c
  | NonmatchingList ts => ~ exists t, In t ts /\ term_has t c
  end.

(** A character of a list of (possibly reversed, hence empty) closed intervals. *)
Definition covered (c : N) (rs : list range) : Prop := exists r, In r rs /\ fst r <= c <= snd r.

(** Terms and atoms over genuine [char] values. *)
Definition term_ok (t : term) : Prop :=
  match t with Single a => scalar a | Range a b => scalar a /\ scalar b | Class _ => True end.
Definition atom_ok (a : atom) : Prop :=
  match a with
  | NormalChar c => scalar c
  | Dot => True
  | MatchingList ts | NonmatchingList ts => Forall term_ok ts
  end.
(** No range with reversed end points. *)
Definition term_fwd (t : term) : Prop := match t with Range a b => a <= b | _ => True end.
Definition atom_fwd (a : atom) : Prop :=
  match a with MatchingList ts | NonmatchingList ts => Forall term_fwd ts | _ => True end.
