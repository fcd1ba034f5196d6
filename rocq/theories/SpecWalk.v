(** Reading a drawing: what the labels of the arrows stand for, and which texts lead from the initial node to an accepting one.
    Used in the statements of C71. *)
From Coq Require Import String.
From Verif Require Export SpecDraw SpecAtom Words.
Open Scope nat_scope.
Open Scope list_scope.

Definition hex_of (v c : N) : Prop := nth_error (s2l "0123456789abcdef") (N.to_nat v) = Some c.
(** A byte written as a character in quotes or in hexadecimal, as in Rust. *)
Inductive byte_text : list N -> N -> Prop :=
| bt_char : forall c, (c < 128)%N -> c <> 39%N -> c <> 92%N -> byte_text (s2l "'" ++ [c] ++ s2l "'") c
| bt_escape : forall x b, In (x, b) [(ch "t", 9); (ch "n", 10); (ch "r", 13); (39, 39); (92, 92)]%N -> byte_text (s2l "'\" ++ [x] ++ s2l "'") b
| bt_code : forall v x, hex_of v x -> byte_text (s2l "'\u{" ++ [x] ++ s2l "}'") v
| bt_hex : forall v w x y, hex_of v x -> hex_of w y -> byte_text (s2l "0x" ++ [x; y]) (16 * v + w).
(** A range of bytes: one byte, or the first and the last with ..= between them. *)
Inductive range_text : list N -> N -> N -> Prop :=
| rt_one : forall t b, byte_text t b -> range_text t b b
| rt_two : forall t u lo hi, byte_text t lo -> byte_text u hi -> range_text (t ++ s2l "..=" ++ u) lo hi.
(** A byte written as itself or with a backslash, as in a Rust byte string. *)
Inductive ascii_text : list N -> N -> Prop :=
| at_char : forall c, (32 <= c <= 126)%N -> c <> 34%N -> c <> 39%N -> c <> 92%N -> ascii_text [c] c
| at_escape : forall x b, In (x, b) [(ch "t", 9); (ch "n", 10); (ch "r", 13); (34, 34); (39, 39); (92, 92)]%N -> ascii_text (s2l "\" ++ [x]) b
| at_hex : forall v w x y, hex_of v x -> hex_of w y -> ascii_text (s2l "\x" ++ [x; y]) (16 * v + w).
Inductive byte_class : list N -> N -> N -> Prop :=
| ct_one : forall t b, ascii_text t b -> byte_class t b b
| ct_two : forall t u lo hi, ascii_text t lo -> ascii_text u hi -> byte_class (s2l "[" ++ t ++ s2l "-" ++ u ++ s2l "]") lo hi.
(** The label of an arrow that reads nothing: what it does, and its number among those of its node. *)
Inductive zero_label : list N -> epsk -> Prop :=
| zl_none : forall i num, decimal i num -> zero_label (s2l "$\epsilon_{" ++ num ++ s2l "}$") ENone
| zl_start : forall i num, decimal i num -> zero_label (s2l "{\textasciicircum}$_{" ++ num ++ s2l "}$") EStart
| zl_end : forall i num, decimal i num -> zero_label (s2l "$\$_{" ++ num ++ s2l "}$") EEnd
| zl_open : forall i num k grp, decimal i num -> decimal (N.of_nat k) grp -> zero_label (s2l "$" ++ grp ++ s2l "(_{" ++ num ++ s2l "}$") (ESC k)
| zl_close : forall i num k grp, decimal i num -> decimal (N.of_nat k) grp -> zero_label (s2l "$)" ++ grp ++ s2l "_{" ++ num ++ s2l "}$") (EEC k).

(** ** Walks *)
Definition arc_to (g : graph) (x : nat) (l : list N) (y : nat) : Prop := exists s, nth_error g x = Some s /\ In (y, l) (g_trans s).
Definition initial (g : graph) (x : nat) : Prop := exists s, nth_error g x = Some s /\ g_initial s = true.
Definition accepting (g : graph) (x : nat) : Prop := exists s, nth_error g x = Some s /\ g_accept s = true.
(** Drawing of a DFA: a walk reads a byte at each arrow.  The text is accepted if, after a part of it has been read, an arrow
    without a label leads to an accepting node, or, after all of it has been read, one labelled with a dollar sign. *)
Inductive byte_walk (g : graph) : nat -> list N -> nat -> Prop :=
| wk_nil : forall x, byte_walk g x [] x
| wk_byte : forall x l y t lo hi b bs z, arc_to g x l y -> prints l t -> range_text t lo hi -> (lo <= b <= hi)%N -> byte_walk g y bs z -> byte_walk g x (b :: bs) z.
Definition accepts (g : graph) (bytes : list N) : Prop := exists x pre post y l z,
  initial g x /\ bytes = pre ++ post /\ byte_walk g x pre y /\ arc_to g y l z /\ accepting g z /\ (l = [] \/ prints l (s2l "$") /\ post = []).
(** Drawing of an NFA: the symbols read and the marks passed on a walk from the initial node to the accepting one.  [has t b]: an arrow
    with label [t] reads [b]. *)
Inductive tour (has : list N -> N -> Prop) (g : graph) : nat -> list item -> nat -> Prop :=
| to_nil : forall x, tour has g x [] x
| to_read : forall x l y t b w z, arc_to g x l y -> prints l t -> has t b -> tour has g y w z -> tour has g x (IC b :: w) z
| to_skip : forall x l y w z, arc_to g x l y -> zero_label l ENone -> tour has g y w z -> tour has g x w z
| to_mark : forall x l y e w z, arc_to g x l y -> zero_label l e -> e <> ENone -> tour has g y w z -> tour has g x (IM e :: w) z.
Definition tours (has : list N -> N -> Prop) (g : graph) (w : list item) : Prop := exists x y, initial g x /\ tour has g x w y /\ accepting g y.
(** In the byte automaton labels are classes of bytes; in the character automaton they are written as in patterns (SpecGrammar.v, SpecAtom.v),
    and an arrow labelled [^] in brackets reads any character. *)
Definition has_byte (t : list N) (b : N) : Prop := exists lo hi, byte_class t lo hi /\ (lo <= b <= hi)%N.
Definition has_char (t : list N) (c : N) : Prop := scalar c /\ (t = s2l "[^]" \/ exists a, G_atom a t /\ atom_has a c).
