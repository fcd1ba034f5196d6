(** Characters, strings and UTF-8.

    Rust [char] is modelled as [N]; a [char] value is always a Unicode scalar value, which is the
    predicate [scalar].  [&str] is modelled as the list of its chars; its bytes are [utf8 s]. *)
From Coq Require Export List Arith NArith Lia Bool.
From Coq Require Import Ascii String.
Export ListNotations.
Open Scope N_scope.
Open Scope list_scope.

(** [char::MAX] *)
Definition char_max : N := 0x10FFFF.

(** A Unicode scalar value: the invariant of Rust's [char]. *)
Definition scalarb (c : N) : bool := (c <? 0xD800) || ((0xE000 <=? c) && (c <=? 0x10FFFF)).
Definition scalar (c : N) : Prop := scalarb c = true.

(** [Step::forward]/[Step::backward] by one for [char] (used by [RangeInclusive<char>::next] and
    [next_back]): they jump over the surrogate gap. *)
Definition succ_char (c : N) : N := if c =? 0xD7FF then 0xE000 else c + 1.
Definition pred_char (c : N) : N := if c =? 0xE000 then 0xD7FF else c - 1.

(** [char::len_utf8] *)
Definition len_utf8 (c : N) : nat :=
  if c <? 0x80 then 1%nat else if c <? 0x800 then 2%nat else if c <? 0x10000 then 3%nat else 4%nat.

(** [char::encode_utf8] *)
Definition encode (c : N) : list N :=
  if c <? 0x80 then [c]
  else if c <? 0x800 then [0xC0 + c / 64; 0x80 + c mod 64]
  else if c <? 0x10000 then [0xE0 + c / 4096; 0x80 + (c / 64) mod 64; 0x80 + c mod 64]
  else [0xF0 + c / 262144; 0x80 + (c / 4096) mod 64; 0x80 + (c / 64) mod 64; 0x80 + c mod 64].

(** The bytes of a [&str]. *)
Definition utf8 (s : list N) : list N := flat_map encode s.

Definition scalars (s : list N) : Prop := Forall scalar s.

(** Literals: [s2l "abc"] is the list of code points of an ASCII literal, [ch "a"] one code point. *)
Definition s2l (s : string) : list N := List.map N_of_ascii (list_ascii_of_string s).
Definition ch (s : string) : N := List.hd 0 (s2l s).

(** [RangeInclusive<T>]: a pair of end points; empty when the first exceeds the second. *)
Definition range := (N * N)%type.
Definition in_range (c : N) (r : range) : bool := (fst r <=? c) && (c <=? snd r).
Definition in_ranges (c : N) (rs : list range) : bool := existsb (in_range c) rs.
Definition range_is_empty (r : range) : bool := snd r <? fst r.

(** [slice::sort_by_key]: a stable sort. *)
Fixpoint insert_by {A} (key : A -> N) (x : A) (l : list A) : list A :=
  match l with
  | [] => [x]
  | y :: r => if key x <=? key y then x :: l else y :: insert_by key x r
  end.
Definition sort_by_key {A} (key : A -> N) (l : list A) : list A :=
  fold_right (insert_by key) [] l.

(** [str::strip_prefix] *)
Fixpoint strip_prefix (p s : list N) : option (list N) :=
  match p, s with
  | [], _ => Some s
  | a :: p', b :: s' => if a =? b then strip_prefix p' s' else None
  | _ :: _, [] => None
  end.

(** [str::split_once(char)] : text before the first occurrence and text after it. *)
Fixpoint split_once (c : N) (s : list N) : option (list N * list N) :=
  match s with
  | [] => None
  | x :: r => if x =? c then Some ([], r)
              else match split_once c r with
                   | Some (a, b) => Some (x :: a, b)
                   | None => None
                   end
  end.
