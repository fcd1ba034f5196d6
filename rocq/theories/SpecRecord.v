(** Records: fields described by patterns, each followed by its own separator.  The addresses of the benchmark. *)
From Coq Require Import String.
From Verif Require Export SpecLiteral.
Open Scope nat_scope.
Open Scope list_scope.

(** The whole string matches. *)
Definition spells (e : ere) (F : list N) : Prop := exists L, matches F e 0 (List.length F) L.
(** [^(e1)c1(e2)c2...(en)$], the fields with their separators and then the last field. *)
Fixpoint record_body (fs : list (ere * N)) (z : ere) : branch :=
  match fs with [] => [PSingle (XSub z); PEnd] | f :: r => PSingle (XSub (fst f)) :: PSingle (XAtom (NormalChar (snd f))) :: record_body r z end.
Definition record (fs : list (ere * N)) (z : ere) : ere := [PStart :: record_body fs z].
(** The text of a record. *)
Fixpoint joined (cs : list N) (Fs : list (list N)) {struct Fs} : list N :=
  match Fs with [] => [] | F :: r => F ++ match cs with [] => [] | c :: cs' => c :: joined cs' r end end.
(** The strings are fields of the pattern. *)
Definition record_of (fs : list (ere * N)) (z : ere) (Fs : list (list N)) : Prop := Forall2 spells (map fst fs ++ [z]) Fs.
(** The byte ranges of the fields when the first one begins at [p]. *)
Fixpoint spans_of (cs : list N) (p : nat) (Fs : list (list N)) {struct Fs} : list (option (nat * nat)) :=
  match Fs with
  | [] => []
  | F :: r => Some (p, p + bytes_of F) :: match cs with [] => [] | c :: cs' => spans_of cs' (p + bytes_of F + char_bytes c) r end
  end.

(** ** Addresses: four numbers below 256 in decimal, without leading zeros (benches/ere_benchmark.rs, lines 194 to 197) *)
Definition decimal (n : N) : list N :=
  (if n <? 10 then [48 + n] else if n <? 100 then [48 + n / 10; 48 + n mod 10] else [48 + n / 100; 48 + n / 10 mod 10; 48 + n mod 10])%N.
Definition octet : string := "(25[0-5]|2[0-4][0-9]|1[0-9]{2}|[1-9][0-9]|[0-9])".
Definition ipv4 : list N := s2l ("^" ++ octet ++ "\." ++ octet ++ "\." ++ octet ++ "\." ++ octet ++ "$").
Definition address (a b c d : N) : list N := decimal a ++ s2l "." ++ decimal b ++ s2l "." ++ decimal c ++ s2l "." ++ decimal d.
