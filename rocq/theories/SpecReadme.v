(** What the two patterns of the README are meant to accept, written out. *)
From Coq Require Import String.
From Verif Require Import Base.
Open Scope nat_scope.
Open Scope list_scope.

Definition digit (c : N) : Prop := (48 <= c <= 57)%N.
Definition hex_digit (c : N) : Prop := (48 <= c <= 57 \/ 65 <= c <= 70 \/ 97 <= c <= 102)%N.
Definition some_of (P : N -> Prop) (n : nat) (x : list N) : Prop := List.length x = n /\ Forall P x.
(** README, [^(\+1 )?[0-9]{3}-[0-9]{3}-[0-9]{4}$]. *)
Definition phone : list N := s2l "^(\+1 )?[0-9]{3}-[0-9]{3}-[0-9]{4}$".
Definition phone_number (P T : list N) : Prop :=
  exists x y z, T = P ++ x ++ s2l "-" ++ y ++ s2l "-" ++ z /\ (P = [] \/ P = s2l "+1 ") /\ some_of digit 3 x /\ some_of digit 3 y /\ some_of digit 4 z.
(** README, the colour. *)
Definition colour : list N := s2l "^#?([[:xdigit:]]{2})([[:xdigit:]]{2})([[:xdigit:]]{2})([[:xdigit:]]{2})?$".
Definition colour_code (P A T : list N) : Prop :=
  exists x y z, T = P ++ x ++ y ++ z ++ A /\ (P = [] \/ P = s2l "#") /\ some_of hex_digit 2 x /\ some_of hex_digit 2 y /\ some_of hex_digit 2 z /\ (A = [] \/ some_of hex_digit 2 A).
