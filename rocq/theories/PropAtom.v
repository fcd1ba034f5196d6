(** Properties of single-character atoms: C01, C02, C03. *)
From Verif Require Import PAtom.
From Coq Require Import String Sorted.
Open Scope N_scope.
Open Scope list_scope.

(** C01.  A character belongs to an atom exactly when the membership test says so and exactly when it
    lies in one of the ranges the atom is expanded to. *)
Theorem C01_atom_ranges : forall a c, atom_ok a -> scalar c ->
  (atom_check a c = true <-> atom_has a c) /\ (covered c (to_ranges a) <-> atom_has a c).
Proof. intros a c Ha Hc. exact (conj (atom_check_iff a c) (to_ranges_iff a c Ha Hc)). Qed.
Print Assumptions C01_atom_ranges.
(** [[b-ad\-f]]-like atoms with a reversed range, a singleton, a range across the surrogate gap. *)
Example C01_case :
  let a := MatchingList [Range (ch "z") (ch "a"); Range 0xD000 0xD7FF; Range 0xE000 0xE100; Single (ch "-")] in
  atom_ok a /\ to_ranges a = [(ch "-", ch "-"); (0xD000, 0xE100)] /\ atom_has a 0xE000
  /\ to_ranges (NonmatchingList [Range 0xD000 0xD7FF; Class Digit]) = [(0, 0x2F); (0x3A, 0xCFFF); (0xE000, 0x10FFFF)].
Proof.
  cbv zeta. split; [repeat constructor|]. split; [vm_compute; reflexivity|].
  split; [|vm_compute; reflexivity].
  exists (Range 0xE000 0xE100). split; [simpl; auto|]. vm_compute; split; discriminate.
Qed.

(** A range with reversed end points matches nothing. *)
Theorem C01_reversed_empty : forall a b c, b < a -> ~ covered c (to_ranges (MatchingList [Range a b])).
Proof.
  intros a b c H (r & Hr & Hc). simpl in Hr. destruct Hr as [<-|[]]. simpl in Hc. lia.
Qed.
Print Assumptions C01_reversed_empty.
Example C01_reversed_case : ch "a" < ch "z" /\ to_ranges (MatchingList [Range (ch "z") (ch "a")]) = [(ch "z", ch "a")].
Proof. vm_compute; split; reflexivity. Qed.

(** C02, full statement: two atoms compare equal exactly when they accept the same characters.  It is
    false in general ([C02_refuted]); it holds when no range is reversed; soundness always holds. *)
Theorem C02_atom_eq_partial : forall a b, atom_ok a -> atom_ok b -> atom_fwd a -> atom_fwd b ->
  atom_eqb a b = true <-> (forall c, scalar c -> atom_has a c <-> atom_has b c).
Proof. exact atom_eqb_iff. Qed.
Print Assumptions C02_atom_eq_partial.
Example C02_case :
  let a := MatchingList [Range (ch "a") (ch "m"); Single (ch "n"); Range (ch "k") (ch "z")] in
  let b := MatchingList [Class Lower] in
  atom_ok a /\ atom_ok b /\ atom_fwd a /\ atom_fwd b /\ atom_eqb a b = true
  /\ atom_eqb (NonmatchingList [Single 0]) Dot = true.
Proof. cbv zeta. repeat match goal with |- _ /\ _ => split end; match goal with |- _ = _ => vm_compute; reflexivity | _ => repeat constructor; vm_compute; discriminate end. Qed.

Theorem C02_atom_eq_sound : forall a b c, atom_ok a -> atom_ok b -> scalar c ->
  atom_eqb a b = true -> (atom_has a c <-> atom_has b c).
Proof. exact atom_eqb_sound. Qed.
Print Assumptions C02_atom_eq_sound.
Example C02_sound_case :
  atom_eqb (MatchingList [Range (ch "z") (ch "a"); Class Digit]) (MatchingList [Class Digit; Range (ch "z") (ch "a")]) = true.
Proof. vm_compute; reflexivity. Qed.

(** The ranges are sorted, non-empty and separated when no range is reversed. *)
Theorem C02_canonical_partial : forall a, atom_ok a -> atom_fwd a ->
  Forall (fun r => fst r <= snd r) (to_ranges a)
  /\ StronglySorted (fun r s => succ_char (snd r) < fst s) (to_ranges a).
Proof. exact to_ranges_canonical. Qed.
Print Assumptions C02_canonical_partial.
Example C02_canonical_case :
  let a := NonmatchingList [Range (ch "a") (ch "c"); Range (ch "e") (ch "g")] in
  atom_ok a /\ atom_fwd a /\ to_ranges a = [(0, 0x60); (ch "d", ch "d"); (ch "h", char_max)].
Proof. cbv zeta. repeat match goal with |- _ /\ _ => split end; match goal with |- _ = _ => vm_compute; reflexivity | _ => repeat constructor; vm_compute; discriminate end. Qed.

(** C02 fails with reversed ranges: [[z-a]] and [[9-1]] accept the same characters (none) but compare
    different, and the ranges of [[^z-a]] overlap. *)
Theorem C02_refuted : exists a b, atom_ok a /\ atom_ok b /\
  (forall c, atom_has a c <-> atom_has b c) /\ atom_eqb a b = false.
Proof.
  exists (MatchingList [Range (ch "z") (ch "a")]), (MatchingList [Range (ch "9") (ch "1")]).
  split; [repeat constructor|]. split; [repeat constructor|]. split; [|vm_compute; reflexivity].
  intros c; split; intros (t & [<-|[]] & [H1 H2]); exfalso;
  pose proof (N.le_trans _ _ _ H1 H2) as H; vm_compute in H; congruence.
Qed.
Print Assumptions C02_refuted.
Theorem C02_overlap_refuted : exists a, atom_ok a /\
  exists r s rest, to_ranges a = r :: s :: rest /\ fst s <= snd r.
Proof.
  exists (NonmatchingList [Range (ch "z") (ch "a")]). split; [repeat constructor|].
  exists (0, 0x79), (0x62, char_max), []. split; [vm_compute; reflexivity|vm_compute; discriminate].
Qed.
Print Assumptions C02_overlap_refuted.

(** C03. *)
Theorem C03_class_tables : forall k c,
  (class_check k c = true <-> class_has k c) /\ (covered c (class_ranges k) <-> class_has k c)
  /\ (class_has k c -> c < 128).
Proof. intros k c. exact (conj (class_check_iff k c) (conj (class_ranges_iff k c) (class_ascii k c))). Qed.
Print Assumptions C03_class_tables.
Example C03_case : class_has Punctuation (ch "~") /\ ~ class_has Graphic 0xE9 /\ class_has Space 0x0b.
Proof.
  split; [apply class_check_iff; vm_compute; reflexivity|]. split.
  - intros H; apply class_check_iff in H; vm_compute in H; discriminate.
  - apply class_check_iff; vm_compute; reflexivity.
Qed.
