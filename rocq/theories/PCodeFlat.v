(** The size of the code of the lockstep engines, for a given number of groups, and of the DFA engine in terms of the pattern (C88). *)
From Verif Require Export PCodeDfa.
From Verif Require PCostBound PCostLow PBlow PSize.
From Verif Require Import PEmitAll SpecSize SpecAtom SpecGroups.
From Coq Require Import Lia.
Open Scope nat_scope.
Open Scope list_scope.

Lemma rows_code {A} (n : nfa A) tbl : flat_make n = Ok tbl -> let g := num_capture_groups n in
  list_sum (map row_entries tbl) <= length n * S (4 * length n * arrangements (2 * g) * S (2 * g)).
Proof.
  intros Hm g. rewrite <- (PCostBound.make_rows n tbl Hm) at 1. apply lsum_bound, Forall_forall. intros row Hr. destruct (In_nth _ _ [] Hr) as (s & _ & <-). unfold row_entries. apply le_n_S.
  assert (L := PCostLow.row_few n tbl Hm s). assert (M : Forall (fun p => S (length (ep_tags p)) <= S (2 * g)) (nth s tbl [])) by (apply Forall_forall; intros p Hp; apply le_n_S; exact (PCostLow.row_marks n tbl Hm s p Hp)).
  apply lsum_bound in M. etransitivity; [exact M|]. apply Nat.mul_le_mono_r. exact L.
Qed.
Lemma flat_code_bytes n tbl : flat_make n = Ok tbl -> code_size (WByte n tbl) <= 200 + 60 * (nfa_entries (fun _ => 1) n + lockstep_bound (length n) (num_capture_groups n)).
Proof. intros H. assert (L := code_linear (WByte n tbl)). assert (R := rows_code n tbl H). cbv zeta in R. cbn [entries] in L. unfold lockstep_bound. etransitivity; [exact L|]. apply Nat.add_le_mono_l, Nat.mul_le_mono_l, Nat.add_le_mono_l. exact R. Qed.
Lemma flat_code_chars n tbl : flat_make n = Ok tbl -> code_size (WChar n tbl) <= 200 + 60 * (nfa_entries terms n + lockstep_bound (length n) (num_capture_groups n)).
Proof. intros H. assert (L := code_linear (WChar n tbl)). assert (R := rows_code n tbl H). cbv zeta in R. cbn [entries] in L. unfold lockstep_bound. etransitivity; [exact L|]. apply Nat.add_le_mono_l, Nat.mul_le_mono_l, Nat.add_le_mono_l. exact R. Qed.
(** The DFA engine *)
Lemma dfa_bound_mono k k' g : k <= k' -> dfa_bound k g <= dfa_bound k' g.
Proof. intros H. unfold dfa_bound. apply Nat.mul_le_mono; [lia|]. apply Nat.mul_le_mono_l, Nat.mul_le_mono_r. lia. Qed.
Lemma dfa_code_bound s p : Forall scalar s -> gen_dfa s = Ok (Some p) -> exists e n u d m, parse_str s = ROk e /\ working_new (tree_of e) = Ok n /\ u8_new n = Ok u /\ p = program_of (WDfa d m) /\
  code_size (WDfa d m) <= 200 + 60 * dfa_bound (length u) (groups e) /\
  ((forall a, In a (atoms e) -> atom_fwd a) -> code_size (WDfa d m) <= 200 + 60 * dfa_bound (4 * size (fun a => 27 * intervals a) e + 223) (groups e)).
Proof.
  intros Hs H. destruct (dfa_code s p Hs H) as (e & n & u & d & m & H1 & H2 & H3 & H4 & H5). exists e, n, u, d, m. do 4 (split; [assumption|]).
  assert (E : S (default_bound (length u)) * (514 * (S (length u) * (1 + 2 * S (groups e)))) = dfa_bound (length u) (groups e)) by (unfold dfa_bound, default_bound; rewrite (Nat.mul_comm (length u) 2); reflexivity).
  rewrite E in H5. clear E. assert (L := code_linear (WDfa d m)).
  assert (X : code_size (WDfa d m) <= 200 + 60 * dfa_bound (length u) (groups e)) by (etransitivity; [exact L|]; apply Nat.add_le_mono_l, Nat.mul_le_mono_l; exact H5). split; [exact X|].
  intros Hf. etransitivity; [exact X|]. apply Nat.add_le_mono_l, Nat.mul_le_mono_l, dfa_bound_mono. exact (PSize.byte_size s e n u H1 Hs Hf H2 H3).
Qed.
