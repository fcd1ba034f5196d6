(** The size of the generated code in terms of the pattern (C88). *)
From Verif Require Export PCode.
From Verif Require Import PEmitAll PBlow.
From Coq Require Import Lia Sorting.Sorted.
Open Scope nat_scope.
Open Scope list_scope.

(** ** The lockstep engines: every entry of the table is a statement *)
Lemma lsum_In {X} (f : X -> nat) x l : In x l -> f x <= list_sum (map f l).
Proof. induction l as [|y l IH]; intros []; cbn [map]; rewrite lsum_cons; [subst; lia|]. specialize (IH H). lia. Qed.
Lemma ssize_pos s : 1 <= ssize s.
Proof. destruct s; cbn [ssize]; lia. Qed.
Lemma row_low {A} (code : A -> rexp) t it next n tbl : n <> [] -> length (nth 0 tbl []) <= func_size (flat_test_code code t it next n tbl).
Proof.
  intros Hn. destruct tbl as [|row tbl]; [cbn; lia|]. cbn [nth]. unfold func_size, flat_test_code. cbn [f_enum f_procs f_body map]. rewrite !lsum_cons.
  assert (H : length row <= stmts (pr_body (eps_test_proc n (row :: tbl)))); [|lia].
  unfold eps_test_proc. cbn [pr_body]. unfold stmts. rewrite map_app, lsum_app, lsum_map.
  match goal with |- context [list_sum (map ?h (kept _ _))] => assert (I := lsum_In h (0, row) (kept (flat_excluded n) (row :: tbl))) end.
  assert (K : In (0, row) (kept (flat_excluded n) (row :: tbl))).
  { unfold kept. apply filter_In. split; [left; reflexivity|]. cbn [fst]. assert (Hl : 1 <= length n) by (destruct n; [congruence|cbn; lia]). rewrite PFlat.flat_excluded_spec by (assumption || (now left) || lia). reflexivity. }
  specialize (I K). match type of I with ?a <= _ => assert (J : length row <= a) end.
  { cbn [fst snd ssize]. change (list_sum (map ssize (groups_code mark_code row))) with (stmts (groups_code mark_code row)). rewrite groups_sum.
    assert (L : length row <= list_sum (map (fun p => ssize (mark_code p)) row)) by (rewrite <- lsum_one; apply lsum_mono; intros; apply ssize_pos). lia. }
  eapply Nat.le_trans; [exact J|]. eapply Nat.le_trans; [exact I|]. lia.
Qed.
Lemma flat_big k : exists s n tbl, length s = 5 * k /\ Forall scalar s /\ gen_flat s = Ok (program_of (WChar n tbl)) /\ pg_ok (program_of (WChar n tbl)) = true /\ 2 ^ k <= code_size (WChar n tbl).
Proof.
  destruct (options_flat k) as (n & tbl & H1 & H2 & _ & H4). exists (options_text k), n, tbl. split; [apply options_length|]. assert (Hs := options_scalar k). split; [assumption|].
  assert (Hn : n <> []) by (intros ->; discriminate H2). assert (G : gen_flat (options_text k) = Ok (program_of (WChar n tbl))).
  { assert (H := H1). apply with_ere_ok in H as (e & Hp & H). unfold gen_flat. rewrite (parsed_with_ere _ _ _ Hp). destruct (working_new (tree_of e)) as [n'| | |]; cbn [bind] in *; try discriminate H.
    unfold make_flat in H. destruct (flat_make n') as [t'| | |]; cbn [bind] in H; try discriminate H. destruct (nfa_compiles n'); [|discriminate H]. injection H as ->.
    unfold flat_make in H2. destruct (guard _) as [[]| | |]; cbn [bind] in *; try discriminate H2. destruct (flat_table n) as [t''| | |]; cbn [bind] in *; try discriminate H2. destruct (forallb _ _); [|discriminate H2]. injection H2 as ->. reflexivity. }
  split; [exact G|]. split.
  - destruct (gen_flat_to _ _ Hs G) as (n' & E & _). rewrite H1 in E. destruct (pg_ok (program_of (WChar n tbl))); [reflexivity|discriminate E].
  - cbn [code_size]. assert (L := row_low check_code TChar IChars (EWidth (EVar Xi) (EVar Xc)) n tbl Hn). unfold char_test_code. lia.
Qed.
Lemma flat_u8_big k : exists s n tbl, length s = 5 * k /\ Forall scalar s /\ gen_flat_u8 s = Ok (program_of (WByte n tbl)) /\ pg_ok (program_of (WByte n tbl)) = true /\ 2 ^ k <= code_size (WByte n tbl).
Proof.
  destruct (options_flat_u8 k) as (n & tbl & H1 & H2 & H4). exists (options_text k), n, tbl. split; [apply options_length|]. assert (Hs := options_scalar k). split; [assumption|].
  assert (Hn : n <> []) by (intros ->; discriminate H2). assert (G : gen_flat_u8 (options_text k) = Ok (program_of (WByte n tbl))).
  { assert (H := H1). apply with_ere_ok in H as (e & Hp & H). unfold gen_flat_u8. rewrite (parsed_with_ere _ _ _ Hp). destruct (working_new (tree_of e)) as [n'| | |]; cbn [bind] in *; try discriminate H. destruct (u8_new n') as [u| | |]; cbn [bind] in *; try discriminate H.
    unfold make_flat_u8 in H. destruct (flat_make u) as [t'| | |]; cbn [bind] in H; try discriminate H. injection H as ->.
    unfold flat_make in H2. destruct (guard _) as [[]| | |]; cbn [bind] in *; try discriminate H2. destruct (flat_table n) as [t''| | |]; cbn [bind] in *; try discriminate H2. destruct (forallb _ _); [|discriminate H2]. injection H2 as ->. reflexivity. }
  split; [exact G|]. split.
  - destruct (gen_flat_u8_to _ _ Hs G) as (en & _ & E & _). exact E.
  - cbn [code_size]. assert (L := row_low in_code TByte IEnum (ESucc (EVar Xi)) n tbl Hn). unfold byte_test_code. lia.
Qed.
