(** Patterns that are two ways to write the same thing (C58). *)
From Coq Require Import String.
From Verif Require Import PEquiv POutcome PLaws PLazyAll.
From Coq Require Import ZifyBool ZifyNat ZifyN.
Open Scope nat_scope.
Open Scope list_scope.

(** C58.  Patterns that follow from each other by the rules of SpecEquiv.v match in the same places, ... *)
Theorem C58_places : forall d e T i j, eq_ere d e -> (exists L, matches T d i j L) <-> exists L, matches T e i j L.
Proof. intros d e T i j H. now apply equivalent_matches. Qed.
Print Assumptions C58_places.
(** ... so engines made from them, by whatever macros, give the same [test], and [exec] reports a match with the same start.  (A DFA
    must be made from a pattern that is [caret_ok].) *)
Theorem C58_engines : forall s s' d e en en' T, compiled s en -> compiled s' en' -> Forall scalar s -> Forall scalar s' -> Forall scalar T -> G_ere d s -> G_ere e s' ->
  not_dfa en \/ caret_ok d = true -> not_dfa en' \/ caret_ok e = true -> eq_ere d e ->
  engine_test en T = engine_test en' T /\
  exists o o', engine_exec en T = Ok o /\ engine_exec en' T = Ok o' /\
    match o, o' with
    | Some cs, Some cs' => exists x y y', nth_error cs 0 = Some (Some (x, y)) /\ nth_error cs' 0 = Some (Some (x, y'))
    | None, None => True
    | _, _ => False
    end.
Proof.
  intros s s' d e en en' T H H' Hs Hs' HT Hg Hg' N N' Heq. assert (Q := equivalent_matches d e Heq T). assert (QO := equivalent_occurs d e Heq T). split.
  - destruct (compiled_test s d en T H Hs HT Hg N) as (b & -> & Hb), (compiled_test s' e en' T H' Hs' HT Hg' N') as (b' & -> & Hb'). f_equal. destruct b, b'; try reflexivity; exfalso.
    + assert (X : false = true) by (now apply Hb', QO, Hb). discriminate.
    + assert (X : false = true) by (now apply Hb, QO, Hb'). discriminate.
  - destruct (compiled_answer s d en T H Hs HT Hg N) as (o & E & Ho). destruct (compiled_answer s' e en' T H' Hs' HT Hg' N') as (o' & E' & Ho'). exists o, o'. do 2 (split; [assumption|]).
    destruct o as [cs|], o' as [cs'|]; [|now apply Ho', QO|now apply Ho, QO|exact I].
    destruct (compiled_first s d en T cs H Hs HT Hg N E) as (i & j & L & M1 & _ & M2 & M3). destruct (compiled_first s' e en' T cs' H' Hs' HT Hg' N' E') as (i' & j' & L' & M1' & _ & M2' & M3').
    destruct (proj1 (Q i j) (ex_intro _ L M1)) as (X & HX). destruct (proj2 (Q i' j') (ex_intro _ L' M1')) as (Y & HY).
    assert (i = i') as -> by (specialize (M3 _ _ _ HY); specialize (M3' _ _ _ HX); lia). exists (byte_pos T i'), (byte_pos T j), (byte_pos T j'). auto.
Qed.
Print Assumptions C58_engines.
(** The macros panic for both or for neither. *)
Theorem C58_panics : forall c s s' d e, In c [compile_regex; compile_dfa; compile_flat_u8; compile_one_pass; compile_fixed] -> Forall scalar s -> Forall scalar s' -> G_ere d s -> G_ere e s' -> eq_ere d e ->
  c s = Panic <-> c s' = Panic.
Proof.
  intros c s s' d e Hc Hs Hs' Hg Hg' Heq. assert (Hb : byte_macro c) by (unfold byte_macro; cbn in Hc; intuition auto). apply parse_iff in Hg, Hg'. assert (Q := equivalent_occurs d e Heq).
  assert (X : forall s d, Forall scalar s -> parse_str s = ROk d -> c s = Panic <-> forall T, Forall scalar T -> ~ occurs d T).
  { intros t f Ht Hp. split; [|now apply macro_panics]. intros E T HT Ho. destruct (macro_settled c t f Hb Hp Ht) as [(x & Ex)|Ex]; eauto; congruence. }
  rewrite (X s d Hs Hg), (X s' e Hs' Hg'). split; intros H T HT Ho; apply (H T HT); now apply Q.
Qed.
Print Assumptions C58_panics.
(** [(b|a)+?c{2}] and [(a|b)(a|b){0,}cc]. *)
Example C58_case : exists d e, G_ere d (s2l "(b|a)+?c{2}") /\ G_ere e (s2l "(a|b)(a|b){0,}cc") /\ eq_ere d e /\
  (exists en, compile_flat (s2l "(b|a)+?c{2}") = Ok en) /\ (exists en, compile_regex (s2l "(a|b)(a|b){0,}cc") = Ok en).
Proof.
  set (a := [PSingle (XAtom (NormalChar 97%N))]). set (b := [PSingle (XAtom (NormalChar 98%N))]). set (c := XAtom (NormalChar 99%N)).
  exists [[PQuant (XSub [b; a]) {| q_type := QPlus; q_alt := true |}; PQuant c {| q_type := QMultiple 2; q_alt := false |}]],
    [[PSingle (XSub [a; b]); PQuant (XSub [a; b]) {| q_type := QRange 0 None; q_alt := false |}; PSingle c; PSingle c]].
  split; [apply parse_iff; vm_compute; reflexivity|]. split; [apply parse_iff; vm_compute; reflexivity|]. split.
  - apply ee_cons; [|apply ee_refl]. eapply be_trans.
    + apply be_cons with (q := PQuant (XSub [a; b]) {| q_type := QPlus; q_alt := false |}) (b := [PSingle c; PSingle c]).
      * apply pe_quant; [apply xe_sub, ee_perm, perm_swap|]. reflexivity.
      * eapply be_trans; [apply be_unroll with (r := {| q_type := QMultiple 1; q_alt := false |}) (t := {| q_type := QMultiple 1; q_alt := false |})|].
        { intros n. unfold allows. cbn [q_type quant_allows]. split; [intros Hn; exists 1, 1; lia|]. intros (k & l & -> & H1 & H2). lia. }
        eapply be_trans; [apply be_once; intros n; unfold allows; cbn [q_type quant_allows]; lia|]. apply be_cons; [apply pe_refl|]. apply be_once. intros n. unfold allows. cbn [q_type quant_allows]. lia.
    + eapply be_trans; [apply be_unroll with (r := {| q_type := QMultiple 1; q_alt := false |}) (t := {| q_type := QRange 0 None; q_alt := false |})|].
      { intros n. unfold allows. cbn [q_type quant_allows]. split; [intros Hn; exists 1, (n - 1); lia|]. intros (k & l & -> & H1 & H2). lia. }
      apply be_once. intros n. unfold allows. cbn [q_type quant_allows]. lia.
  - split; [assert (H : match compile_flat (s2l "(b|a)+?c{2}") with Ok _ => true | _ => false end = true) by (vm_compute; reflexivity)
           |assert (H : match compile_regex (s2l "(a|b)(a|b){0,}cc") with Ok _ => true | _ => false end = true) by (vm_compute; reflexivity)].
    + destruct (compile_flat _) as [x| | |]; try discriminate. eauto.
    + destruct (compile_regex _) as [x| | |]; try discriminate. eauto.
Qed.
