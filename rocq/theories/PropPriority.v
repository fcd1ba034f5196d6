(** Properties of the match an engine reports: C23, C24, C25. *)
From Coq Require Import String.
From Verif Require Import SpecGroups SpecLaws PStrip PPrioOne PLazyAll PAgree PFree.
From Coq Require Import ZifyBool ZifyNat ZifyN.
Open Scope nat_scope.
Open Scope list_scope.

(** [has] decides which characters an atom has. *)
Definition decides (has : atom -> N -> bool) : Prop := forall a c, has a c = true <-> atom_has a c.
Theorem decides_check : decides atom_check.
Proof. exact atom_check_iff. Qed.

(** The order of SpecPriority.v lists the matches, all of them and nothing else. *)
Theorem C25_order : forall has T e i j L, decides has -> Forall scalar T -> loops_read e = true -> (In (i, j, L) (all_matches has T e) <-> matches T e i j L).
Proof. intros has T e i j L Hh HT Hl. now apply all_matches_iff. Qed.
Print Assumptions C25_order.
Example C25_order_case : with_ere (s2l "(a|ab)(c|bcd)??") (fun e => Ok (loops_read e, map fst (all_matches atom_check (s2l "zabcd") e))) = Ok (true, [(1, 2); (1, 5); (1, 3); (1, 4)]).
Proof. vm_compute. reflexivity. Qed.

(** C25.  [exec] reports the first match in the order of preference, or that there is none.  Every unbounded repetition must
    read a character in each iteration ([loops_read]), and the engine must be [orderly]: the lockstep engines when every way
    through the pattern passes the same anchors, the DFA when [caret_ok], the table-driven one-pass engine when no state has
    two ways to accept; the other one-pass engine always. *)
Theorem C25_priority_partial : forall s e en T has, compiled s en -> Forall scalar s -> Forall scalar T -> G_ere e s -> decides has -> loops_read e = true -> orderly e en = true ->
  engine_exec en T = Ok (answer T (engine_groups en) (hd_error (all_matches has T e))).
Proof. intros s e en T has H Hs HT Hg Hh Hl Ho. now apply (exec_best s). Qed.
Print Assumptions C25_priority_partial.
Definition shown (compile : list N -> res engine) (p t : string) : res (bool * bool * bool * option (list (option span)) * option (list (option span))) :=
  with_ere (s2l p) (fun e => do en <- compile (s2l p); do r <- engine_exec en (s2l t);
    Ok (loops_read e, orderly e en, match en with EFixed _ _ => true | _ => false end, r, answer (s2l t) (engine_groups en) (hd_error (all_matches atom_check (s2l t) e)))).
Definition same (x : bool * bool * bool * option (list (option span)) * option (list (option span))) : bool * bool * option (list (option span)) := (fst (fst (fst (fst x))), snd (fst (fst (fst x))), snd x).
Example C25_case_flat : shown compile_flat "(a|ab)(c|bcd)(d*)" "zabcd" = Ok (true, true, false, Some [Some (1, 5); Some (1, 2); Some (2, 5); Some (5, 5)], Some [Some (1, 5); Some (1, 2); Some (2, 5); Some (5, 5)]).
Proof. vm_compute. reflexivity. Qed.
Example C25_case_flat_u8 : shown compile_flat_u8 "(a+?)(a*)" "baaa" = Ok (true, true, false, Some [Some (1, 4); Some (1, 2); Some (2, 4)], Some [Some (1, 4); Some (1, 2); Some (2, 4)]).
Proof. vm_compute. reflexivity. Qed.
Example C25_case_dfa : shown compile_dfa "(a|^ab)(c|bcd)" "abcd" = Ok (true, true, false, Some [Some (0, 4); Some (0, 1); Some (1, 4)], Some [Some (0, 4); Some (0, 1); Some (1, 4)]).
Proof. vm_compute. reflexivity. Qed.
Example C25_case_one_pass : shown compile_one_pass "^(a+)(b|c)*$" "aabcb" = Ok (true, true, false, Some [Some (0, 5); Some (0, 2); Some (4, 5)], Some [Some (0, 5); Some (0, 2); Some (4, 5)]).
Proof. vm_compute. reflexivity. Qed.
Example C25_case_fixed : shown compile_regex "^(a|b)cd$" "bcd" = Ok (true, true, true, Some [Some (0, 3); Some (0, 1)], Some [Some (0, 3); Some (0, 1)]).
Proof. vm_compute. reflexivity. Qed.
(** Without anchors every engine is [orderly]: what [exec] reports is the first match in the order of preference, whichever macro made
    the engine. *)
Theorem C25_free : forall s e en T has, compiled s en -> Forall scalar s -> Forall scalar T -> G_ere e s -> decides has -> loops_read e = true -> anchor_free e = true ->
  engine_exec en T = Ok (answer T (engine_groups en) (hd_error (all_matches has T e))).
Proof. intros s e en T has H Hs HT Hg Hh Hl Hf. apply (exec_best s); auto. now apply (free_orderly s). Qed.
Print Assumptions C25_free.
Example C25_case_free : with_ere (s2l "(x|xy)(z|yzw)??") (fun e => Ok (loops_read e, anchor_free e, hd_error (map fst (all_matches atom_check (s2l "axyzw") e)))) = Ok (true, true, Some (1, 2)) /\
  (do en <- compile_regex (s2l "(x|xy)(z|yzw)??"); engine_exec en (s2l "axyzw")) = Ok (Some [Some (1, 2); Some (1, 2); None]).
Proof. split; vm_compute; reflexivity. Qed.
(** Of the one-pass and fixed-offset engines there is no preference to keep: all matches have the same
    captures, and [exec] reports them. *)
Theorem C25_unambiguous : forall s e en T i j L, compiled s en -> Forall scalar s -> Forall scalar T -> G_ere e s -> orderly e en = true ->
  match en with EOnePass _ | EFixed _ _ => True | _ => False end -> matches T e i j L ->
  engine_exec en T = Ok (Some (map (capture T L) (seq 0 (engine_groups en)))).
Proof. intros s e en T i j L H Hs HT Hg Ho Hk Hm. now apply (kind_single s e en T i j L). Qed.
Print Assumptions C25_unambiguous.
Example C25_case_unambiguous : shown compile_one_pass "^a(b|cc)*d$" "accbd" = Ok (true, true, false, Some [Some (0, 5); Some (3, 4)], Some [Some (0, 5); Some (3, 4)]).
Proof. vm_compute. reflexivity. Qed.
(** Of a pattern whose matches of one text all have the same captures, every engine reports them, whatever its loops and its order of
    preference; for a DFA the pattern must be [caret_ok]. *)
Theorem C25_one_answer : forall s e en T i j L, compiled s en -> Forall scalar s -> Forall scalar T -> G_ere e s -> one_answer e -> not_dfa en \/ caret_ok e = true -> matches T e i j L ->
  engine_exec en T = Ok (Some (map (capture T L) (seq 0 (engine_groups en)))).
Proof.
  intros s e en T i j L H Hs HT Hg Hone N Hm. destruct (compiled_right s en H Hs) as (e' & Hg' & _ & R). assert (e' = e) as -> by (apply parse_iff in Hg; apply parse_iff in Hg'; congruence).
  destruct (right_exec e en (R N) T HT) as (o & Eo & Hx). rewrite Eo. destruct o as [cs|]; [|exfalso; apply Hx; now exists i, j, L].
  destruct Hx as [(i' & j' & L' & Hm' & ->) Hl]. rewrite map_length, seq_length in Hl. rewrite Hl. do 2 f_equal. apply map_ext. intros k. now apply (Hone T i' j' L' i j L).
Qed.
Print Assumptions C25_one_answer.
(** [(a)] has one answer in "ba", "ca", but not in "aa"; [^(a)b] has one in every text. *)
Example C25_case_one_answer : exists e, G_ere e (s2l "^(a)b") /\ one_answer e /\ caret_ok e = true /\ (exists L, matches (s2l "abb") e 0 2 L) /\
  (do en <- compile_dfa (s2l "^(a)b"); engine_exec en (s2l "abb")) = Ok (Some [Some (0, 2); Some (0, 1)]).
Proof.
  exists [[PStart; PSingle (XSub [[PSingle (XAtom (NormalChar 97%N))]]); PSingle (XAtom (NormalChar 98%N))]]. split; [apply parse_iff; vm_compute; reflexivity|].
  assert (X : forall T i j L, matches T [[PStart; PSingle (XSub [[PSingle (XAtom (NormalChar 97%N))]]); PSingle (XAtom (NormalChar 98%N))]] i j L -> L = [(1, (0, 1)); (0, (0, 2))]).
  { intros T i j L (L' & H & ->).
    repeat match goal with
    | H : m_alts _ _ _ _ _ _ |- _ => inversion H; subst; clear H
    | H : m_branch _ _ _ _ _ _ |- _ => inversion H; subst; clear H
    | H : m_part _ _ _ _ _ _ |- _ => inversion H; subst; clear H
    | H : m_expr _ _ _ _ _ _ |- _ => inversion H; subst; clear H
    end. reflexivity. }
  split; [intros T i j L i' j' L' k _ H H'; apply X in H, H'; congruence|]. split; [reflexivity|]. split; [|vm_compute; reflexivity].
  eexists. exists [(1, (0, 1))]. split; [|reflexivity]. apply ma_here. apply mb_cons with (L1 := []) (L2 := [(1, (0, 1))]) (j := 0); [constructor|].
  apply mb_cons with (L1 := [(1, (0, 1))]) (L2 := []) (j := 1).
  - apply mp_single. apply (me_group _ _ 1 0 1 []). apply ma_here. apply mb_cons with (L1 := []) (L2 := []) (j := 1); [|constructor; cbn; lia]. apply mp_single. apply me_atom with (c := 97%N); reflexivity.
  - apply mb_cons with (L1 := []) (L2 := []) (j := 2); [|constructor; cbn; lia]. apply mp_single. apply me_atom with (c := 98%N); reflexivity.
Qed.
(** Without [orderly] it is false: of the table-driven one-pass engine, [^a+(b?)?$] on "aa" ... *)
Theorem C25_one_pass_refuted : exists s e en T, compile_one_pass s = Ok en /\ Forall scalar s /\ Forall scalar T /\ G_ere e s /\ loops_read e = true /\
  engine_exec en T = Ok (Some [Some (0, 2); None]) /\ answer T (engine_groups en) (hd_error (all_matches atom_check T e)) = Some [Some (0, 2); Some (2, 2)].
Proof.
  assert (H : with_ere (s2l "^a+(b?)?$") (fun e => do en <- compile_one_pass (s2l "^a+(b?)?$"); do x <- engine_exec en (s2l "aa"); Ok (loops_read e, x, answer (s2l "aa") (engine_groups en) (hd_error (all_matches atom_check (s2l "aa") e))))
    = Ok (true, Some [Some (0, 2); None], Some [Some (0, 2); Some (2, 2)])) by (vm_compute; reflexivity).
  apply with_ere_ok in H as (e & Hp & H). apply bind_ok in H as (en & H1 & H). apply bind_ok in H as (x & H2 & H). injection H as H3 -> H4.
  exists (s2l "^a+(b?)?$"), e, en, (s2l "aa"). split; [assumption|]. split; [repeat constructor|]. split; [repeat constructor|]. split; [now apply parse_iff|]. auto.
Qed.
Print Assumptions C25_one_pass_refuted.
(** ... and of the lockstep engines, [(a)|(^a)] on "a". *)
Theorem C25_lockstep_refuted : exists s e en T, compile_flat s = Ok en /\ Forall scalar s /\ Forall scalar T /\ G_ere e s /\ loops_read e = true /\
  engine_exec en T = Ok (Some [Some (0, 1); None; Some (0, 1)]) /\ answer T (engine_groups en) (hd_error (all_matches atom_check T e)) = Some [Some (0, 1); Some (0, 1); None].
Proof.
  assert (H : with_ere (s2l "(a)|(^a)") (fun e => do en <- compile_flat (s2l "(a)|(^a)"); do x <- engine_exec en (s2l "a"); Ok (loops_read e, x, answer (s2l "a") (engine_groups en) (hd_error (all_matches atom_check (s2l "a") e))))
    = Ok (true, Some [Some (0, 1); None; Some (0, 1)], Some [Some (0, 1); Some (0, 1); None])) by (vm_compute; reflexivity).
  apply with_ere_ok in H as (e & Hp & H). apply bind_ok in H as (en & H1 & H). apply bind_ok in H as (x & H2 & H). injection H as H3 -> H4.
  exists (s2l "(a)|(^a)"), e, en, (s2l "a"). split; [assumption|]. split; [repeat constructor|]. split; [repeat constructor|]. split; [now apply parse_iff|]. auto.
Qed.
Print Assumptions C25_lockstep_refuted.

(** C24.  The reported match starts at the first position where the pattern matches, for every engine that is not a DFA and
    for the DFA when [caret_ok]; there is no condition on loops or on the order of preference. *)
Theorem C24_leftmost_partial : forall s e en T cs, compiled s en -> Forall scalar s -> Forall scalar T -> G_ere e s -> not_dfa en \/ caret_ok e = true ->
  engine_exec en T = Ok (Some cs) ->
  exists i j L, matches T e i j L /\ nth_error cs 0 = Some (Some (byte_pos T i, byte_pos T j)) /\ (forall i' j' L', matches T e i' j' L' -> i <= i').
Proof. intros s e en T cs H Hs HT Hg Hn E. destruct (compiled_first s e en T cs H Hs HT Hg Hn E) as (i & j & L & H1 & _ & H2 & H3). exists i, j, L. auto. Qed.
Print Assumptions C24_leftmost_partial.
(** No match starts before what any engine reports, the DFA included. *)
Theorem C24_never_late : forall s e en T cs x y i j L, compiled s en -> Forall scalar s -> Forall scalar T -> G_ere e s -> engine_exec en T = Ok (Some cs) ->
  nth_error cs 0 = Some (Some (x, y)) -> matches T e i j L -> x <= byte_pos T i.
Proof. intros s e en T cs x y i j L H Hs HT Hg E Hc Hm. exact (compiled_leads s e en H Hs Hg T cs x y i j L HT E Hc Hm). Qed.
Print Assumptions C24_never_late.
(** The full statement is false of the DFA: [^$|b] on "xyz" is reported to match at the end. *)
Theorem C24_refuted : exists s e en T, compile_dfa s = Ok en /\ Forall scalar s /\ Forall scalar T /\ G_ere e s /\ engine_exec en T = Ok (Some [Some (3, 3)]) /\ forall i j L, ~ matches T e i j L.
Proof.
  assert (H : with_ere (s2l "^$|b") (fun e => do en <- compile_dfa (s2l "^$|b"); do x <- engine_exec en (s2l "xyz"); Ok (loops_read e, x, hd_error (all_matches atom_check (s2l "xyz") e)))
    = Ok (true, Some [Some (3, 3)], None)) by (vm_compute; reflexivity).
  apply with_ere_ok in H as (e & Hp & H). apply bind_ok in H as (en & H1 & H). apply bind_ok in H as (x & H2 & H). injection H as H3 -> H4.
  exists (s2l "^$|b"), e, en, (s2l "xyz"). split; [assumption|]. split; [repeat constructor|]. assert (HT : Forall scalar (s2l "xyz")) by repeat constructor. split; [exact HT|].
  split; [now apply parse_iff|]. split; [assumption|]. intros i j L Hm. apply (all_matches_iff (s2l "xyz") HT atom_check atom_check_iff e i j L H3) in Hm. destruct (all_matches atom_check (s2l "xyz") e); [destruct Hm|discriminate].
Qed.
Print Assumptions C24_refuted.
Example C24_case : shown compile_regex "(b|ab)*c" "xbabc" = Ok (true, true, false, Some [Some (1, 5); Some (2, 4)], Some [Some (1, 5); Some (2, 4)]).
Proof. vm_compute. reflexivity. Qed.

(** Neither [loops_read] nor [orderly] here: a loop over an optional part, and ways with different anchors. *)
Example C24_case_loop : shown compile_flat_u8 "(^|x)(a?)*b" "zxaab" = Ok (false, false, false, Some [Some (1, 5); Some (1, 2); Some (4, 4)], Some [Some (1, 5); Some (1, 2); Some (4, 4)]).
Proof. vm_compute. reflexivity. Qed.

(** C23.  Engines made from the same pattern agree on whether there is a match and on every capture they both report.  The
    engines must be [orderly], as for C25; that every unbounded repetition reads a character is needed only to compare the
    lockstep engine over characters with the DFA or with the lockstep engine over bytes ([mixed]). *)
Theorem C23_agree_partial : forall s e en en' T, compiled s en -> compiled s en' -> Forall scalar s -> Forall scalar T -> G_ere e s -> (loops_read e = true \/ mixed en en' = false) ->
  orderly e en = true -> orderly e en' = true ->
  exists o o', engine_exec en T = Ok o /\ engine_exec en' T = Ok o' /\
    match o, o' with
    | Some cs, Some cs' => forall k x x', nth_error cs k = Some x -> nth_error cs' k = Some x' -> x = x'
    | None, None => True
    | _, _ => False
    end.
Proof.
  intros s e en en' T H H' Hs HT Hg [Hl|Hm] Ho Ho'; [|exact (unmixed_agree s e en en' T H H' Hs HT Hg Hm Ho Ho')].
  rewrite (exec_best s e en T atom_check H Hs HT Hg atom_check_iff Hl Ho), (exec_best s e en' T atom_check H' Hs HT Hg atom_check_iff Hl Ho').
  eexists. eexists. split; [reflexivity|]. split; [reflexivity|]. destruct (hd_error _) as [[[i j] L]|]; [|exact I]. apply same_word_agreed.
Qed.
Print Assumptions C23_agree_partial.
Definition execs (compile compile' : list N -> res engine) (p t : string) : res (bool * bool * bool * bool * option (list (option span)) * option (list (option span))) :=
  with_ere (s2l p) (fun e => do en <- compile (s2l p); do en' <- compile' (s2l p); do r <- engine_exec en (s2l t); do r' <- engine_exec en' (s2l t);
    Ok (loops_read e, mixed en en', orderly e en, orderly e en', r, r')).
Example C23_case_bytes : execs compile_dfa compile_flat_u8 "((a*)|b)*(c|)$" "zabac" = Ok (false, false, true, true, Some [Some (1, 5); Some (4, 4); Some (4, 4); Some (4, 5)], Some [Some (1, 5); Some (4, 4); Some (4, 4); Some (4, 5)]).
Proof. vm_compute. reflexivity. Qed.
(** Unconditionally, they agree on whether there is a match and where it starts, except for a DFA that is not [caret_ok]. *)
Theorem C23_start : forall s e en en' T, compiled s en -> compiled s en' -> Forall scalar s -> Forall scalar T -> G_ere e s -> (not_dfa en /\ not_dfa en' \/ caret_ok e = true) ->
  exists o o', engine_exec en T = Ok o /\ engine_exec en' T = Ok o' /\
    match o, o' with
    | Some cs, Some cs' => exists x y y', nth_error cs 0 = Some (Some (x, y)) /\ nth_error cs' 0 = Some (Some (x, y'))
    | None, None => True
    | _, _ => False
    end.
Proof.
  intros s e en en' T H H' Hs HT Hg Hn. assert (N : not_dfa en \/ caret_ok e = true) by tauto. assert (N' : not_dfa en' \/ caret_ok e = true) by tauto.
  destruct (compiled_answer s e en T H Hs HT Hg N) as (o & E & Ho). destruct (compiled_answer s e en' T H' Hs HT Hg N') as (o' & E' & Ho'). exists o, o'. do 2 (split; [assumption|]).
  destruct o as [cs|], o' as [cs'|]; [|now apply Ho', Ho|now apply Ho, Ho'|exact I].
  destruct (compiled_first s e en T cs H Hs HT Hg N E) as (i & j & L & M1 & _ & M2 & M3). destruct (compiled_first s e en' T cs' H' Hs HT Hg N' E') as (i' & j' & L' & M1' & _ & M2' & M3').
  assert (i = i') as -> by (specialize (M3 _ _ _ M1'); specialize (M3' _ _ _ M1); lia). exists (byte_pos T i'), (byte_pos T j), (byte_pos T j'). auto.
Qed.
Print Assumptions C23_start.
Example C23_start_case : (do a <- shown compile_dfa "(a)|(^a)" "a"; do b <- shown compile_flat "(a)|(^a)" "a"; Ok (snd (fst a), snd (fst b))) = Ok (Some [Some (0, 1); Some (0, 1); None], Some [Some (0, 1); None; Some (0, 1)]).
Proof. vm_compute. reflexivity. Qed.
(** Likewise, with as many groups, they return the same. *)
Theorem C23_same_partial : forall s e en en' T, compiled s en -> compiled s en' -> Forall scalar s -> Forall scalar T -> G_ere e s -> (loops_read e = true \/ mixed en en' = false) ->
  orderly e en = true -> orderly e en' = true -> engine_groups en = engine_groups en' -> engine_exec en T = engine_exec en' T.
Proof.
  intros s e en en' T H H' Hs HT Hg Hl Ho Ho' Eg. destruct (C23_agree_partial s e en en' T H H' Hs HT Hg Hl Ho Ho') as (o & o' & E & E' & Ha). rewrite E, E'. f_equal.
  apply (agreed_same o o' (engine_groups en) Ha); intros cs ->; [now apply (exec_length s e en T)|rewrite Eg; now apply (exec_length s e en' T)].
Qed.
Print Assumptions C23_same_partial.
Example C23_case : (do a <- shown compile_dfa "(a|ab)(c|bcd)*" "zabcdc"; do b <- shown compile_flat "(a|ab)(c|bcd)*" "zabcdc"; Ok (same a, same b)) =
  Ok ((true, true, Some [Some (1, 6); Some (1, 2); Some (5, 6)]), (true, true, Some [Some (1, 6); Some (1, 2); Some (5, 6)])).
Proof. vm_compute. reflexivity. Qed.
(** Without anchors, any two engines agree. *)
Theorem C23_free : forall s e en en' T, compiled s en -> compiled s en' -> Forall scalar s -> Forall scalar T -> G_ere e s -> (loops_read e = true \/ mixed en en' = false) -> anchor_free e = true ->
  exists o o', engine_exec en T = Ok o /\ engine_exec en' T = Ok o' /\
    match o, o' with
    | Some cs, Some cs' => forall k x x', nth_error cs k = Some x -> nth_error cs' k = Some x' -> x = x'
    | None, None => True
    | _, _ => False
    end.
Proof. intros s e en en' T H H' Hs HT Hg Hl Hf. eapply C23_agree_partial; eauto; now apply (free_orderly s). Qed.
Print Assumptions C23_free.
Example C23_case_free : execs compile_regex compile_flat "(x|xy)(z|yzw)??" "axyzw" = Ok (true, true, true, true, Some [Some (1, 2); Some (1, 2); None], Some [Some (1, 2); Some (1, 2); None]).
Proof. vm_compute. reflexivity. Qed.
(** The full statement is false: [(a)|(^a)] on "a", the DFA and the lockstep engine ... *)
Theorem C23_refuted : exists s en en' T, compile_dfa s = Ok en /\ compile_flat s = Ok en' /\ Forall scalar s /\ Forall scalar T /\
  engine_exec en T = Ok (Some [Some (0, 1); Some (0, 1); None]) /\ engine_exec en' T = Ok (Some [Some (0, 1); None; Some (0, 1)]).
Proof.
  assert (H : (do d <- compile_dfa (s2l "(a)|(^a)"); do c <- compile_flat (s2l "(a)|(^a)"); do x <- engine_exec d (s2l "a"); do y <- engine_exec c (s2l "a"); Ok (x, y)) =
    Ok (Some [Some (0, 1); Some (0, 1); None], Some [Some (0, 1); None; Some (0, 1)])) by (vm_compute; reflexivity).
  apply bind_ok in H as (d & H1 & H). apply bind_ok in H as (c & H2 & H). apply bind_ok in H as (x & H3 & H). apply bind_ok in H as (y & H4 & H). injection H as -> ->.
  exists (s2l "(a)|(^a)"), d, c, (s2l "a"). do 2 (split; [assumption|]). split; [repeat constructor|]. split; [repeat constructor|]. auto.
Qed.
Print Assumptions C23_refuted.
(** ... and the default engine against the lockstep engine on [^a+(b?)?$] and "aa". *)
Theorem C23_default_refuted : exists s en en' T, compile_regex s = Ok en /\ compile_flat s = Ok en' /\ Forall scalar s /\ Forall scalar T /\
  engine_exec en T = Ok (Some [Some (0, 2); None]) /\ engine_exec en' T = Ok (Some [Some (0, 2); Some (2, 2)]).
Proof.
  assert (H : (do d <- compile_regex (s2l "^a+(b?)?$"); do c <- compile_flat (s2l "^a+(b?)?$"); do x <- engine_exec d (s2l "aa"); do y <- engine_exec c (s2l "aa"); Ok (x, y)) =
    Ok (Some [Some (0, 2); None], Some [Some (0, 2); Some (2, 2)])) by (vm_compute; reflexivity).
  apply bind_ok in H as (d & H1 & H). apply bind_ok in H as (c & H2 & H). apply bind_ok in H as (x & H3 & H). apply bind_ok in H as (y & H4 & H). injection H as -> ->.
  exists (s2l "^a+(b?)?$"), d, c, (s2l "aa"). do 2 (split; [assumption|]). split; [repeat constructor|]. split; [repeat constructor|]. auto.
Qed.
Print Assumptions C23_default_refuted.
(** Nor can [loops_read] be dropped: on [(z?|y|(b{2,1})){2,}], a loop over an optional part beside an alternative that cannot match, and "y",
    the two lockstep engines, both [orderly], report matches of different length.  What is left of the impossible alternative keeps two copies
    of the loop body apart in the automaton of characters and no longer does in the automaton of bytes. *)
Theorem C23_mixed_refuted : exists s e en en' T, compile_flat s = Ok en /\ compile_flat_u8 s = Ok en' /\ Forall scalar s /\ Forall scalar T /\ G_ere e s /\
  orderly e en = true /\ orderly e en' = true /\ anchor_free e = true /\
  engine_exec en T = Ok (Some [Some (0, 1); Some (1, 1)]) /\ engine_exec en' T = Ok (Some [Some (0, 0); Some (0, 0)]).
Proof.
  assert (H : with_ere (s2l "(z?|y|(b{2,1})){2,}") (fun e => do c <- compile_flat (s2l "(z?|y|(b{2,1})){2,}"); do d <- compile_flat_u8 (s2l "(z?|y|(b{2,1})){2,}");
      do x <- engine_exec c (s2l "y"); do y <- engine_exec d (s2l "y"); Ok (orderly e c, orderly e d, anchor_free e, x, y)) =
    Ok (true, true, true, Some [Some (0, 1); Some (1, 1)], Some [Some (0, 0); Some (0, 0)])) by (vm_compute; reflexivity).
  apply with_ere_ok in H as (e & Hp & H). apply bind_ok in H as (c & H1 & H). apply bind_ok in H as (d & H2 & H). apply bind_ok in H as (x & H3 & H). apply bind_ok in H as (y & H4 & H). injection H as H5 H6 H7 -> ->.
  exists (s2l "(z?|y|(b{2,1})){2,}"), e, c, d, (s2l "y"). do 2 (split; [assumption|]). split; [repeat constructor|]. split; [repeat constructor|]. split; [now apply parse_iff|]. auto.
Qed.
Print Assumptions C23_mixed_refuted.
