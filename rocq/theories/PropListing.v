(** Printed listings of automata: C74. *)
From Coq Require Import String.
From Verif Require Import PListing SpecListing PAll.
Open Scope nat_scope.
Open Scope list_scope.

(** C74.  Two byte automata of patterns print the same exactly when they are the same up to what their zero-width transitions are for. *)
Theorem C74_bytes : forall s1 e1 n1 m1 s2 e2 n2 m2,
  parse_str s1 = ROk e1 -> Forall scalar s1 -> working_new (tree_of e1) = Ok n1 -> u8_new n1 = Ok m1 -> m1 <> [] ->
  parse_str s2 = ROk e2 -> Forall scalar s2 -> working_new (tree_of e2) = Ok n2 -> u8_new n2 = Ok m2 -> m2 <> [] ->
  u8_text m1 = u8_text m2 <-> skeleton m1 = skeleton m2.
Proof.
  intros s1 e1 n1 m1 s2 e2 n2 m2 P1 S1 E1 U1 N1 P2 S2 E2 U2 N2.
  destruct (parsed_u8_ne s1 e1 P1 S1 n1 m1 E1 U1 N1) as (_ & _ & _ & _ & _ & B1 & _). destruct (parsed_u8_ne s2 e2 P2 S2 n2 m2 E2 U2 N2) as (_ & _ & _ & _ & _ & B2 & _).
  apply u8_text_inj; now apply byte_nfa_bytes.
Qed.
Print Assumptions C74_bytes.

(** The same for the automata of characters, at compile time and in the user's binary, when neither pattern has a newline in it (the listing
    writes a newline of a pattern as it is, in the middle of a line). *)
Theorem C74_chars_partial : forall s1 e1 n1 s2 e2 n2,
  parse_str s1 = ROk e1 -> Forall scalar s1 -> ~ In 10%N s1 -> working_new (tree_of e1) = Ok n1 -> n1 <> [] ->
  parse_str s2 = ROk e2 -> Forall scalar s2 -> ~ In 10%N s2 -> working_new (tree_of e2) = Ok n2 -> n2 <> [] ->
  (working_text n1 = working_text n2 <-> skeleton n1 = skeleton n2) /\
  (static_text (static_nfa n1) = static_text (static_nfa n2) <-> skeleton n1 = skeleton n2).
Proof.
  intros s1 e1 n1 s2 e2 n2 P1 S1 L1 E1 N1 P2 S2 L2 E2 N2. apply parse_iff in P1. apply parse_iff in P2.
  assert (T1 := pattern_tame s1 e1 n1 P1 S1 L1 E1 N1). assert (T2 := pattern_tame s2 e2 n2 P2 S2 L2 E2 N2).
  split; [now apply working_text_inj|now apply static_text_inj].
Qed.
Print Assumptions C74_chars_partial.
(** The listings of a pattern. *)
Example C74_case :
  let lines := flat_map (fun s => s2l s ++ nl) in
  with_ere (s2l "^>?[a-c]$") (fun e => do n <- working_new (tree_of e); do m <- u8_new n; Ok (working_text n, u8_text m, static_text (static_nfa n))) =
  Ok (lines ["State 0:"; "  -> 1"; "State 1:"; "  -> 2"; "State 2:"; "  -> 3"; "  -> 4"; "State 3:"; "  -(>)> 4"; "State 4:"; "  -([a-c])> 5"; "State 5:"; "  -> 6"; "State 6:"; "  -> 7"; "State 7:"]%string,
      lines ["State 0:"; "  -> 1"; "State 1:"; "  -> 2"; "State 2:"; "  -> 3"; "  -> 4"; "State 3:"; "  -(>)> 4"; "State 4:"; "  -([a-c])> 5"; "State 5:"; "  -> 6"; "State 6:"; "  -> 7"; "State 7:"]%string,
      lines ["State 0"; "  -> 1"; "State 1"; "  -> 2"; "State 2"; "  -> 3"; "  -> 4"; "State 3"; "  ->> 4"; "State 4"; "  -[a-c]> 5"; "State 5"; "  -> 6"; "State 6"; "  -> 7"; "State 7"]%string).
Proof. vm_compute. reflexivity. Qed.

(** The listing does not determine the automaton: anchors and capture groups are not shown.  Two patterns that match different texts
    print the same. *)
Theorem C74_refuted : exists s1 s2 T, Forall scalar s1 /\ Forall scalar s2 /\ Forall scalar T /\
  with_ere s1 (fun e => do n <- working_new (tree_of e); do m <- u8_new n; Ok (working_text n, u8_text m, static_text (static_nfa n))) =
  with_ere s2 (fun e => do n <- working_new (tree_of e); do m <- u8_new n; Ok (working_text n, u8_text m, static_text (static_nfa n))) /\
  (do en <- compile_regex s1; engine_test en T) = Ok false /\ (do en <- compile_regex s2; engine_test en T) = Ok true.
Proof.
  exists (s2l "^a$$|^b"), (s2l "^a()|^b"), (s2l "ab"). split; [repeat constructor|]. split; [repeat constructor|]. split; [repeat constructor|].
  split; [vm_compute; reflexivity|]. split; vm_compute; reflexivity.
Qed.
Print Assumptions C74_refuted.
