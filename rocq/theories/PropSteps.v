(** How long the fixed-offset analysis takes (C66). *)
From Coq Require Import String.
From Verif Require Import SpecSteps SpecGrammar PStepsHex PSteps PAll PStrip.
From Coq Require Import ZifyBool ZifyNat ZifyN.
Open Scope nat_scope.
Open Scope list_scope.

(** C66.  The loop of [get_fixed_offsets] with its stack ends, whenever the check for cycles lets it start, with what the model of the
    analysis in the rest of this development returns. *)
Theorem C66_ends : forall s e n m l, G_ere e s -> Forall scalar s -> working_new (tree_of e) = Ok n -> u8_new n = Ok m -> topological_ordering m = Ok (Some l) ->
  exists x r, takes (fo_iter m) (fo_init m) x r /\ fixed_offsets m = Ok r.
Proof. intros s e n m l Hg Hs En Em El. apply parse_iff in Hg. destruct (loop_ends s e n m l Hg Hs En Em El) as (x & r & H1 & H2 & _). eauto. Qed.
Print Assumptions C66_ends.
Example C66_case_ends : with_ere (s2l "^a(b|c)d$") (fun e => do n <- working_new (tree_of e); do m <- u8_new n; do o <- topological_ordering m; do r <- fixed_offsets m;
  Ok (match o with Some _ => true | None => false end, List.length m, r, match run_for 18 (fo_iter m) (inl (fo_init m)) with inl _ => None | inr r => Some r end)) =
  Ok (true, 12, Some [(Some 0, Some 3); (Some 1, Some 2)], Some (Some [(Some 0, Some 3); (Some 1, Some 2)])).
Proof. vm_compute. reflexivity. Qed.
Example C66_case_differ : with_ere (s2l "^(a|bc)$") (fun e => do n <- working_new (tree_of e); do m <- u8_new n; do r <- fixed_offsets m;
  Ok (r, match run_for 20 (fo_iter m) (inl (fo_init m)) with inl _ => None | inr r => Some r end)) = Ok (None, Some None).
Proof. vm_compute. reflexivity. Qed.
(** It takes at most one iteration more than there are states when no state has more than one edge out, and in general exponentially many. *)
Theorem C66_line_partial : forall s e n m l x r, G_ere e s -> Forall scalar s -> working_new (tree_of e) = Ok n -> u8_new n = Ok m -> topological_ordering m = Ok (Some l) ->
  (forall q, In q m -> List.length (trans q) + List.length (eps q) <= 1) -> takes (fo_iter m) (fo_init m) x r -> x <= 1 + List.length m.
Proof. intros s e n m l x r Hg Hs En Em El Hd Ht. apply parse_iff in Hg. rewrite <- (geometric_one (List.length m)). exact (loop_bound s e n m l 1 x r Hg Hs En Em El Hd Ht). Qed.
Print Assumptions C66_line_partial.
Example C66_case_line : with_ere (s2l "^20(26)-11$") (fun e => do n <- working_new (tree_of e); do m <- u8_new n;
  Ok (forallb (fun q => List.length (trans q) + List.length (eps q) <=? 1) m, List.length m, match run_for 15 (fo_iter m) (inl (fo_init m)) with inl _ => None | inr r => Some r end)) =
  Ok (true, 14, Some (Some [(Some 0, Some 7); (Some 2, Some 4)])).
Proof. vm_compute. reflexivity. Qed.
Theorem C66_bound : forall s e n m l d x r, G_ere e s -> Forall scalar s -> working_new (tree_of e) = Ok n -> u8_new n = Ok m -> topological_ordering m = Ok (Some l) ->
  (forall q, In q m -> List.length (trans q) + List.length (eps q) <= d) -> takes (fo_iter m) (fo_init m) x r -> x <= 1 + (d + 1) ^ List.length m.
Proof.
  intros s e n m l d x r Hg Hs En Em El Hd Ht. apply parse_iff in Hg. etransitivity; [exact (loop_bound s e n m l d x r Hg Hs En Em El Hd Ht)|]. rewrite Nat.add_1_r. apply le_n_S, geometric_pow.
Qed.
Print Assumptions C66_bound.
(** Whenever it succeeds, it takes more iterations than any list of texts has in which the pattern occurs and any two of which differ in
    length or have a text between them in which it does not. *)
Theorem C66_lower : forall s e n m S x offs, G_ere e s -> Forall scalar s -> working_new (tree_of e) = Ok n -> u8_new n = Ok m -> fixed_offsets m = Ok (Some offs) ->
  takes (fo_iter m) (fo_init m) x (Some offs) -> NoDup S -> (forall T, In T S -> Forall scalar T /\ occurs e T) -> (forall T U, In T S -> In U S -> T <> U -> cut_off e T U) -> List.length S < x.
Proof. intros s e n m S x offs Hg Hs En Em Ef Ht. apply parse_iff in Hg. exact (loop_lower s e n m S x offs Hg Hs En Em Ht Ef). Qed.
Print Assumptions C66_lower.
(** So it is exponential: for [^[0-9a-f]{k}$], for which the default macro does choose the fixed offsets, the automaton has at most
    [224 * k + 243] states and the loop takes more than [2 ^ k] iterations. *)
Theorem C66_refuted : forall k ds, 1 <= k -> G_num (N.of_nat k) ds -> exists e n m b x offs, let s := s2l "^[0-9a-f]{" ++ ds ++ s2l "}$" in
  G_ere e s /\ working_new (tree_of e) = Ok n /\ u8_new n = Ok m /\ List.length m <= 224 * k + 243 /\
  compile_regex s = Ok (EFixed b offs) /\ fixed_offsets m = Ok (Some offs) /\ takes (fo_iter m) (fo_init m) x (Some offs) /\ 2 ^ k < x.
Proof. intros k ds Hk Hd. destruct (hexes_default k ds Hk Hd) as (n & m & b & x & offs & H). exists (hexes k), n, m, b, x, offs. split; [exact (hexes_grammar k ds Hd)|exact H]. Qed.
Print Assumptions C66_refuted.
(** The digest of a file, in hexadecimal: over four thousand million iterations while the program is compiled. *)
Theorem C66_digest : exists e n m b x offs, G_ere e (s2l "^[0-9a-f]{32}$") /\ working_new (tree_of e) = Ok n /\ u8_new n = Ok m /\ compile_regex (s2l "^[0-9a-f]{32}$") = Ok (EFixed b offs) /\
  takes (fo_iter m) (fo_init m) x (Some offs) /\ (4294967296 < N.of_nat x)%N.
Proof.
  assert (Hd : G_num (N.of_nat 32) (s2l "32")) by (apply (Gn_plain (s2l "32")); [discriminate|repeat constructor; discriminate|reflexivity]).
  destruct (C66_refuted 32 (s2l "32") ltac:(lia) Hd) as (e & n & m & b & x & offs & H1 & H2 & H3 & _ & H5 & _ & H6 & H7). exists e, n, m, b, x, offs. do 5 (split; [assumption|]).
  change 4294967296%N with (2 ^ N.of_nat 32)%N. change 2%N with (N.of_nat 2). rewrite <- Nat2N.inj_pow. lia.
Qed.
Print Assumptions C66_digest.
Example C66_case : map (fun p => with_ere (s2l (fst p)) (fun e => do n <- working_new (tree_of e); do m <- u8_new n;
  Ok (List.length m, map (fun k => match run_for k (fo_iter m) (inl (fo_init m)) with inl _ => false | inr _ => true end) [snd p; snd p + 1])))
  [("^[0-9a-f]{2}$", 17); ("^[0-9a-f]{4}$", 65); ("^[0-9a-f]{8}$", 1025)]%string = [Ok (7, [false; true]); Ok (9, [false; true]); Ok (13, [false; true])].
Proof. vm_compute. reflexivity. Qed.
