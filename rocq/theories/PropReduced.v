(** Optimised automata have nothing left to merge or to skip (C79). *)
From Coq Require Import String.
From Verif Require Import PReducedAll PropLength PBridge.
From Coq Require Import ZifyBool ZifyNat ZifyN.
Open Scope string_scope.
Open Scope nat_scope.
Open Scope list_scope.

(** C79.  Whatever automaton the optimisation is given: if it comes to an end, nothing is left to merge or to skip. *)
Theorem C79_optimize : forall A (eqA : A -> A -> bool) fuel n n', (forall a, eqA a a = true) -> optimize eqA fuel n = Ok n' -> reduced n'.
Proof. intros A eqA fuel n n' H. now apply optimize_reduced. Qed.
Print Assumptions C79_optimize.
(** The automata of all patterns have no edge without symbol twice. *)
Theorem C79_distinct : forall s e n, G_ere e s -> working_new (tree_of e) = Ok n ->
  (3 <= List.length n -> forall i, NoDup (eps (get n i))) /\ forall m, u8_new n = Ok m -> 3 <= List.length m -> forall i, NoDup (eps (get m i)).
Proof.
  intros s e n _ En. split.
  - apply bind_ok in En as (x1 & _ & En). apply bind_ok in En as (x2 & _ & En). apply bind_ok in En as (x3 & _ & En). intros H i. eapply finalize_distinct; [apply atom_eqb_refl|exact En|exact H].
  - intros m Em. apply bind_ok in Em as (x & _ & Em). intros H i. eapply finalize_distinct; [apply range_eqb_refl|exact Em|exact H].
Qed.
Print Assumptions C79_distinct.
(** The character automaton of a pattern has nothing left to merge or to skip if there are no anchors and every quantifier allows a count,
    ... *)
Theorem C79_char : forall s e n, G_ere e s -> Forall scalar s -> anchor_free e = true -> possible e -> working_new (tree_of e) = Ok n -> reduced n.
Proof. intros s e n Hg Hs. apply char_reduced. eapply grammar_atoms_ok; eauto. Qed.
Print Assumptions C79_char.
(** ... the byte automaton if there are no anchors and every bracket expression has a character. *)
Theorem C79_bytes : forall s e n m, G_ere e s -> Forall scalar s -> anchor_free e = true -> inhabited_atoms e -> working_new (tree_of e) = Ok n -> u8_new n = Ok m -> reduced m.
Proof.
  intros s e n m Hg Hs Hf Hi En Em. eapply byte_reduced; eauto; [eapply grammar_atoms_ok; eauto|]. intros ->. discriminate Em.
Qed.
Print Assumptions C79_bytes.
(** Without these conditions something may be left, since states are removed after the last optimisation. *)
Definition left_char : ere := [[PQuant (XSub [[PSingle (XAtom (NormalChar 97%N)); PQuant (XAtom (NormalChar 98%N)) {| q_type := QRange 2 (Some 1%N); q_alt := false |}]]) {| q_type := QStar; q_alt := false |}; PSingle (XAtom (NormalChar 100%N))]].
Definition left_byte : ere := [[PQuant (XSub [[PSingle (XAtom (NormalChar 97%N)); PSingle (XAtom (MatchingList [Range 122%N 97%N]))]]) {| q_type := QStar; q_alt := false |};
  PQuant (XSub [[PSingle (XAtom (NormalChar 98%N))]]) {| q_type := QStar; q_alt := false |}; PSingle (XAtom (NormalChar 100%N))]].
Theorem C79_char_refuted : exists s e n, G_ere e s /\ Forall scalar s /\ anchor_free e = true /\ inhabited_atoms e /\ working_new (tree_of e) = Ok n /\ ~ reduced n.
Proof.
  exists (s2l "(ab{2,1})*d"), left_char. eexists. split; [apply parse_iff; vm_compute; reflexivity|]. split; [repeat constructor|]. split; [reflexivity|]. split.
  - intros a [<-|[<-|[<-|[]]]]; [exists 97%N|exists 98%N|exists 100%N]; (split; [reflexivity|apply atom_check_iff; reflexivity]).
  - split; [vm_compute; reflexivity|]. intros [_ H]. destruct (H 3) as (_ & X & _); [lia|cbn; lia|]. apply X. split; [reflexivity|]. eexists. reflexivity.
Qed.
Print Assumptions C79_char_refuted.
Theorem C79_bytes_refuted : exists s e n m, G_ere e s /\ Forall scalar s /\ anchor_free e = true /\ possible e /\ working_new (tree_of e) = Ok n /\ u8_new n = Ok m /\ ~ reduced m.
Proof.
  exists (s2l "(a[z-a])*(b)*d"), left_byte. eexists. eexists. split; [apply parse_iff; vm_compute; reflexivity|]. split; [repeat constructor|]. split; [reflexivity|]. split.
  - split; [discriminate|]. cbn. split; [|exact I]. split; [split; [exists 0; exact I|split; [discriminate|tauto]]|]. split; [split; [exists 0; exact I|split; [discriminate|tauto]]|tauto].
  - split; [vm_compute; reflexivity|]. split; [vm_compute; reflexivity|]. intros [_ H]. destruct (H 3) as (_ & X & _); [lia|cbn; lia|]. apply X. split; [reflexivity|]. eexists. reflexivity.
Qed.
Print Assumptions C79_bytes_refuted.
(** A case within the conditions: 57 states (and those of the two loops) are made into 25, and 62 into 39 for bytes. *)
Definition reduced_sample : ere := [[PSingle (XSub [[PSingle (XAtom (NormalChar 97%N))]; [PSingle (XAtom (NormalChar 97%N)); PSingle (XAtom (NormalChar 98%N))]]);
  PQuant (XSub [[PSingle (XAtom (NormalChar 99%N))]; []]) {| q_type := QRange 1 (Some 3%N); q_alt := false |}]].
Example C79_case : parse_str (s2l "(a|ab)(c|){1,3}") = ROk reduced_sample /\ anchor_free reduced_sample = true /\ possible reduced_sample /\ inhabited_atoms reduced_sample /\
  List.length (build (tree_of reduced_sample)) = 57 /\
  (do n <- working_new (tree_of reduced_sample); do b <- u8_build n; do m <- u8_new n; Ok (List.length n, List.length b, List.length m)) = Ok (25, 62, 39).
Proof.
  split; [vm_compute; reflexivity|]. split; [reflexivity|]. split; [|split; [|split; vm_compute; reflexivity]].
  - split; [discriminate|]. cbn. split; [|exact I]. split; [split; [discriminate|tauto]|]. split; [split; [exists 1; lia|split; [discriminate|tauto]]|exact I].
  - intros a Ha. cbn in Ha. repeat destruct Ha as [<-|Ha]; [exists 97%N|exists 97%N|exists 98%N|exists 99%N|destruct Ha]; (split; [reflexivity|apply atom_check_iff; reflexivity]).
Qed.
