(** Properties of the parser and printer: C04, C05, C06, C38. *)
From Verif Require Import PParser Display SpecGrammar.
From Coq Require Import String.
Open Scope N_scope.
Open Scope list_scope.

(** C04.  Parsing always ends (the fuel of the model is never exhausted) with either a tree that renders
    the whole string, or an error, and an error only if the string renders no tree. *)
Theorem C04_parse_total : forall s,
  (exists e, parse_str s = ROk e /\ G_ere e s) \/
  (exists x, parse_str s = RErr x /\ forall e, ~ G_ere e s).
Proof.
  intros s. destruct (parse_str s) as [e|x|] eqn:E.
  - left. exists e. split; [reflexivity|]. now apply parse_iff.
  - right. exists x. split; [reflexivity|]. intros e HG. apply parse_iff in HG. congruence.
  - now apply parse_no_fuel in E.
Qed.
Print Assumptions C04_parse_total.
Example C04_case :
  (exists e, parse_str (s2l "(a|b*)[]x-]{2,}?^") = ROk e) /\ parse_str (s2l "(a|b*") = RErr (InvalidAtom (ch ")")).
Proof. split; [eexists|]; vm_compute; reflexivity. Qed.

(** C06.  The parser decides the grammar. *)
Theorem C06_parse_grammar : forall s e, parse_str s = ROk e <-> G_ere e s.
Proof. exact parse_iff. Qed.
Print Assumptions C06_parse_grammar.
Theorem C06_unambiguous : forall s e1 e2, G_ere e1 s -> G_ere e2 s -> e1 = e2.
Proof. intros s e1 e2 H1 H2. apply parse_iff in H1, H2. congruence. Qed.
Print Assumptions C06_unambiguous.
(** Escapes, a class, a literal bracket, a trailing dash, a bounded lazy quantifier. *)
Example C06_case :
  G_ere [[PSingle (XAtom (NormalChar (ch "\")))];
         [PQuant (XAtom (NonmatchingList [Single (ch "]"); Class Digit; Single (ch "a"); Single (ch "-")]))
                 {| q_type := QRange 2 (Some 10); q_alt := true |}; PEnd]]
        (s2l "\\|[^][:digit:]a-]{2,+10}?$").
Proof. apply parse_iff. vm_compute. reflexivity. Qed.

(** C05.  Printing a parsed pattern and parsing it again gives the same tree. *)
Theorem C05_round_trip : forall s e, parse_str s = ROk e -> parse_str (show_ere e) = ROk e.
Proof. exact show_parse. Qed.
Print Assumptions C05_round_trip.
(** The printed text need not be the original one. *)
Example C05_case : exists e, parse_str (s2l "]{007}(|[]a-])") = ROk e /\ show_ere e = s2l "\]{7}(|[]a-])".
Proof. eexists; split; vm_compute; reflexivity. Qed.

(** C38 is false: the error mentions [)] whatever the problem is. *)
Theorem C38_refuted : exists s, ~ In (ch ")") s /\ parse_str s = RErr (InvalidAtom (ch ")")).
Proof. exists (s2l "a[b"). split; [vm_compute; intuition discriminate|vm_compute; reflexivity]. Qed.
Print Assumptions C38_refuted.
Theorem C38_error_constant : forall s x, parse_str s = RErr x -> x = InvalidAtom (ch ")").
Proof. exact parse_error. Qed.
Print Assumptions C38_error_constant.
Example C38_case : exists x, parse_str (s2l "\q") = RErr x.
Proof. eexists; vm_compute; reflexivity. Qed.
