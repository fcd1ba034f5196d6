(** What the macros answer (C57). *)
From Coq Require Import String.
From Verif Require Import POutcome.
From Coq Require Import ZifyBool ZifyNat ZifyN.
Open Scope nat_scope.
Open Scope list_scope.

(** C57.  Every macro that builds a byte automaton ends, and panics exactly for the patterns that parse and match no text. *)
Theorem C57_panics : forall c s, In c [compile_regex; compile_dfa; compile_flat_u8; compile_one_pass; compile_fixed] -> Forall scalar s ->
  c s <> Fuel /\ (c s = Panic <-> exists e, G_ere e s /\ forall T, Forall scalar T -> ~ occurs e T).
Proof.
  intros c s Hc Hs. assert (Hb : byte_macro c) by (unfold byte_macro; cbn in Hc; intuition auto). apply outcome_iff; [assumption| | |].
  - intros k H <-. destruct Hc as [<-|[<-|[<-|[<-|[<-|[]]]]]]; now apply macro_rejects.
  - intros e Hp Hx. now apply (macro_settled c s e).
  - intros e Hp Hx. now apply (macro_panics c s e).
Qed.
Print Assumptions C57_panics.
(** So does the attribute. *)
Theorem C57_attribute : forall s, Forall scalar s ->
  attr_compile s <> Fuel /\ (attr_compile s = Panic <-> exists e, G_ere e s /\ forall T, Forall scalar T -> ~ occurs e T).
Proof.
  intros s Hs. apply outcome_iff; [assumption| | |].
  - intros k H <-. now apply macro_rejects.
  - intros e Hp Hx. now apply (attr_settled s e).
  - intros e Hp Hx. now apply (attr_panics s e).
Qed.
Print Assumptions C57_attribute.
(** The macro of the character engine ends too, and panics only for such patterns; for all of them if no atom is empty. *)
Theorem C57_flat : forall s, Forall scalar s ->
  compile_flat s <> Fuel /\ (compile_flat s = Panic -> exists e, G_ere e s /\ forall T, Forall scalar T -> ~ occurs e T) /\
  (forall e, G_ere e s -> (forall a, In a (atoms e) -> exists c, scalar c /\ atom_has a c) -> (forall T, Forall scalar T -> ~ occurs e T) -> compile_flat s = Panic).
Proof.
  intros s Hs. destruct (parse_str s) as [e| |] eqn:E; [| |now apply parse_no_fuel in E].
  - destruct (flat_settled s e E Hs) as (n & En & H1 & H2). destruct n as [|x n].
    + rewrite (H2 eq_refl). split; [discriminate|]. split; [|reflexivity]. intros _. exists e. split; [now apply parse_iff|].
      intros T HT Ho. destruct (parsed_automata s e E Hs T HT Ho) as (n & m & En' & (_ & Hn & _) & _). rewrite En in En'. injection En' as <-. cbn in Hn. lia.
    + assert (X : settled_as (compile_flat s)) by (apply H1; discriminate). split; [destruct X as [(y & ->)| ->]; discriminate|]. split; [destruct X as [(y & ->)| ->]; discriminate|].
      intros e' Hg Ha Hno. exfalso. apply parse_iff in Hg. rewrite E in Hg. injection Hg as <-. destruct (char_alive e (x :: n)) as (T & HT & Ho); auto; [eapply parsed_ok; eauto|discriminate| |destruct (Hno T HT Ho)].
      intros a Hi. destruct (Ha a Hi) as (c & Hc & Hk). exists c. split; [assumption|now apply atom_check_iff].
  - assert (X : forall e, ~ G_ere e s) by (intros e' Hg; apply parse_iff in Hg; congruence). assert (Y : compile_flat s = NoCompile) by now apply macro_rejects. rewrite Y. split; [discriminate|]. split; [discriminate|].
    intros e0 Hg. destruct (X e0 Hg).
Qed.
Print Assumptions C57_flat.
(** Text that is no pattern is answered with an error. *)
Theorem C57_rejects : forall c s, In c [compile_regex; compile_dfa; compile_flat; compile_flat_u8; compile_one_pass; compile_fixed] -> (forall e, ~ G_ere e s) -> c s = NoCompile.
Proof. intros c s [<-|[<-|[<-|[<-|[<-|[<-|[]]]]]]] H; now apply macro_rejects. Qed.
Print Assumptions C57_rejects.
Example C57_case : map (fun c => c (s2l "(x|y)*$(a|b{2,1})")) [compile_regex; compile_dfa; compile_flat; compile_flat_u8; compile_one_pass; compile_fixed] = repeat Panic 6 /\
  (exists e, G_ere e (s2l "(x|y)*$(a|b{2,1})")) /\ attr_compile (s2l "(x|y)*$(a|b{2,1})") = Panic /\ compile_regex (s2l "a**") = NoCompile /\ (forall e, ~ G_ere e (s2l "a**")).
Proof.
  split; [vm_compute; reflexivity|]. split; [eexists; apply parse_iff; vm_compute; reflexivity|]. split; [vm_compute; reflexivity|]. split; [vm_compute; reflexivity|].
  intros e Hg. apply parse_iff in Hg. assert (X : match parse_str (s2l "a**") with RErr _ => true | _ => false end = true) by (vm_compute; reflexivity). rewrite Hg in X. discriminate.
Qed.
