(** Patterns that can match nothing (C10, C53). *)
From Coq Require Import String.
From Verif Require Import PAlive.
From Coq Require Import ZifyBool ZifyNat ZifyN.
Open Scope nat_scope.
Open Scope list_scope.

(** C10, exactly: a byte automaton with states is built for the patterns that match some text, and for no others. *)
Theorem C10_exact : forall s e, G_ere e s -> Forall scalar s ->
  (exists n m, working_new (tree_of e) = Ok n /\ u8_new n = Ok m /\ m <> []) <-> exists T, Forall scalar T /\ occurs e T.
Proof.
  intros s e Hg Hs. apply parse_iff in Hg. split.
  - intros (n & m & En & Em & Hm). eapply byte_alive; eauto. eapply parsed_ok; eauto.
  - intros (T & HT & Ho). destruct (parsed_automata s e Hg Hs T HT Ho) as (n & m & En & _ & _ & Em & _ & Hm & _). exists n, m. split; [assumption|]. split; [assumption|]. intros ->. cbn in Hm. lia.
Qed.
Print Assumptions C10_exact.
Example C10_exact_case : with_ere (s2l "($|b)^(a|)") (fun e => do n <- working_new (tree_of e); do m <- u8_new n; Ok (List.length n, List.length m)) = Ok (13, 9) /\
  with_ere (s2l "($|b)^a|x[z-a]") (fun e => do n <- working_new (tree_of e); do m <- u8_new n; Ok (List.length n, List.length m)) = Ok (10, 0).
Proof. split; vm_compute; reflexivity. Qed.

(** The character automaton tells the same if no bracket list is empty. *)
Theorem C10_char_exact : forall s e n, G_ere e s -> Forall scalar s -> (forall a, In a (atoms e) -> exists c, scalar c /\ atom_has a c) ->
  working_new (tree_of e) = Ok n -> n <> [] <-> exists T, Forall scalar T /\ occurs e T.
Proof.
  intros s e n Hg Hs Ha En. apply parse_iff in Hg. split.
  - intros Hn. apply (char_alive e n); auto; [eapply parsed_ok; eauto|]. intros a Hi. destruct (Ha a Hi) as (c & Hc & Hk). exists c. split; [assumption|now apply atom_check_iff].
  - intros (T & HT & Ho) ->. destruct (parsed_automata s e Hg Hs T HT Ho) as (n & m & En' & (_ & Hn & _) & _). rewrite En in En'. injection En' as <-. cbn in Hn. lia.
Qed.
Print Assumptions C10_char_exact.
Example C10_char_case : with_ere (s2l "($|b)^[a-b]|c^") (fun e => do n <- working_new (tree_of e); Ok (List.length n)) = Ok 0 /\
  with_ere (s2l "($|b)^[a-b]|c") (fun e => do n <- working_new (tree_of e); Ok (1 <=? List.length n)) = Ok true.
Proof. split; vm_compute; reflexivity. Qed.

(** C53.  Whatever macro is used, but for the one of the character engine: an engine is produced only for a pattern that matches some text. *)
Theorem C53_matchable_partial : forall s en, compiled s en -> Forall scalar s ->
  (compile_flat s = Ok en -> forall e a, G_ere e s -> In a (atoms e) -> exists c, scalar c /\ atom_has a c) ->
  exists e T, G_ere e s /\ Forall scalar T /\ occurs e T.
Proof.
  intros s en H Hs Ha.
  assert (K : forall e n m, parse_str s = ROk e -> working_new (tree_of e) = Ok n -> u8_new n = Ok m -> m <> [] -> exists e T, G_ere e s /\ Forall scalar T /\ occurs e T).
  { intros e n m Hp En Em Hm. exists e. destruct (byte_alive e n m) as (T & HT & Ho); auto; [eapply parsed_ok; eauto|]. exists T. split; [now apply parse_iff|auto]. }
  assert (B : forall e b u, parse_str s = ROk e -> pick_base_engine e = Ok (b, u) -> exists e T, G_ere e s /\ Forall scalar T /\ occurs e T).
  { intros e b u Hp Hb. unfold pick_base_engine in Hb. apply bind_ok in Hb as (n & En & Hb). apply bind_ok in Hb as (m & Em & Hb). apply bind_ok in Hb as (op & Eo & _).
    apply (K e n m); auto. intros ->. discriminate. }
  destruct H as [H|[H|[H|[H|[H|H]]]]].
  - apply with_ere_ok in H as (e & Hp & H). apply bind_ok in H as ([b u] & Hb & _). eauto.
  - apply with_ere_ok in H as (e & Hp & H). apply bind_ok in H as (n & En & H). apply bind_ok in H as (m & Em & H). apply bind_ok in H as (d & Ed & _). apply (K e n m); auto. intros ->. discriminate.
  - specialize (Ha H). apply with_ere_ok in H as (e & Hp & H). apply bind_ok in H as (n & En & H). apply bind_ok in H as (t & Et & _). apply flat_make_ne in Et.
    assert (Hg := proj1 (parse_iff _ _) Hp). exists e. assert (X := proj1 (C10_char_exact s e n Hg Hs (fun a => Ha e a Hg) En) Et). destruct X as (T & X). eauto.
  - apply with_ere_ok in H as (e & Hp & H). apply bind_ok in H as (n & En & H). apply bind_ok in H as (m & Em & H). apply bind_ok in H as (t & Et & _). apply flat_make_ne in Et. eauto.
  - apply with_ere_ok in H as (e & Hp & H). apply bind_ok in H as (n & En & H). apply bind_ok in H as (m & Em & H). apply bind_ok in H as (o & Eo & _). apply (K e n m); auto. intros ->. discriminate.
  - apply with_ere_ok in H as (e & Hp & H). apply bind_ok in H as ([b u] & Hb & _). eauto.
Qed.
Print Assumptions C53_matchable_partial.
(** For the lockstep byte engine this is exact. *)
Theorem C53_flat_u8 : forall s e, G_ere e s -> Forall scalar s -> (exists en, compile_flat_u8 s = Ok en) <-> exists T, Forall scalar T /\ occurs e T.
Proof.
  intros s e Hg Hs. split.
  - intros (en & H). assert (Hp := proj2 (parse_iff _ _) Hg). apply with_ere_ok in H as (e' & Hp' & H). rewrite Hp in Hp'. injection Hp' as <-.
    apply bind_ok in H as (n & En & H). apply bind_ok in H as (m & Em & H). apply bind_ok in H as (t & Et & _). apply flat_make_ne in Et. apply (C10_exact s e Hg Hs). eauto.
  - intros (T & HT & Ho). apply parse_iff in Hg. eapply flat_u8_compiles; eauto.
Qed.
Print Assumptions C53_flat_u8.
Example C53_case : compile_regex (s2l "($|b)^a|x[z-a]") = Panic /\ compile_dfa (s2l "a{2,1}") = Panic /\ compile_flat_u8 (s2l "$.^") = Panic /\
  (do en <- compile_flat_u8 (s2l "$.?^"); engine_test en []) = Ok true.
Proof. repeat split; vm_compute; reflexivity. Qed.
(** The character engine is produced for [[z-a]], which matches nothing. *)
Theorem C53_refuted : exists s e en, G_ere e s /\ Forall scalar s /\ compiled s en /\ forall T, Forall scalar T -> ~ occurs e T.
Proof.
  assert (He : exists e, parse_str (s2l "[z-a]") = ROk e) by (eexists; vm_compute; reflexivity). destruct He as (e & He). assert (Hs : Forall scalar (s2l "[z-a]")) by (repeat constructor).
  assert (H : exists en, compile_flat (s2l "[z-a]") = Ok en) by (eexists; vm_compute; reflexivity). destruct H as (en & H). exists (s2l "[z-a]"), e, en.
  split; [now apply parse_iff|]. split; [assumption|]. split; [unfold compiled; auto|]. intros T HT Ho.
  destruct (flat_u8_compiles _ e He Hs T HT Ho) as (en' & H'). assert (compile_flat_u8 (s2l "[z-a]") = Panic) by (vm_compute; reflexivity). congruence.
Qed.
Print Assumptions C53_refuted.
