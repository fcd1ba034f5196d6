(** All ways of compiling a pattern. *)
From Verif Require Export PCaret.
From Coq Require Import ZifyBool ZifyNat ZifyN.
Open Scope nat_scope.
Open Scope list_scope.
Set Default Proof Using "Type".

(** The engine a macro makes for a pattern. *)
Definition compiled (s : list N) (en : engine) : Prop :=
  compile_regex s = Ok en \/ compile_dfa s = Ok en \/ compile_flat s = Ok en \/ compile_flat_u8 s = Ok en \/ compile_one_pass s = Ok en \/ compile_fixed s = Ok en.

Lemma base_any_right s e b u : parse_str s = ROk e -> Forall scalar s -> pick_base_engine e = Ok (b, u) ->
  byte_automaton_of e u /\ 1 <= engine_groups b /\ (match b with EDfa _ => False | _ => True end \/ caret_ok e = true -> engine_right e b).
Proof.
  intros Hp Hs H. destruct (base_right s e b u Hp Hs H) as (H1 & H2 & H3). split; [assumption|]. split; [assumption|].
  destruct b as [op|d|n|n|b' offs]; try (intros _; exact H3).
  - intros [[]|Hc]. unfold pick_base_engine in H.
    destruct (working_new (tree_of e)) as [n| | |] eqn:En; try discriminate. cbn [bind] in H.
    destruct (u8_new n) as [m| | |] eqn:Em; try discriminate. cbn [bind] in H.
    destruct (op_make m) as [[o|]| | |] eqn:Eo; try discriminate. cbn [bind] in H.
    assert (Hne : m <> []) by (intros ->; discriminate).
    destruct (tdfa_from_nfa m _) as [[d'|]| | |] eqn:Ed; try discriminate; cbn [bind] in H.
    + unfold make_dfa in H. destruct (dfa_from_tagged d'); try discriminate. cbn [bind] in H. injection H as -> <-.
      eapply dfa_right; eauto. eapply parsed_settled; eauto.
    + destruct (nfa_is_ascii n); [unfold make_flat_u8 in H; destruct (flat_make m); discriminate|]. unfold make_flat in H. destruct (flat_make n); try discriminate. cbn [bind] in H. destruct (nfa_compiles n); discriminate.
Qed.
Lemma fixed_any_right s e b u offs : parse_str s = ROk e -> Forall scalar s -> pick_base_engine e = Ok (b, u) -> fixed_offsets u = Ok (Some offs) ->
  1 <= engine_groups (EFixed b offs) /\ (not_dfa (EFixed b offs) \/ caret_ok e = true -> engine_right e (EFixed b offs)).
Proof.
  intros Hp Hs Eb Ef. destruct (base_any_right s e b u Hp Hs Eb) as (Hu & Hg & Hr). split; [eapply fixed_groups; eauto|].
  intros Hn. assert (Hb : engine_right e b) by (apply Hr; destruct Hn as [Hn|Hn]; [left; destruct b; try exact I; exact Hn|now right]).
  apply (fixed_right e u b offs Hu Ef). intros T HT. now apply Hb.
Qed.
Lemma compiled_right s en : compiled s en -> Forall scalar s ->
  exists e, G_ere e s /\ 1 <= engine_groups en /\ (not_dfa en \/ caret_ok e = true -> engine_right e en).
Proof.
  intros [H|[H|[H|[H|[H|H]]]]] Hs.
  - apply with_ere_ok in H as (e & Hp & H). exists e. split; [now apply parse_iff|]. unfold pick_engine in H. destruct (pick_base_engine e) as [[b u]| | |] eqn:Eb; try discriminate. cbn [bind] in H.
    destruct (fixed_offsets u) as [[offs|]| | |] eqn:Ef; try discriminate; cbn [bind] in H.
    + destruct (length offs =? num_capture_groups u) eqn:El; [|discriminate]. injection H as <-. eapply fixed_any_right; eauto.
    + injection H as <-. destruct (base_any_right s e b u Hp Hs Eb) as (_ & H1 & H2). split; [assumption|]. intros [H|H]; apply H2; [left; destruct b; try exact I; exact H|now right].
  - apply with_ere_ok in H as (e & Hp & H). exists e. split; [now apply parse_iff|].
    destruct (working_new (tree_of e)) as [n| | |] eqn:En; try discriminate. cbn [bind] in H. destruct (u8_new n) as [m| | |] eqn:Em; try discriminate. cbn [bind] in H.
    destruct (tdfa_from_nfa m _) as [[d|]| | |] eqn:Ed; try discriminate; cbn [bind] in H. unfold make_dfa in H. destruct (dfa_from_tagged d); try discriminate. cbn [bind] in H. injection H as <-.
    assert (Hne : m <> []) by (intros ->; discriminate). split; [cbn; unfold tdfa_groups; lia|]. intros [[]|Hc]. eapply dfa_right; eauto; [eapply parsed_u8_ne; eauto|eapply parsed_settled; eauto].
  - destruct (compile_flat_right s en H Hs) as (e & H1 & H2 & H3). exists e. auto.
  - destruct (compile_flat_u8_right s en H Hs) as (e & H1 & H2 & H3). exists e. auto.
  - destruct (compile_one_pass_right s en H Hs) as (e & H1 & H2 & H3). exists e. auto.
  - apply with_ere_ok in H as (e & Hp & H). exists e. split; [now apply parse_iff|]. destruct (pick_base_engine e) as [[b u]| | |] eqn:Eb; try discriminate. cbn [bind] in H.
    destruct (fixed_offsets u) as [[offs|]| | |] eqn:Ef; try discriminate; cbn [bind] in H.
    destruct (length offs =? num_capture_groups u) eqn:El; [|discriminate]. injection H as <-. eapply fixed_any_right; eauto.
Qed.
