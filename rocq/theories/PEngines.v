(** The engines other than the DFA answer correctly. *)
From Verif Require Export PFixed.
From Coq Require Import ZifyBool ZifyNat Permutation.
Open Scope nat_scope.
Open Scope list_scope.
Set Default Proof Using "Type".

Lemma found_occurs e m T g o : byte_automaton_of e m -> Forall scalar T -> found byte_check (fun _ => 1) m g (utf8 T) o -> is_some o = true <-> occurs e T.
Proof.
  intros Hm HT Hf. rewrite (byte_occurs e m T Hm HT). destruct o as [b|]; cbn in *.
  - destruct Hf as (W & H1 & H2 & _). split; [eauto|reflexivity].
  - split; [discriminate|]. intros (W & H1 & H2). exfalso. eapply Hf; eauto.
Qed.
Lemma one_pass_right e m op : byte_automaton_of e m -> op_make m = Ok (Some op) -> engine_right e (EOnePass op) /\ op_groups op = num_capture_groups m.
Proof.
  intros Hm E. assert (Hm' := Hm). destruct Hm' as (M1 & M2 & M3 & M4 & M5 & M6 & M7).
  destruct (op_make_spec m M1 ltac:(lia) M5 M6 op E) as (Hg & H). split; [|assumption]. intros T HT.
  destruct (H (utf8 T)) as (o & H1 & H2 & H3). cbn [engine_test engine_exec engine_groups]. unfold op_test, op_exec. rewrite H1, H2. cbn [bind].
  split; [exact (found_occurs e m T _ o Hm HT H3)|]. rewrite Hg. apply (byte_found e m T _ o Hm HT H3).
Qed.
Lemma compile_one_pass_right s en : compile_one_pass s = Ok en -> Forall scalar s -> exists e, G_ere e s /\ engine_right e en /\ 1 <= engine_groups en.
Proof.
  intros H Hs. apply with_ere_ok in H as (e & Hp & H). exists e. split; [now apply parse_iff|].
  destruct (working_new (tree_of e)) as [n| | |] eqn:En; try discriminate. cbn [bind] in H.
  destruct (u8_new n) as [m| | |] eqn:Em; try discriminate. cbn [bind] in H.
  destruct (op_make m) as [[op|]| | |] eqn:Eo; try discriminate. injection H as <-.
  assert (Hne : m <> []) by (intros ->; discriminate).
  assert (Hm := parsed_u8_ne s e Hp Hs n m En Em Hne). destruct (one_pass_right e m op Hm Eo) as [H1 H2]. split; [assumption|].
  cbn. rewrite H2. apply num_groups_pos.
Qed.

(** The base engine is not the DFA. *)
Definition not_dfa (en : engine) : Prop := match en with EDfa _ => False | EFixed (EDfa _) _ => False | _ => True end.
Lemma base_right s e b u : parse_str s = ROk e -> Forall scalar s -> pick_base_engine e = Ok (b, u) ->
  byte_automaton_of e u /\ 1 <= engine_groups b /\ (match b with EDfa _ => True | _ => engine_right e b end).
Proof.
  intros Hp Hs H. unfold pick_base_engine in H.
  destruct (working_new (tree_of e)) as [n| | |] eqn:En; try discriminate. cbn [bind] in H.
  destruct (u8_new n) as [m| | |] eqn:Em; try discriminate. cbn [bind] in H.
  destruct (op_make m) as [o| | |] eqn:Eo; try discriminate. cbn [bind] in H.
  assert (Hne : m <> []) by (intros ->; discriminate).
  assert (Hm := parsed_u8_ne s e Hp Hs n m En Em Hne).
  destruct o as [op|].
  - injection H as <- <-. destruct (one_pass_right e m op Hm Eo) as [H1 H2]. split; [assumption|]. split; [cbn; rewrite H2; apply num_groups_pos|]. assumption.
  - destruct (tdfa_from_nfa m _) as [[d|]| | |]; try discriminate; cbn [bind] in H.
    + unfold make_dfa in H. destruct (dfa_from_tagged d); try discriminate. cbn [bind] in H. injection H as <- <-. split; [assumption|]. split; [cbn; unfold tdfa_groups; lia|]. exact I.
    + destruct (nfa_is_ascii n).
      * unfold make_flat_u8 in H. destruct (flat_make m) as [tbl| | |] eqn:Et; try discriminate. cbn [bind] in H. injection H as <- <-.
        split; [assumption|]. split; [apply num_groups_pos|].  intros T HT. now apply flat_u8_right.
      * unfold make_flat in H. destruct (flat_make n) as [tbl| | |] eqn:Et; try discriminate. cbn [bind] in H. destruct (nfa_compiles n); try discriminate. cbn [bind] in H. injection H as <- <-.
        split; [assumption|]. split; [apply num_groups_pos|]. 
        destruct (parsed_working_ne s e Hp Hs n En (flat_make_ne _ _ Et)) as [Ha Hg]. intros T HT. now apply flat_char_right.
Qed.
Lemma fixed_groups e u b offs : byte_automaton_of e u -> fixed_offsets u = Ok (Some offs) -> 1 <= engine_groups (EFixed b offs).
Proof.
  intros Hm Ef. destruct Hm as (M1 & M2 & M3 & M4 & M5 & M6 & M7).
  destruct (fixed_offsets_spec u M6 (ok_wf _ M1) ltac:(lia) M5) as (o & Eo & Ho). rewrite Ef in Eo. injection Eo as <-.
  destruct (proj1 (Ho offs) eq_refl) as (_ & (W0 & HW0) & Hall). cbn. rewrite <- (Hall W0 HW0), run_marks_length. unfold no_bounds. rewrite repeat_length. apply num_groups_pos.
Qed.
Lemma pick_right s e en : parse_str s = ROk e -> Forall scalar s -> pick_engine e = Ok en -> 1 <= engine_groups en /\ (not_dfa en -> engine_right e en).
Proof.
  intros Hp Hs H. unfold pick_engine in H. destruct (pick_base_engine e) as [[b u]| | |] eqn:Eb; try discriminate. cbn [bind] in H.
  destruct (base_right s e b u Hp Hs Eb) as (Hu & Hg & Hr). destruct (fixed_offsets u) as [[offs|]| | |] eqn:Ef; try discriminate; cbn [bind] in H.
  - destruct (length offs =? num_capture_groups u) eqn:El; [|discriminate]. injection H as <-. split; [eapply fixed_groups; eauto|].
    intros Hn. destruct b; try destruct Hn; apply (fixed_right e u _ offs Hu Ef); intros T HT; apply Hr; assumption.
  - injection H as <-. split; [assumption|]. intros Hn. destruct b; try destruct Hn; exact Hr.
Qed.
Lemma compile_regex_right s en : compile_regex s = Ok en -> Forall scalar s -> exists e, G_ere e s /\ 1 <= engine_groups en /\ (not_dfa en -> engine_right e en).
Proof.
  intros H Hs. apply with_ere_ok in H as (e & Hp & H). exists e. split; [now apply parse_iff|]. eapply pick_right; eauto.
Qed.
Lemma compile_fixed_right s en : compile_fixed s = Ok en -> Forall scalar s -> exists e, G_ere e s /\ 1 <= engine_groups en /\ (not_dfa en -> engine_right e en).
Proof.
  intros H Hs. apply with_ere_ok in H as (e & Hp & H). exists e. split; [now apply parse_iff|].
  destruct (pick_base_engine e) as [[b u]| | |] eqn:Eb; try discriminate. cbn [bind] in H.
  destruct (base_right s e b u Hp Hs Eb) as (Hu & Hg & Hr). destruct (fixed_offsets u) as [[offs|]| | |] eqn:Ef; try discriminate; cbn [bind] in H.
  destruct (length offs =? num_capture_groups u) eqn:El; [|discriminate]. injection H as <-. split; [eapply fixed_groups; eauto|].
  intros Hn. destruct b; try destruct Hn; apply (fixed_right e u _ offs Hu Ef); intros T HT; apply Hr; assumption.
Qed.
Lemma compile_fixed_offsets s en : compile_fixed s = Ok en \/ compile_regex s = Ok en -> Forall scalar s -> exists e, G_ere e s /\
  (compile_fixed s = Ok en -> exists b offs, en = EFixed b offs) /\
  forall b offs, en = EFixed b offs -> (forall T i j L, Forall scalar T -> matches T e i j L -> fo_exec offs true T = Ok (Some (map (capture T L) (seq 0 (length offs))))) /\
    (not_dfa en -> engine_right e b).
Proof.
  intros H Hs. assert (G : exists e b u, parse_str s = ROk e /\ pick_base_engine e = Ok (b, u) /\
    (compile_fixed s = Ok en -> exists b offs, en = EFixed b offs) /\ (forall b' offs, en = EFixed b' offs -> b = b' /\ fixed_offsets u = Ok (Some offs))).
  { unfold compile_fixed, compile_regex, pick_engine in *. destruct H as [H|H]; apply with_ere_ok in H as (e & Hp & H);
      (destruct (pick_base_engine e) as [[b u]| | |] eqn:Eb; try discriminate); cbn [bind] in H;
      (destruct (fixed_offsets u) as [[offs|]| | |] eqn:Ef; try discriminate); cbn [bind] in H;
      try (destruct (length offs =? num_capture_groups u) eqn:El; [|discriminate]); injection H as <-; exists e, b, u; (split; [assumption|]); (split; [assumption|]); (split; [|]).
    - eauto.
    - intros b' offs' E. injection E as <- <-. auto.
    - eauto.
    - intros b' offs' E. injection E as <- <-. auto.
    - intros H. rewrite (parsed_with_ere _ _ _ Hp), Eb in H. cbn [bind] in H. rewrite Ef in H. discriminate.
    - intros b' offs E. destruct (base_right s e b u Hp Hs Eb) as (_ & _ & Hr). subst b. exfalso.
      unfold pick_base_engine in Eb. destruct (working_new _) as [n| | |]; try discriminate. cbn [bind] in Eb. destruct (u8_new n) as [m| | |]; try discriminate. cbn [bind] in Eb.
      destruct (op_make m) as [[op|]| | |]; try discriminate. cbn [bind] in Eb. destruct (tdfa_from_nfa m _) as [[d|]| | |]; try discriminate; cbn [bind] in Eb.
      + unfold make_dfa in Eb. destruct (dfa_from_tagged d); discriminate.
      + destruct (nfa_is_ascii n); [unfold make_flat_u8 in Eb; destruct (flat_make m); discriminate|]. unfold make_flat in Eb. destruct (flat_make n); try discriminate. cbn [bind] in Eb. destruct (nfa_compiles n); discriminate. }
  destruct G as (e & b & u & Hp & Eb & G1 & G2). exists e. split; [now apply parse_iff|]. split; [assumption|]. intros b' offs E. destruct (G2 b' offs E) as [<- Ef].
  destruct (base_right s e b u Hp Hs Eb) as (Hu & Hg & Hr). split.
  - intros T i j L HT Hm. now apply (fixed_every e u offs Hu Ef) with (i := i) (j := j).
  - subst en. intros Hn. destruct b; try destruct Hn; exact Hr.
Qed.
