(** Patterns without anchors: never one-pass, and every engine keeps to the order of preference. *)
From Verif Require Import PPrioOne PLaws PAlive PCompile POutcome POptional PAll.
From Coq Require Import ZifyBool ZifyNat ZifyN.
Open Scope nat_scope.
Open Scope list_scope.

Lemma free_inside e T : anchor_free e = true -> occurs e T -> exists i j L, matches (0%N :: T ++ [0%N]) e i j L /\ 0 < i < length (0%N :: T ++ [0%N]).
Proof.
  intros Hf (i & j & L & Hm). assert (R : i <= j <= length T) by (destruct Hm as (L0 & Hm & _); exact (proj1 (proj2 (proj2 (proj2 (m_range _)))) _ _ _ _ _ Hm)).
  assert (M : may T e i j) by now exists L. apply (may_slice [0%N] T [0%N] e i j Hf R) in M. destruct M as (L' & M). exists (1 + i), (1 + j), L'. split; [exact M|]. cbn [length]. rewrite app_length. cbn [length]. lia.
Qed.
Lemma free_not_one_pass s e n m : parse_str s = ROk e -> Forall scalar s -> anchor_free e = true -> working_new (tree_of e) = Ok n -> u8_new n = Ok m -> m <> [] -> op_make m = Ok None.
Proof.
  intros Hp Hs Hf En Em Hm. destruct (byte_alive e n m (parsed_ok s e Hp Hs) En Em Hm) as (T & HT & Ho). destruct (free_inside e T Hf Ho) as (i & j & L & Ma & Hi).
  assert (Z : scalar 0%N) by repeat constructor. eapply not_one_pass; [now apply (parsed_u8_ne s e Hp Hs n m)| |exact Ma|exact Hi]. constructor; [assumption|]. apply Forall_app. auto.
Qed.
Lemma op_make_nil o : op_make [] <> Ok o.
Proof. discriminate. Qed.
Lemma free_no_op s e n m op : parse_str s = ROk e -> Forall scalar s -> anchor_free e = true -> working_new (tree_of e) = Ok n -> u8_new n = Ok m -> op_make m <> Ok (Some op).
Proof.
  intros Hp Hs Hf En Em H. assert (Hm : m <> []) by (intros ->; now apply op_make_nil in H). rewrite (free_not_one_pass s e n m Hp Hs Hf En Em Hm) in H. discriminate.
Qed.
Lemma free_even e : anchor_free e = true -> anchors_even e = true.
Proof. intros H. unfold anchors_even. now apply (proj2 (proj2 (proj2 free_counts))) in H as [[-> ->] _]. Qed.
(** No engine without [^] and [$] runs the one-pass engine. *)
Definition one_pass_based (en : engine) : Prop := match en with EOnePass _ | EFixed (EOnePass _) _ => True | _ => False end.
Section Base.
  Variables (s : list N) (e : ere).
  Hypothesis Hp : parse_str s = ROk e.
  Hypothesis Hs : Forall scalar s.
  Hypothesis Hf : anchor_free e = true.
  Lemma free_base b u : pick_base_engine e = Ok (b, u) -> match b with EOnePass _ | EFixed _ _ => False | _ => True end.
  Proof using Hp Hs Hf.
    intros H. unfold pick_base_engine in H.
    destruct (working_new (tree_of e)) as [n| | |] eqn:En; try discriminate. cbn [bind] in H.
    destruct (u8_new n) as [m| | |] eqn:Em; try discriminate. cbn [bind] in H.
    destruct (op_make m) as [[o|]| | |] eqn:Eo; try discriminate; cbn [bind] in H; [exfalso; eapply free_no_op; eauto|].
    destruct (tdfa_from_nfa m _) as [[d|]| | |] eqn:Ed; try discriminate; cbn [bind] in H.
    - apply bind_ok in H as (x & Hx & H). injection H as -> _. unfold make_dfa in Hx. apply bind_ok in Hx as (y & _ & Hx). now injection Hx as <-.
    - apply bind_ok in H as (x & Hx & H). injection H as -> _. destruct (nfa_is_ascii n).
      + unfold make_flat_u8 in Hx. apply bind_ok in Hx as (y & _ & Hx). now injection Hx as <-.
      + unfold make_flat in Hx. apply bind_ok in Hx as (y & _ & Hx). destruct (nfa_compiles n); [|discriminate]. now injection Hx as <-.
  Qed.
End Base.
Lemma free_engine s e en : compiled s en -> Forall scalar s -> G_ere e s -> anchor_free e = true -> ~ one_pass_based en.
Proof.
  intros H Hs Hg Hf. apply parse_iff in Hg. destruct H as [H|[H|[H|[H|[H|H]]]]]; apply with_ere_ok in H as (e' & Hp & H); rewrite Hg in Hp; injection Hp as <-.
  - unfold pick_engine in H. destruct (pick_base_engine e) as [[b u]| | |] eqn:Eb; try discriminate. cbn [bind] in H. assert (F := free_base s e Hg Hs Hf b u Eb).
    destruct (fixed_offsets u) as [[offs|]| | |] eqn:Ef; try discriminate; cbn [bind] in H.
    + destruct (length offs =? num_capture_groups u) eqn:El; [|discriminate]. injection H as <-. destruct b; auto.
    + injection H as <-. destruct b; auto.
  - apply bind_ok in H as (n & En & H). apply bind_ok in H as (m & Em & H). apply bind_ok in H as (d & Ed & H). destruct d as [d|]; [|discriminate]. unfold make_dfa in H. apply bind_ok in H as (y & _ & H). injection H as <-. auto.
  - apply bind_ok in H as (n & En & H). unfold make_flat in H. apply bind_ok in H as (y & _ & H). destruct (nfa_compiles n); [|discriminate]. injection H as <-. auto.
  - apply bind_ok in H as (n & En & H). apply bind_ok in H as (m & Em & H). unfold make_flat_u8 in H. apply bind_ok in H as (y & _ & H). injection H as <-. auto.
  - apply bind_ok in H as (n & En & H). apply bind_ok in H as (m & Em & H). apply bind_ok in H as ([op|] & Eo & H); [|discriminate]. exfalso. eapply free_no_op; eauto.
  - destruct (pick_base_engine e) as [[b u]| | |] eqn:Eb; try discriminate. cbn [bind] in H. assert (F := free_base s e Hg Hs Hf b u Eb).
    destruct (fixed_offsets u) as [[offs|]| | |] eqn:Ef; try discriminate; cbn [bind] in H.
    destruct (length offs =? num_capture_groups u) eqn:El; [|discriminate]. injection H as <-. destruct b; auto.
Qed.
Theorem free_orderly s e en : compiled s en -> Forall scalar s -> G_ere e s -> anchor_free e = true -> orderly e en = true.
Proof.
  intros H Hs Hg Hf. assert (N := free_engine s e en H Hs Hg Hf). destruct en as [op|d|t|t|b offs]; cbn [orderly]; [destruct N; exact I|now apply caret_ok_free|now apply free_even|now apply free_even|].
  destruct b; auto. now apply caret_ok_free.
Qed.
