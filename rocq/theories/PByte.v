(** The byte automaton of a pattern. *)
From Verif Require Export PU8 PGroups.
From Coq Require Import ZifyBool ZifyNat.
Open Scope nat_scope.
Open Scope list_scope.
Set Default Proof Using "Type".

(** ** Reading an encoded word on an encoded text *)
Lemma encode_nonempty c : encode c <> [].
Proof. destruct (encode_lead c []) as (b & bs & _ & E & _). rewrite E. discriminate. Qed.
Lemma chars_enc w : chars (enc w) = utf8 (chars w).
Proof.
  induction w as [|[c|e] w IH]; cbn; [reflexivity| |exact IH]. change (flat_map enc_item w) with (enc w). rewrite chars_app, chars_IC, IH. reflexivity.
Qed.
Lemma utf8_nil l : utf8 l = [] -> l = [].
Proof. intros E. now apply (utf8_inj l []). Qed.
Lemma chars_enc_nil w : chars (enc w) = [] <-> chars w = [].
Proof. rewrite chars_enc. split; [apply utf8_nil|intros ->; reflexivity]. Qed.
(** Marks of an encoded word come from marks of the word. *)
Lemma enc_split_mark w e : forall u v, enc w = u ++ IM e :: v -> exists u0 v0, w = u0 ++ IM e :: v0 /\ u = enc u0 /\ v = enc v0.
Proof.
  induction w as [|[c|e'] w IH]; intros u v E; cbn in E; try change (flat_map enc_item w) with (enc w) in E.
  - destruct u; discriminate.
  - assert (G : forall l u, map IC l ++ enc w = u ++ IM e :: v -> exists u1, u = map IC l ++ u1 /\ enc w = u1 ++ IM e :: v).
    { clear. induction l as [|b l IH]; intros u E; cbn in E; [exists u; auto|]. destruct u as [|x u]; [discriminate|]. cbn in E. injection E as <- E.
      destruct (IH u E) as (u1 & -> & H). exists u1. auto. }
    destruct (G _ _ E) as (u1 & -> & E1). destruct (IH _ _ E1) as (u0 & v0 & -> & -> & ->). exists (IC c :: u0), v0. auto.
  - destruct u as [|x u]; cbn in E.
    + injection E as -> E. exists [], w. auto.
    + injection E as <- E. destruct (IH _ _ E) as (u0 & v0 & -> & -> & ->). exists (IM e' :: u0), v0. auto.
Qed.
Lemma valid_enc w : valid (enc w) <-> valid w.
Proof.
  split; intros [H1 H2]; split; intros u v E.
  - apply chars_enc_nil. apply (H1 _ (enc v)). rewrite E, enc_app. reflexivity.
  - apply chars_enc_nil. apply (H2 (enc u)). rewrite E, enc_app. reflexivity.
  - apply enc_split_mark in E as (u0 & v0 & -> & -> & ->). apply chars_enc_nil. now apply (H1 _ v0).
  - apply enc_split_mark in E as (u0 & v0 & -> & -> & ->). apply chars_enc_nil. now apply (H2 u0).
Qed.
Lemma reads_enc T w : reads (utf8 T) 0 (enc w) (length (utf8 T)) <-> reads T 0 w (length T).
Proof.
  rewrite !reads_whole, valid_enc, chars_enc. split; intros [H1 H2]; split; auto; [now apply utf8_inj|now rewrite H1].
Qed.
Lemma run_marks_enc w : forall i b, run_marks (fun _ => 1) i (enc w) b = run_marks len_utf8 i w b.
Proof.
  assert (R : forall l i w b, run_marks (fun _ => 1) i (map IC l ++ w) b = run_marks (fun _ => 1) (i + length l) w b).
  { induction l as [|x l IH]; intros i v b; cbn; [now rewrite Nat.add_0_r|]. rewrite IH. f_equal. lia. }
  induction w as [|[c|e] w IH]; intros i b; cbn; [reflexivity| |]; change (flat_map enc_item w) with (enc w).
  - rewrite R, encode_length. apply IH.
  - destruct e; apply IH.
Qed.
Lemma enc_inj u v : enc u = enc v -> u = v.
Proof.
  revert v; induction u as [|i u IH]; intros v E.
  - destruct v as [|[c|e] v]; [reflexivity| |discriminate]. cbn in E. destruct (encode c) eqn:X; [now apply encode_nonempty in X|discriminate].
  - destruct i as [c|e].
    + destruct v as [|[d|e] v].
      * cbn in E. destruct (encode c) eqn:X; [now apply encode_nonempty in X|discriminate].
      * assert (E' := E). apply (f_equal chars) in E'. rewrite !chars_enc in E'. cbn in E'. apply encode_app_inj in E' as [-> _].
        f_equal. apply IH. cbn in E. now apply app_inv_head in E.
      * cbn in E. destruct (encode c) eqn:X; [now apply encode_nonempty in X|discriminate].
    + destruct v as [|[d|e'] v]; [discriminate| |].
      * cbn in E. destruct (encode d) eqn:X; [now apply encode_nonempty in X|discriminate].
      * cbn in E. injection E as -> E. f_equal. now apply IH.
Qed.
Lemma In_mark_enc e w : In (IM e) (enc w) <-> In (IM e) w.
Proof.
  split.
  - intros H. apply in_split in H as (u & v & E). apply enc_split_mark in E as (u0 & v0 & -> & _). apply in_or_app. right. now left.
  - intros H. apply in_split in H as (u & v & ->). rewrite enc_app. apply in_or_app. right. now left.
Qed.
Lemma paired_enc w : paired w -> paired (enc w).
Proof. intros H k. now rewrite !In_mark_enc. Qed.

(** ** The byte automaton of a pattern *)
Section Pattern.
  Variable e : ere.
  Hypothesis He : ere_atoms atom_ok e.
  (** The automaton has exactly the encodings of the words of [e] that can be read on some text. *)
  Definition byte_automaton_of (m : nfa range) : Prop :=
    ok m /\ 2 <= length m /\ trimmed m /\
    (forall T W, Forall scalar T -> (lang byte_check m W /\ reads (utf8 T) 0 W (length (utf8 T))) <-> exists w, accepted T e w /\ W = enc w) /\
    groups_ok m /\ (forall s t r, In (t, r) (trans (get m s)) -> byte_ok r) /\
    (forall W, lang byte_check m W -> exists w, W = enc w /\ padded true true (tlang acheck (tree_of e)) w).
  Lemma working_padded n : working_new (tree_of e) = Ok n -> n <> [] -> forall w, lang acheck n w -> padded true true (tlang acheck (tree_of e)) w.
  Proof using He.
    intros En Hn. destruct (working_spec true true (tree_of e)) as (n' & En' & H).
    - eapply tree_labels_mono; [|apply tree_of_labels; exact He]. auto.
    - apply tree_of_ok.
    - apply tree_of_length.
    - unfold working_new in En. rewrite En in En'. injection En' as <-. destruct H as [[-> _]|(_ & _ & _ & H4 & _)]; [congruence|exact H4].
  Qed.
  Theorem u8_new_spec n : working_new (tree_of e) = Ok n -> automaton_of e n ->
    exists m, u8_new n = Ok m /\ ((m = [] /\ forall T, Forall scalar T -> ~ occurs e T) \/ byte_automaton_of m).
  Proof using He.
    intros En (H1 & H2 & H3 & H4 & H5). assert (Hne : n <> []) by (intros ->; cbn in H2; lia). assert (Hpad := working_padded n En Hne).
    destruct (u8_new_refined n H1) as (m & B & Em & Hm & HB & HL).
    { apply lab_iff in H5 as [H5 _]. exact H5. }
    exists m. split; [exact Em|]. destruct Hm as [[E Hm]|(M1 & M2 & M3 & M4 & M5 & M6 & M7)].
    - left. split; [assumption|]. intros T HT Ho. apply (occurs_iff T HT) in Ho as (w & Hw). assert (Hr := proj2 Hw).
      apply (H4 T w HT) in Hw as [Hw _]. apply (Hm (enc w)); [|apply HB; eauto]. apply valid_enc. now apply reads_whole in Hr.
    - right. assert (ML := M6 byte_ok HL). repeat (split; [assumption|]). split; [|split; [|split]].
      + intros T W HT. split.
        * intros [Hl Hr]. apply M4, HB in Hl as (w & Hw & ->). apply (proj1 (reads_enc T w)) in Hr. exists w. split; [|reflexivity]. apply (proj1 (H4 T w HT)). split; assumption.
        * intros (w & Hw & ->). assert (Hr := proj2 Hw). apply (H4 T w HT) in Hw as [Hw _]. split; [|now apply reads_enc].
          apply M5; [|apply HB; eauto]. apply valid_enc. now apply reads_whole in Hr.
      + apply groups_paired with (check := byte_check); [|apply M1|exact M3|].
        * intros s t r Hr. destruct (ML _ _ _ Hr) as [X Y]. exists (fst r). apply in_range_iff. split; [apply N.le_refl|exact X].
        * intros W HW. apply M4, HB in HW as (w & Hw & ->). apply paired_enc. apply Hpad in Hw. eapply padded_paired; eauto.
      + exact ML.
      + intros W HW. apply M4, HB in HW as (w & Hw & ->). eauto.
  Qed.
  Lemma byte_occurs m T : byte_automaton_of m -> Forall scalar T ->
    occurs e T <-> exists W, lang byte_check m W /\ reads (utf8 T) 0 W (length (utf8 T)).
  Proof.
    intros (_ & _ & _ & H & _) HT. rewrite (occurs_iff T HT). split.
    - intros (w & Hw). exists (enc w). apply (H T _ HT). eauto.
    - intros (W & HW). apply (H T W HT) in HW as (w & Hw & _). eauto.
  Qed.
End Pattern.
