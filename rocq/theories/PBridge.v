(** From words of automata to matches of the specification: which texts have an accepted word, and what the
    capture marks of an accepted word denote. *)
From Verif Require Export PTree SpecGrammar PParser Display.
From Coq Require Import ZifyBool ZifyNat ZifyN.
Open Scope nat_scope.
Open Scope list_scope.
Set Default Proof Using "Type".

(** ** Atoms of a parsed pattern are over genuine characters *)
Lemma body_terms_ok ts t : G_body ts t -> Forall scalar t -> Forall term_ok ts.
Proof.
  induction 1; intros Ht.
  - constructor.
  - apply Forall_app in Ht as [_ Ht]. constructor; [exact I|auto].
  - inv Ht. constructor; auto.
  - inv Ht. inv H5. inv H7. constructor; [split; assumption|auto].
  - inv Ht. repeat (apply Forall_cons || apply Forall_nil); [assumption|reflexivity].
Qed.
Lemma list_terms_ok ts t : G_list ts t -> Forall scalar t -> Forall term_ok ts.
Proof.
  destruct 1; intros Ht; [eapply body_terms_ok; eauto|]. inv Ht. constructor; [reflexivity|eapply body_terms_ok; eauto].
Qed.
Lemma atom_text_ok a t : G_atom a t -> Forall scalar t -> atom_ok a.
Proof.
  destruct 1; intros Ht; cbn.
  - now inv Ht.
  - inv Ht. now inv H3.
  - exact I.
  - apply Forall_app in Ht as [_ Ht]. eapply list_terms_ok; eauto.
  - apply Forall_app in Ht as [_ Ht]. eapply list_terms_ok; eauto.
Qed.
Lemma grammar_atoms_ok :
  (forall p t, G_part p t -> Forall scalar t -> part_atoms atom_ok p) /\
  (forall e t, G_expr e t -> Forall scalar t -> expr_atoms atom_ok e) /\
  (forall b t, G_branch b t -> Forall scalar t -> branch_atoms atom_ok b) /\
  (forall e t, G_ere e t -> Forall scalar t -> ere_atoms atom_ok e).
Proof.
  apply G_mutind; intros; cbn; auto;
    repeat match goal with H : Forall _ (_ ++ _) |- _ => apply Forall_app in H as [? ?] end; auto.
  - eapply atom_text_ok; eauto.
  - apply H0. assumption.
  - split; [now apply H0|now apply H2].
  - split; [now apply H0|now apply H2].
Qed.
Lemma parsed_atoms_ok s e : parse_str s = ROk e -> Forall scalar s -> ere_atoms atom_ok e.
Proof. intros H. apply parse_iff in H. revert H. apply grammar_atoms_ok. Qed.

Lemma tree_of_labels (P : atom -> Prop) e : ere_atoms P e -> tree_labels P (mark_in 0 (S (groups e))) (tree_of e).
Proof.
  intros H. rewrite tree_of_eq. cbn [tree_labels mark_in]. split; [lia|]. split; [lia|].
  eapply all_labels_mono; [|now apply trees_labels]. intros []; cbn; auto; lia.
Qed.

(** ** The effect of the marks of a word on capture bounds *)
Fixpoint run_marks (width : N -> nat) (i : nat) (w : word) (b : bounds) : bounds :=
  match w with
  | [] => b
  | IC c :: w' => run_marks width (i + width c) w' b
  | IM (ESC k) :: w' => run_marks width i w' (set_start k i b)
  | IM (EEC k) :: w' => run_marks width i w' (set_end k i b)
  | IM _ :: w' => run_marks width i w' b
  end.
Section Marks.
  Variable width : N -> nat.
  (** Width of the characters of a word. *)
  Definition wwidth (w : word) : nat := total_width width (chars w).
  Lemma total_width_app (u v : list N) : total_width width (u ++ v) = total_width width u + total_width width v.
  Proof. induction u; cbn; [reflexivity|]. unfold total_width in *. cbn. lia. Qed.
  Lemma run_marks_app u v i b : run_marks width i (u ++ v) b = run_marks width (i + wwidth u) v (run_marks width i u b).
  Proof.
    revert i b; induction u as [|[c|[ | | |k|k]] u IH]; intros i b; cbn; try apply IH.
    - unfold wwidth. cbn. now rewrite Nat.add_0_r.
    - rewrite IH. unfold wwidth. cbn. now rewrite Nat.add_assoc.
  Qed.
  Lemma run_marks_chars l i b : run_marks width i (map IC l) b = b.
  Proof. revert i; induction l; intros; cbn; auto. Qed.
  Lemma run_marks_length w i b : length (run_marks width i w b) = length b.
  Proof.
    revert i b; induction w as [|[c|[ | | |k|k]] w IH]; intros i b; cbn; auto; rewrite IH; unfold set_start, set_end; apply modify_length.
  Qed.

  (** The last position at which a group starts or ends. *)
  Fixpoint last_mark (m : epsk) (i : nat) (w : word) : option nat :=
    match w with
    | [] => None
    | IC c :: w' => last_mark m (i + width c) w'
    | IM e :: w' => match last_mark m i w' with
                    | Some x => Some x
                    | None => if epsk_eqb e m then Some i else None
                    end
    end.
  Definition orelse {X} (a b : option X) : option X := match a with Some _ => a | None => b end.
  Lemma last_mark_app m u v i : last_mark m i (u ++ v) = orelse (last_mark m (i + wwidth u) v) (last_mark m i u).
  Proof.
    revert i; induction u as [|[c|e] u IH]; intros i; cbn.
    - unfold wwidth. cbn. rewrite Nat.add_0_r. now destruct (last_mark m i v).
    - rewrite IH. unfold wwidth. cbn. now rewrite Nat.add_assoc.
    - rewrite IH. unfold wwidth. cbn. now destruct (last_mark m _ v).
  Qed.
  Lemma last_mark_none m w i : ~ In (IM m) w -> last_mark m i w = None.
  Proof.
    revert i; induction w as [|[c|e] w IH]; intros i H; cbn; auto.
    - apply IH. intros Hi. apply H. now right.
    - rewrite IH by (intros Hi; apply H; now right). destruct (epsk_eqb e m) eqn:E; [|reflexivity].
      apply epsk_eqb_iff in E. subst. exfalso. apply H. now left.
  Qed.
  Lemma nth_set_start k j i b d : k < length b -> nth k (set_start j i b) d = if k =? j then (Some i, snd (nth k b d)) else nth k b d.
  Proof.
    intros H. unfold set_start. destruct (Nat.eqb_spec k j) as [E|E].
    - subst j. revert k H. induction b as [|x b IH]; intros [|k] H; cbn in *; try lia; [reflexivity|]. apply IH. lia.
    - revert k j H E. induction b as [|x b IH]; intros [|k] [|j] H E; cbn in *; try lia; try reflexivity. apply IH; lia.
  Qed.
  Lemma nth_set_end k j i b d : k < length b -> nth k (set_end j i b) d = if k =? j then (fst (nth k b d), Some i) else nth k b d.
  Proof.
    intros H. unfold set_end. destruct (Nat.eqb_spec k j) as [E|E].
    - subst j. revert k H. induction b as [|x b IH]; intros [|k] H; cbn in *; try lia; [reflexivity|]. apply IH. lia.
    - revert k j H E. induction b as [|x b IH]; intros [|k] [|j] H E; cbn in *; try lia; try reflexivity. apply IH; lia.
  Qed.
  Lemma set_start_length k i b : length (set_start k i b) = length b.
  Proof. apply modify_length. Qed.
  Lemma set_end_length k i b : length (set_end k i b) = length b.
  Proof. apply modify_length. Qed.
  Lemma nth_run_marks w : forall i b k d, k < length b ->
    nth k (run_marks width i w b) d =
      (orelse (last_mark (ESC k) i w) (fst (nth k b d)), orelse (last_mark (EEC k) i w) (snd (nth k b d))).
  Proof.
    induction w as [|[c|e] w IH]; intros i b k d Hk.
    - cbn. apply surjective_pairing.
    - cbn [run_marks last_mark]. now rewrite IH.
    - cbn [last_mark]. destruct e as [ | | |j|j]; cbn [run_marks epsk_eqb].
      + rewrite IH by assumption. now destruct (last_mark (ESC k) i w), (last_mark (EEC k) i w).
      + rewrite IH by assumption. now destruct (last_mark (ESC k) i w), (last_mark (EEC k) i w).
      + rewrite IH by assumption. now destruct (last_mark (ESC k) i w), (last_mark (EEC k) i w).
      + rewrite IH by (now rewrite set_start_length). rewrite nth_set_start by assumption. rewrite (Nat.eqb_sym j k).
        destruct (last_mark (ESC k) i w), (last_mark (EEC k) i w), (Nat.eqb_spec k j); reflexivity.
      + rewrite IH by (now rewrite set_end_length). rewrite nth_set_end by assumption. rewrite (Nat.eqb_sym j k).
        destruct (last_mark (ESC k) i w), (last_mark (EEC k) i w), (Nat.eqb_spec k j); reflexivity.
  Qed.
End Marks.

(** ** Marks of a reading *)
Lemma last_of_app k L1 L2 : last_of k (L1 ++ L2) = orelse (last_of k L2) (last_of k L1).
Proof.
  induction L1 as [|[g s] L1 IH]; cbn; [now destruct (last_of k L2)|]. rewrite IH. now destruct (last_of k L2), (last_of k L1).
Qed.
Section Reading.
  Variable T : list N.
  Lemma byte_pos_width i : byte_pos T i = total_width len_utf8 (firstn i T).
  Proof.
    unfold byte_pos. generalize (firstn i T). intros l. induction l as [|c l IH]; [reflexivity|].
    change (char_bytes c + list_sum (map char_bytes l) = len_utf8 c + total_width len_utf8 l). now rewrite IH.
  Qed.
  Lemma reads_pos i w j : reads T i w j -> byte_pos T i + wwidth len_utf8 w = byte_pos T j.
  Proof.
    intros H. assert (Hl := reads_le _ _ _ _ H). destruct (reads_chars _ _ _ _ H) as [_ E]. unfold wwidth. rewrite E, !byte_pos_width, <- total_width_app.
    f_equal. rewrite <- (firstn_skipn i (firstn j T)). f_equal.
    - rewrite firstn_firstn. f_equal. lia.
    - rewrite firstn_skipn_comm. do 2 f_equal. lia.
  Qed.

  Definition log_ok (L : log) : Prop := Forall (fun x => fst (snd x) <= snd (snd x) <= length T) L.
  Lemma blog_reads i w j L : blog i w j L -> forall j', reads T i w j' -> j' = j.
  Proof.
    induction 1; intros j' Hr.
    - now apply reads_nil_inv in Hr as [<- _].
    - apply reads_char_inv in Hr as [_ Hr]. now apply reads_nil_inv in Hr as [<- _].
    - apply reads_mark_inv in Hr as (_ & _ & Hr). now apply reads_nil_inv in Hr as [<- _].
    - apply reads_mark_inv in Hr as (_ & _ & Hr). now apply reads_nil_inv in Hr as [<- _].
    - apply reads_mark_inv in Hr as (_ & _ & Hr). apply reads_app in Hr as (k' & H1 & H2).
      apply IHblog in H1 as ->. apply reads_mark_inv in H2 as (_ & _ & Hr). now apply reads_nil_inv in Hr as [<- _].
    - apply reads_app in Hr as (k' & H1 & H2). apply IHblog1 in H1 as ->. auto.
  Qed.
  Lemma blog_marks i w j L : blog i w j L -> reads T i w j ->
    log_ok L /\
    forall k, last_mark len_utf8 (ESC k) (byte_pos T i) w = option_map (fun s => byte_pos T (fst s)) (last_of k L) /\
              last_mark len_utf8 (EEC k) (byte_pos T i) w = option_map (fun s => byte_pos T (snd s)) (last_of k L).
  Proof.
    induction 1 as [i|i c|i|i|k i j v L H IH [F1 F2]|i j k u v L1 L2 H1 IH1 H2 IH2]; intros Hr.
    1-4: split; [constructor|]; intros k; split; reflexivity.
    - apply reads_mark_inv in Hr as (_ & _ & Hr). apply reads_app in Hr as (j' & Hr & Hr2).
      apply reads_mark_inv in Hr2 as (_ & _ & Hr2). apply reads_nil_inv in Hr2 as [-> Hj].
      destruct (IH Hr) as [HL HM]. split.
      + apply Forall_app. split; [assumption|]. constructor; [|constructor]. cbn. apply reads_le in Hr. lia.
      + intros g. rewrite last_of_app. cbn [last_of last_mark]. rewrite !last_mark_app. cbn [last_mark]. rewrite (reads_pos _ _ _ Hr).
        destruct (HM g) as [E1 E2]. cbn [epsk_eqb]. destruct (Nat.eqb_spec k g) as [E|E].
        * subst g. rewrite !last_mark_none by assumption. split; reflexivity.
        * rewrite E1, E2. split; [destruct (last_of g L); reflexivity|]. destruct (last_of g L); reflexivity.
    - apply reads_app in Hr as (j' & Hr1 & Hr2). assert (E := blog_reads _ _ _ _ H1 _ Hr1). subst j'.
      destruct (IH1 Hr1) as [A1 A2]. destruct (IH2 Hr2) as [B1 B2]. split; [apply Forall_app; auto|]. intros g.
      rewrite !last_mark_app, last_of_app, (reads_pos _ _ _ Hr1). destruct (A2 g) as [-> ->]. destruct (B2 g) as [-> ->].
      destruct (last_of g L2), (last_of g L1); split; reflexivity.
  Qed.

  Lemma is_boundary_pos i : i <= length T -> is_boundary T (byte_pos T i) = true.
  Proof.
    unfold byte_pos. revert i. induction T as [|c l IH]; intros i Hi; cbn in *.
    - assert (i = 0) by lia. subst. reflexivity.
    - destruct i as [|i]; [reflexivity|]. cbn [firstn map list_sum fold_right].
      change (char_bytes c) with (len_utf8 c). fold (list_sum (map char_bytes (firstn i l))).
      assert (Hw : 1 <= len_utf8 c) by (unfold len_utf8; repeat destruct (_ <? _)%N; lia).
      destruct (len_utf8 c + list_sum (map char_bytes (firstn i l))) as [|x] eqn:E; [lia|]. rewrite <- E. clear E.
      replace (len_utf8 c + list_sum (map char_bytes (firstn i l)) - len_utf8 c) with (list_sum (map char_bytes (firstn i l))) by lia.
      rewrite IH by lia. rewrite andb_true_r. apply Nat.leb_le. lia.
  Qed.
  Lemma byte_pos_mono i j : i <= j -> byte_pos T i <= byte_pos T j.
  Proof.
    intros H. rewrite !byte_pos_width. rewrite <- (firstn_skipn i (firstn j T)), total_width_app, firstn_firstn.
    replace (Nat.min i j) with i by lia. lia.
  Qed.
  Lemma last_of_In k L s : last_of k L = Some s -> In (k, s) L.
  Proof.
    induction L as [|[g x] L IH]; cbn; [discriminate|]. destruct (last_of k L); [intros [= <-]; auto|].
    destruct (Nat.eqb_spec g k); [|discriminate]. intros [= <-]. subst. auto.
  Qed.
  Lemma finish_capture L k : log_ok L ->
    finish_one T (option_map (fun s => byte_pos T (fst s)) (last_of k L), option_map (fun s => byte_pos T (snd s)) (last_of k L)) = Ok (capture T L k).
  Proof.
    intros HL. unfold capture. destruct (last_of k L) as [[i j]|] eqn:E; [|reflexivity]. cbn [option_map finish_one fst snd].
    apply last_of_In in E. unfold log_ok in HL. rewrite Forall_forall in HL. apply HL in E. cbn in E.
    unfold str_get_ok. rewrite !is_boundary_pos by lia. assert (Hm := byte_pos_mono i j). destruct (Nat.leb_spec (byte_pos T i) (byte_pos T j)); [reflexivity|lia].
  Qed.
  Lemma nth_no_bounds k g d : k < g -> nth k (no_bounds g) d = (None, None).
  Proof. unfold no_bounds. revert k; induction g; intros [|k] H; cbn; try lia; auto. apply IHg. lia. Qed.
  Lemma mapM_ext_nth {A B} (f : A -> res B) (h : nat -> B) d : forall l, (forall k, k < length l -> f (nth k l d) = Ok (h k)) ->
    mapM f l = Ok (map h (seq 0 (length l))).
  Proof.
    intros l. revert h. induction l as [|x l IH]; intros h H; cbn; [reflexivity|].
    assert (H0 := H 0). cbn in H0. rewrite H0 by lia. cbn. rewrite (IH (fun k => h (S k))).
    - cbn. rewrite <- seq_shift, map_map. reflexivity.
    - intros k Hk. apply (H (S k)). cbn. lia.
  Qed.
  (** The bounds left by an accepted word become the captures of the match. *)
  Lemma finish_marks pre v j post L g :
    reads T 0 (map IC pre ++ v ++ map IC post) (length T) -> reads T (length pre) v j -> blog (length pre) v j L ->
    finish T (run_marks len_utf8 0 (map IC pre ++ v ++ map IC post) (no_bounds g)) = Ok (map (capture T L) (seq 0 g)).
  Proof.
    intros HR Hv Hb. destruct (blog_marks _ _ _ _ Hb Hv) as [HL HM].
    apply reads_app in HR as (i & H1 & _). assert (Ei := reads_pos _ _ _ H1). apply reads_chars in H1 as [Ei' _].
    assert (Hc : chars (map IC pre) = pre) by (clear; induction pre; cbn; congruence).
    rewrite Hc in Ei'. cbn in Ei'. subst i. change (byte_pos T 0) with 0 in Ei.
    unfold finish. rewrite (mapM_ext_nth _ (capture T L) (None, None)).
    - rewrite run_marks_length. unfold no_bounds. now rewrite repeat_length.
    - intros k Hk. rewrite run_marks_length in Hk. assert (Hg : k < g) by (unfold no_bounds in Hk; now rewrite repeat_length in Hk).
      rewrite run_marks_app, run_marks_app, !run_marks_chars, Nat.add_0_l. rewrite Nat.add_0_l in Ei. rewrite Ei.
      rewrite nth_run_marks by assumption. rewrite nth_no_bounds by assumption. cbn [fst snd].
      destruct (HM k) as [-> ->]. rewrite <- finish_capture by assumption. f_equal. now destruct (last_of k L).
  Qed.
End Reading.

(** ** Padded words *)
Lemma chars_IC l : chars (map IC l) = l.
Proof. induction l; cbn; congruence. Qed.
Section Padded.
  Variable T : list N.
  Hypothesis HT : Forall scalar T.
  Variable e : ere.

  (** A word the automata should accept on [T]. *)
  Definition accepted (W : word) : Prop := padded true true (tlang acheck (tree_of e)) W /\ reads T 0 W (length T).
  Lemma occurs_accepted : occurs e T -> exists W, accepted W.
  Proof using HT.
    intros (i & j & L & H). apply (matches_word T HT) in H as (v & H1 & H2 & H3).
    assert (Hl := reads_le _ _ _ _ H2). exists (map IC (firstn i T) ++ v ++ map IC (skipn j T)). split.
    - exists (firstn i T), v, (skipn j T). repeat split; try discriminate; auto.
      + apply Forall_forall. intros x Hx. rewrite Forall_forall in HT. apply HT. rewrite <- (firstn_skipn i T). apply in_or_app. auto.
      + apply Forall_forall. intros x Hx. rewrite Forall_forall in HT. apply HT. rewrite <- (firstn_skipn j T). apply in_or_app. auto.
    - apply reads_app. exists i. split.
      + assert (E : length (firstn i T) = i) by (rewrite firstn_length; lia). rewrite <- E at 2. rewrite <- (Nat.add_0_l (length _)).
        apply reads_IC; [rewrite E; reflexivity|lia].
      + apply reads_app. exists j. split; [assumption|].
        assert (E : length (skipn j T) = length T - j) by apply skipn_length.
        replace (length T) with (j + length (skipn j T)) by lia. apply reads_IC; [apply firstn_all|lia].
  Qed.
  Lemma accepted_matches W : accepted W -> exists i j L, matches T e i j L /\
    forall g, finish T (run_marks len_utf8 0 W (no_bounds g)) = Ok (map (capture T L) (seq 0 g)).
  Proof.
    intros [(pre & v & post & -> & Hp & Hq & _ & _ & Hv) Hr].
    assert (Hr0 := Hr). apply reads_app in Hr0 as (i & H1 & H2). apply reads_app in H2 as (j & H2 & H3).
    apply reads_chars in H1 as [Ei _]. rewrite chars_IC in Ei. cbn in Ei. subst i.
    destruct (word_matches T _ _ _ _ Hv H2) as (L & H4 & H5). exists (length pre), j, L. split; [assumption|].
    intros g. eapply finish_marks; eauto.
  Qed.
  Lemma occurs_iff : occurs e T <-> exists W, accepted W.
  Proof using HT.
    split; [apply occurs_accepted|]. intros (W & H). apply accepted_matches in H as (i & j & L & H & _). now exists i, j, L.
  Qed.
End Padded.
