(** The number of captures of a compiled pattern. *)
From Verif Require Export PStrip.
From Coq Require Import ZifyBool ZifyNat ZifyN.
Open Scope nat_scope.
Open Scope list_scope.
Set Default Proof Using "Type".

Lemma max_le l b : (forall x, In x l -> x <= b) -> fold_right Nat.max 0 l <= b.
Proof. induction l as [|x l IH]; intros H; cbn; [lia|]. assert (x <= b) by (apply H; now left). assert (fold_right Nat.max 0 l <= b) by (apply IH; intros; apply H; now right). lia. Qed.
Lemma all_atoms : (forall p, part_atoms (fun _ => True) p) /\ (forall e, expr_atoms (fun _ => True) e) /\
  (forall b, branch_atoms (fun _ => True) b) /\ (forall e, ere_atoms (fun _ => True) e).
Proof. apply syntax_ind; intros; cbn; auto. Qed.
(** *** No more than the groups of the pattern *)
Lemma word_group e w k : padded true true (tlang acheck (tree_of e)) w -> In (IM (ESC k)) w -> k <= groups e.
Proof.
  intros (pre & v & post & -> & _ & _ & _ & _ & Hv) Hi.
  assert (HL := tree_of_labels (fun _ => True) e (proj2 (proj2 (proj2 all_atoms)) e)).
  apply in_app_or in Hi as [Hi|Hi]; [apply in_map_iff in Hi as (x & E & _); discriminate|].
  apply in_app_or in Hi as [Hi|Hi]; [|apply in_map_iff in Hi as (x & E & _); discriminate].
  apply (tlang_marks acheck _ _ _ _ _ HL Hv) in Hi. cbn in Hi. lia.
Qed.
Lemma automaton_count e n : automaton_of e n -> num_capture_groups n <= S (groups e).
Proof.
  intros (_ & _ & _ & _ & HL). unfold num_capture_groups. apply le_n_S. apply max_le. intros x Hx.
  apply in_flat_map in Hx as (st & Hst & Hx). apply in_map_iff in Hx as ([t k] & Ex & Hin). rewrite Forall_forall in HL. destruct (HL st Hst) as [_ HE].
  cbn in Ex. destruct k; try lia. subst x. specialize (HE _ _ Hin). cbn in HE. lia.
Qed.
Lemma byte_edge_word e m s t k : byte_automaton_of e m -> In (t, k) (eps (get m s)) -> exists u v, lang byte_check m (u ++ mark k ++ v).
Proof.
  intros (M1 & _ & M3 & _ & _ & M6 & _) H. eapply edge_word; eauto; [|now apply ok_wf].
  intros s' t' r Hr. apply M6 in Hr. exists (fst r). unfold byte_check. apply in_range_iff. unfold byte_ok in Hr. lia.
Qed.
Lemma byte_count e m : byte_automaton_of e m -> num_capture_groups m <= S (groups e).
Proof.
  intros Hm. unfold num_capture_groups. apply le_n_S. apply max_le. intros x Hx.
  apply in_flat_map in Hx as (st & Hst & Hx). apply in_map_iff in Hx as ([t k] & Ex & Hin). cbn in Ex. destruct k as [| | |k|k]; try lia. subst x.
  apply (In_nth _ _ empty_state) in Hst as (s & Hs & <-). destruct (byte_edge_word e m s t (ESC k) Hm Hin) as (u & v & HW).
  destruct Hm as (_ & _ & _ & _ & _ & _ & M7). destruct (M7 _ HW) as (w & E & Hp). apply (word_group e w k Hp).
  symmetry in E. apply enc_split_mark in E as (u0 & v0 & -> & _). apply in_or_app. right. now left.
Qed.
Lemma tags_group (m : nfa range) s w t x : groups_ok m -> zpath m s w t -> In x (tags_of w) -> tag_group x < num_capture_groups m.
Proof.
  intros Hg Hz Hx. apply tags_of_In in Hx as [[]|(i & Hi & Ht)]. destruct i as [c|e]; [destruct Ht|].
  destruct (zpath_items m _ _ _ Hz e Hi) as (q & v & He). destruct e; cbn in Ht; try tauto; destruct Ht as [<-|[]]; cbn; eauto.
Qed.
Lemma adds_In cs i x : In (i, x) (adds cs) -> exists c, In c cs /\ In x (c_tags c).
Proof.
  unfold adds. intros H. apply in_concat in H as (l & Hl & Hx). apply in_map_iff in Hl as ([k c] & <- & Hc). apply in_map_iff in Hx as (y & E & Hy).
  injection E as -> ->. apply In_enumerate in Hc. exists c. split; [eapply nth_error_In; eauto|assumption].
Qed.
Lemma tdfa_count m max d : wf m -> 1 <= length m -> groups_ok m -> tdfa_from_nfa m max = Ok (Some d) -> tdfa_groups d <= num_capture_groups m.
Proof.
  intros Hw Hl Hg Hd. destruct (tdfa_from_nfa_spec m Hw Hl max) as (o & Eo & Ho). rewrite Hd in Eo. injection Eo as <-.
  assert (Hpos := num_groups_pos m). unfold tdfa_groups. enough (fold_right Nat.max 0 (map ts_groups (td_states d ++ [td_start d])) <= num_capture_groups m - 1) by lia.
  assert (G : forall st keep, in_n m (ts_nfa st) -> expanded m (names (td_states d)) keep st -> ts_groups st <= num_capture_groups m - 1).
  { intros st keep Hin [Ha He]. unfold ts_groups. apply Nat.max_lub.
    - apply max_le. intros x Hx. apply in_flat_map in Hx as (t & Ht & Hx). apply in_map_iff in Hx as ([i tg] & <- & Hx). cbn [snd].
      destruct (Forall2_In_r _ _ _ _ He Ht) as ([r cl] & Hr & (_ & _ & E & _)). cbn [snd] in E. rewrite E in Hx. apply adds_In in Hx as (c & Hc & Hx).
      destruct (cand_ranges_ok (all_cands m keep (ts_nfa st))) as [O1 O2 O3 O4]. rewrite Forall_forall in O1. specialize (O1 _ Hr). cbn [fst] in O1.
      assert (Hrr : in_range (fst r) r = true) by (apply in_range_iff; lia). rewrite (O3 r cl (fst r) Hr Hrr) in Hc. apply dedup_In in Hc as [Hc _].
      apply byte_cands_In in Hc as (r0 & Hc & _). apply all_cands_In in Hc as (k & u & w & _ & Hz & _ & Et & _); [|assumption|assumption]. rewrite Et in Hx.
      assert (tag_group tg < num_capture_groups m) by (eapply tags_group; eauto). lia.
    - rewrite Ha. destruct (all_acc_spec m Hw _ Hin) as [A1 _].
      assert (A : forall a u, In (a, u) (accs (all_acc m (ts_nfa st))) -> acc_groups a <= num_capture_groups m - 1).
      { intros a u Hau. destruct (A1 a u Hau) as (k & w & _ & Hz & Et & _). unfold acc_groups. apply max_le. intros x Hx. apply in_map_iff in Hx as (tg & <- & Hx). rewrite Et in Hx.
        assert (tag_group tg < num_capture_groups m) by (eapply tags_group; eauto). lia. }
      destruct (all_acc m (ts_nfa st)) as [a|a u|u|]; cbn [accs] in A; [apply (A a false); now left| |apply (A u true); now left|lia].
      apply Nat.max_lub; [apply (A a false)|apply (A u true)]; cbn; auto. }
  apply max_le. intros x Hx. apply in_map_iff in Hx as (st & <- & Hst). apply in_app_or in Hst as [Hst|[<-|[]]].
  - eapply G; [|apply (b_states _ _ _ Ho); exact Hst]. assert (H := b_in _ _ _ Ho). rewrite Forall_forall in H. apply H. unfold names. now apply in_map.
  - eapply G; [|apply (b_start_ex _ _ _ Ho)]. rewrite (b_start _ _ _ Ho). split; [constructor; [lia|constructor]|constructor; [intros []|constructor]].
Qed.

(** *** No fewer than a match uses *)
Lemma blog_opens i w j L k : blog i w j L -> last_of k L <> None -> In (IM (ESC k)) w.
Proof.
  assert (LA : forall L1 L2, last_of k (L1 ++ L2) <> None -> last_of k L1 <> None \/ last_of k L2 <> None).
  { induction L1 as [|[g s] L1 IH]; intros L2 H; cbn in *; [now right|]. destruct (last_of k (L1 ++ L2)) eqn:E.
    - destruct (IH L2) as [H1|H1]; [congruence| |now right]. left. destruct (last_of k L1); [discriminate|congruence].
    - left. destruct (last_of k L1); [discriminate|exact H]. }
  induction 1 as [| | | |g i j v L Hb IH Hf|i j l u v L1 L2 H1 IH1 H2 IH2]; intros H; try (cbn in H; congruence).
  - apply LA in H as [H|H]; [right; apply in_or_app; left; auto|]. cbn in H. destruct (Nat.eqb_spec g k) as [->|]; [now left|congruence].
  - apply LA in H as [H|H]; apply in_or_app; auto.
Qed.
Lemma match_accepted_opens T e i j L k : Forall scalar T -> matches T e i j L -> last_of k L <> None -> exists W, accepted T e W /\ In (IM (ESC k)) W.
Proof.
  intros HT H Hk. apply (matches_word T HT) in H as (v & H1 & H2 & H3).
  assert (Hl := reads_le _ _ _ _ H2). exists (map IC (firstn i T) ++ v ++ map IC (skipn j T)). split; [split|].
  - exists (firstn i T), v, (skipn j T). repeat split; try discriminate; auto.
    + apply Forall_forall. intros x Hx. rewrite Forall_forall in HT. apply HT. rewrite <- (firstn_skipn i T). apply in_or_app. auto.
    + apply Forall_forall. intros x Hx. rewrite Forall_forall in HT. apply HT. rewrite <- (firstn_skipn j T). apply in_or_app. auto.
  - apply reads_app. exists i. split.
    + assert (E : length (firstn i T) = i) by (rewrite firstn_length; lia). rewrite <- E at 2. rewrite <- (Nat.add_0_l (length _)).
      apply reads_IC; [rewrite E; reflexivity|lia].
    + apply reads_app. exists j. split; [assumption|].
      assert (E : length (skipn j T) = length T - j) by apply skipn_length.
      replace (length T) with (j + length (skipn j T)) by lia. apply reads_IC; [apply firstn_all|lia].
  - apply in_or_app. right. apply in_or_app. left. eapply blog_opens; eauto.
Qed.
Lemma automaton_uses e n T i j L k : automaton_of e n -> Forall scalar T -> matches T e i j L -> last_of k L <> None -> k < num_capture_groups n.
Proof.
  intros (_ & _ & _ & H4 & _) HT Hm Hk. destruct (match_accepted_opens T e i j L k HT Hm Hk) as (W & HW & Hi).
  apply (H4 T W HT) in HW as [HW _]. destruct (path_marks n _ _ _ _ HW (ESC k) Hi) as (q & x & Hq). eapply num_groups_start; eauto.
Qed.
Lemma byte_uses e m T i j L k : byte_automaton_of e m -> Forall scalar T -> matches T e i j L -> last_of k L <> None -> k < num_capture_groups m.
Proof.
  intros (_ & _ & _ & H4 & _) HT Hm Hk. destruct (match_accepted_opens T e i j L k HT Hm Hk) as (W & HW & Hi).
  destruct (proj2 (H4 T (enc W) HT)) as [HL _]; [eauto|]. destruct (path_marks m _ _ _ _ HL (ESC k)) as (q & x & Hq).
  - apply in_split in Hi as (u & v & ->). rewrite enc_app. apply in_or_app. right. now left.
  - eapply num_groups_start; eauto.
Qed.

(** *** Every engine *)
Definition is_dfa (en : engine) : Prop := match en with EDfa _ => True | _ => False end.
Definition counted (e : ere) (en : engine) : Prop :=
  (exists n, working_new (tree_of e) = Ok n /\ automaton_of e n /\ engine_groups en = num_capture_groups n) \/
  (exists m, byte_automaton_of e m /\ engine_groups en = num_capture_groups m) \/
  (is_dfa en /\ exists m, byte_automaton_of e m /\ engine_groups en <= num_capture_groups m).
Lemma dfa_counted e m max d : byte_automaton_of e m -> tdfa_from_nfa m max = Ok (Some d) -> counted e (EDfa d).
Proof.
  intros Hm Hd. right. right. split; [exact I|]. exists m. split; [assumption|]. destruct Hm as (M1 & M2 & _ & _ & M5 & _). cbn. eapply tdfa_count; eauto; [now apply ok_wf|lia].
Qed.
Lemma op_counted e m op : byte_automaton_of e m -> op_make m = Ok (Some op) -> counted e (EOnePass op).
Proof. intros Hm Ho. right. left. exists m. split; [assumption|]. cbn. now apply (one_pass_right e m op). Qed.
Lemma base_counted s e b u : parse_str s = ROk e -> Forall scalar s -> pick_base_engine e = Ok (b, u) -> counted e b /\ byte_automaton_of e u.
Proof.
  intros Hp Hs H. unfold pick_base_engine in H.
  destruct (working_new (tree_of e)) as [n| | |] eqn:En; try discriminate. cbn [bind] in H.
  destruct (u8_new n) as [m| | |] eqn:Em; try discriminate. cbn [bind] in H.
  destruct (op_make m) as [o| | |] eqn:Eo; try discriminate. cbn [bind] in H.
  assert (Hne : m <> []) by (intros ->; discriminate).
  assert (Hm := parsed_u8_ne s e Hp Hs n m En Em Hne).
  destruct o as [op|].
  - injection H as <- <-. split; [eapply op_counted; eauto|assumption].
  - destruct (tdfa_from_nfa m _) as [[d|]| | |] eqn:Ed; try discriminate; cbn [bind] in H.
    + unfold make_dfa in H. destruct (dfa_from_tagged d); try discriminate. cbn [bind] in H. injection H as <- <-. split; [eapply dfa_counted; eauto|assumption].
    + destruct (nfa_is_ascii n).
      * unfold make_flat_u8 in H. destruct (flat_make m) as [tbl| | |] eqn:Et; try discriminate. cbn [bind] in H. injection H as <- <-.
        split; [right; left; exists m; auto|assumption].
      * unfold make_flat in H. destruct (flat_make n) as [tbl| | |] eqn:Et; try discriminate. cbn [bind] in H. destruct (nfa_compiles n); try discriminate. cbn [bind] in H. injection H as <- <-.
        destruct (parsed_working_ne s e Hp Hs n En (flat_make_ne _ _ Et)) as [Ha Hg]. split; [left; exists n; auto|assumption].
Qed.
Lemma compiled_counted s en : compiled s en -> Forall scalar s -> exists e, G_ere e s /\ counted e en.
Proof.
  intros [H|[H|[H|[H|[H|H]]]]] Hs; apply with_ere_ok in H as (e & Hp & H); exists e; (split; [now apply parse_iff|]).
  - unfold pick_engine in H. destruct (pick_base_engine e) as [[b u]| | |] eqn:Eb; try discriminate. cbn [bind] in H. destruct (base_counted s e b u Hp Hs Eb) as [Hb Hu].
    destruct (fixed_offsets u) as [[offs|]| | |] eqn:Ef; try discriminate; cbn [bind] in H.
    + destruct (length offs =? num_capture_groups u) eqn:El; [|discriminate]. injection H as <-. right. left. exists u. split; [assumption|]. now apply Nat.eqb_eq.
    + injection H as <-. assumption.
  - destruct (working_new (tree_of e)) as [n| | |] eqn:En; try discriminate. cbn [bind] in H. destruct (u8_new n) as [m| | |] eqn:Em; try discriminate. cbn [bind] in H.
    assert (Hne : m <> []) by (intros ->; discriminate).
    destruct (tdfa_from_nfa m _) as [[d|]| | |] eqn:Ed; try discriminate; cbn [bind] in H. unfold make_dfa in H. destruct (dfa_from_tagged d); try discriminate. injection H as <-.
    eapply dfa_counted; eauto. eapply parsed_u8_ne; eauto.
  - destruct (working_new (tree_of e)) as [n| | |] eqn:En; try discriminate. cbn [bind] in H. unfold make_flat in H. destruct (flat_make n) as [tbl| | |] eqn:Et; try discriminate. cbn [bind] in H. destruct (nfa_compiles n); try discriminate. injection H as <-.
    left. exists n. split; [assumption|]. split; [|reflexivity]. now apply (parsed_working_ne s e Hp Hs n En (flat_make_ne _ _ Et)).
  - destruct (working_new (tree_of e)) as [n| | |] eqn:En; try discriminate. cbn [bind] in H. destruct (u8_new n) as [m| | |] eqn:Em; try discriminate. cbn [bind] in H.
    unfold make_flat_u8 in H. destruct (flat_make m) as [tbl| | |] eqn:Et; try discriminate. injection H as <-. right. left. exists m. split; [|reflexivity]. eapply parsed_u8_ne; eauto. eapply flat_make_ne; eauto.
  - destruct (working_new (tree_of e)) as [n| | |] eqn:En; try discriminate. cbn [bind] in H. destruct (u8_new n) as [m| | |] eqn:Em; try discriminate. cbn [bind] in H.
    destruct (op_make m) as [[op|]| | |] eqn:Eo; try discriminate. injection H as <-. eapply op_counted; eauto. eapply parsed_u8_ne; eauto. intros ->; discriminate.
  - destruct (pick_base_engine e) as [[b u]| | |] eqn:Eb; try discriminate. cbn [bind] in H. destruct (base_counted s e b u Hp Hs Eb) as [Hb Hu].
    destruct (fixed_offsets u) as [[offs|]| | |] eqn:Ef; try discriminate; cbn [bind] in H.
    destruct (length offs =? num_capture_groups u) eqn:El; [|discriminate]. injection H as <-. right. left. exists u. split; [assumption|]. now apply Nat.eqb_eq.
Qed.
Lemma counted_bound e en : counted e en -> engine_groups en <= S (groups e).
Proof.
  intros [(n & _ & Hn & ->)|[(m & Hm & ->)|(_ & m & Hm & H)]]; [now apply automaton_count|now apply byte_count|]. assert (Hc := byte_count e m Hm). lia.
Qed.
Lemma counted_uses e en T i j L k : counted e en -> ~ is_dfa en -> Forall scalar T -> matches T e i j L -> last_of k L <> None -> k < engine_groups en.
Proof.
  intros [(n & _ & Hn & ->)|[(m & Hm & ->)|(H & _)]] Hd HT Hma Hk; [eapply automaton_uses; eauto|eapply byte_uses; eauto|contradiction].
Qed.
