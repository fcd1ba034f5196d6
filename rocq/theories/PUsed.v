(** The number of captures is that of the last group that can take part. *)
From Verif Require Import PCount POptional PTight PAll.
From Coq Require Import ZifyBool ZifyNat ZifyN.
Open Scope nat_scope.
Open Scope list_scope.

Lemma last_of_app k L1 L2 : last_of k (L1 ++ L2) = match last_of k L2 with Some x => Some x | None => last_of k L1 end.
Proof. induction L1 as [|[g s] L1 IH]; cbn; [destruct (last_of k L2); reflexivity|]. rewrite IH. destruct (last_of k L2); reflexivity. Qed.
Lemma blog_takes i w j L k : blog i w j L -> In (IM (ESC k)) w -> last_of k L <> None.
Proof.
  induction 1 as [| | | |g i j v L Hb IH Hf|i j l u v L1 L2 H1 IH1 H2 IH2]; intros H.
  - destruct H.
  - destruct H as [H|[]]. discriminate.
  - destruct H as [H|[]]. discriminate.
  - destruct H as [H|[]]. discriminate.
  - rewrite last_of_app. cbn. destruct (Nat.eqb_spec g k) as [->|Hne]; [discriminate|]. destruct H as [H|H]; [congruence|]. apply in_app_or in H as [H|[H|[]]]; [auto|discriminate].
  - rewrite last_of_app. apply in_app_or in H as [H|H]; [destruct (last_of k L2); [discriminate|auto]|]. specialize (IH2 H). destruct (last_of k L2); [discriminate|congruence].
Qed.
(** A word of the automaton that opens a group is a match in which it takes part. *)
Lemma padded_takes e W k : anchor_free e = true -> Forall scalar (chars W) -> padded true true (tlang acheck (tree_of e)) W -> In (IM (ESC k)) W ->
  exists T i j L, Forall scalar T /\ matches T e i j L /\ last_of k L <> None.
Proof.
  intros Hf HS HW Hk. assert (Hv := free_valid acheck e W Hf HW). destruct HW as (pre & v & post & -> & Hp & Hq & _ & _ & Hv').
  set (W := map IC pre ++ v ++ map IC post) in *. set (T := chars W). exists T.
  assert (HR : reads T 0 W (length T)) by (apply reads_whole; split; [reflexivity|assumption]).
  apply reads_app in HR as (i & R1 & R2). apply reads_app in R2 as (j & R2 & R3). destruct (word_matches T _ _ _ _ Hv' R2) as (L & Hm & Hb).
  exists i, j, L. split; [exact HS|split; [assumption|]]. eapply blog_takes; eauto.
  unfold W in Hk. apply in_app_or in Hk as [Hk|Hk]; [apply in_map_iff in Hk as (x & E & _); discriminate|]. apply in_app_or in Hk as [Hk|Hk]; [assumption|]. apply in_map_iff in Hk as (x & E & _). discriminate.
Qed.
Lemma padded_zero e W : padded true true (tlang acheck (tree_of e)) W -> In (IM (ESC 0)) W.
Proof. intros (pre & v & post & -> & _ & _ & _ & _ & Hv). rewrite tree_of_eq in Hv. destruct Hv as (x & _ & ->). apply in_or_app. right. now left. Qed.
Lemma padded_scalar e W : padded true true (tlang acheck (tree_of e)) W -> Forall scalar (chars W).
Proof.
  intros (pre & v & post & -> & Hp & Hq & _ & _ & Hv). rewrite !chars_app. apply Forall_app. split; [now rewrite chars_IC|]. apply Forall_app. split; [|now rewrite chars_IC]. now apply (tlang_scalar e).
Qed.
Lemma num_groups_edge {A} (n : nfa A) : num_capture_groups n = 1 \/ exists s t, In (t, ESC (num_capture_groups n - 1)) (eps (get n s)).
Proof.
  unfold num_capture_groups. set (l := flat_map _ n). cbn [Nat.sub]. rewrite Nat.sub_0_r.
  assert (M : fold_right Nat.max 0 l = 0 \/ In (fold_right Nat.max 0 l) l).
  { clear. induction l as [|x l IH]; [now left|]. cbn [fold_right]. destruct (Nat.max_spec x (fold_right Nat.max 0 l)) as [[_ ->]|[_ ->]]; [destruct IH; [now left|right; now right]|right; now left]. }
  destruct M as [->|M]; [now left|]. destruct (fold_right Nat.max 0 l) as [|k] eqn:E; [now left|]. right. rewrite <- E in M at 1. rewrite E in M.
  apply in_flat_map in M as (st & Hst & M). apply in_map_iff in M as ([t x] & Hx & M). cbn in Hx. destruct x; try discriminate. subst.
  destruct (In_nth _ _ {| trans := []; eps := [] |} Hst) as (s & Hs & Es). exists s, t. unfold get. erewrite nth_indep; [rewrite Es; exact M|assumption].
Qed.
Lemma byte_last e m : anchor_free e = true -> byte_automaton_of e m -> exists T i j L, Forall scalar T /\ matches T e i j L /\ last_of (num_capture_groups m - 1) L <> None.
Proof.
  intros Hf (M1 & M2 & M3 & M4 & M5 & M6 & M7).
  assert (HL : forall s t a, In (t, a) (trans (get m s)) -> exists c, byte_check a c = true).
  { intros s t r Hr. destruct (M6 _ _ _ Hr) as [X Y]. exists (fst r). apply in_range_iff. split; [apply N.le_refl|exact X]. }
  destruct (num_groups_edge m) as [E|(s & t & He)].
  - rewrite E. destruct (conn_path m byte_check 0 (length m - 1) HL) as (v & Hv); [apply M3; lia|]. destruct (M7 v Hv) as (w & -> & Hw). apply (padded_takes e w); auto; [eapply padded_scalar; eauto|eapply padded_zero; eauto].
  - destruct (edge_word m byte_check s t _ HL (ok_wf _ M1) M3 He) as (u & v & HW). destruct (M7 _ HW) as (w & E & Hw). apply (padded_takes e w); auto; [eapply padded_scalar; eauto|].
    apply In_mark_enc. rewrite <- E. apply in_or_app. right. now left.
Qed.
Lemma char_last e n : ere_atoms atom_ok e -> inhabited_atoms e -> anchor_free e = true -> working_new (tree_of e) = Ok n -> n <> [] ->
  exists T i j L, Forall scalar T /\ matches T e i j L /\ last_of (num_capture_groups n - 1) L <> None.
Proof.
  intros He Hi Hf En Hn. destruct (working_chk acheck reading_acheck true true (tree_of e)) as (n' & En' & H).
  - eapply tree_labels_mono; [|apply tree_of_labels; exact He]. auto.
  - apply tree_of_ok.
  - apply tree_of_length.
  - unfold working_new in En. rewrite En in En'. injection En' as <-. destruct H as [[-> _]|(H1 & H2 & H3 & H4 & _ & H6)]; [congruence|].
    set (P := fun a => exists c, acheck a c = true). assert (HL : Forall (lab P (fun _ => True)) n).
    { apply H6; [exact I|exists 97%N; reflexivity|]. eapply tree_labels_mono; [|apply tree_of_labels].
      - auto.
      - apply (proj2 (proj2 (proj2 (atoms_In P)))). intros a Ha. destruct (Hi a Ha) as (c & Hc & Hac). exists c. unfold acheck. apply andb_true_intro. split; [now apply atom_check_iff|exact Hc]. }
    apply lab_iff in HL as [HL _].
    destruct (num_groups_edge n) as [E|(s & t & Hed)].
    + rewrite E. destruct (conn_path n acheck 0 (length n - 1) HL) as (v & Hv); [apply H3; lia|]. apply H4 in Hv. apply (padded_takes e v); auto; [eapply padded_scalar; eauto|eapply padded_zero; eauto].
    + destruct (edge_word n acheck s t _ HL (ok_wf _ H1) H3 Hed) as (u & v & HW). apply H4 in HW. apply (padded_takes e _ _ Hf (padded_scalar _ _ HW) HW). apply in_or_app. right. now left.
Qed.
Theorem groups_used s en e : compiled s en -> Forall scalar s -> G_ere e s -> ~ is_dfa en -> anchor_free e = true -> inhabited_atoms e ->
  exists T i j L, Forall scalar T /\ matches T e i j L /\ last_of (engine_groups en - 1) L <> None.
Proof.
  intros H Hs Hg Hd Hf Hi. destruct (compiled_counted s en H Hs) as (e' & Hg' & Hc). apply parse_iff in Hg, Hg'. rewrite Hg in Hg'. injection Hg' as <-.
  destruct Hc as [(n & En & Hn & ->)|[(m & Hm & ->)|(X & _)]]; [|now apply byte_last|contradiction].
  apply (char_last e n); auto; [eapply parsed_atoms_ok; eauto|]. destruct Hn as (_ & Hn & _). intros ->. cbn in Hn. lia.
Qed.
