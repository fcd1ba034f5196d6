(** The labels of the nodes of the drawing of a tagged DFA. *)
From Coq Require Import String.
From Verif Require Export PWalk SpecSubset.
From Coq Require Import ZifyBool ZifyNat ZifyN Permutation Sorted.
Open Scope nat_scope.
Open Scope list_scope.
Notation length := List.length.
Set Default Proof Using "Type".

(** ** Lists of numbers *)
Lemma comma_no_digit : ~ is_digit (ch ",").
Proof. unfold is_digit. intros [H1 H2]. vm_compute in H1. apply H1. reflexivity. Qed.
Lemma decimal_no_comma k s a b : decimal k s -> s <> a ++ s2l "," ++ b.
Proof. intros (_ & H & _) ->. apply Forall_app in H as [_ H]. inversion H as [|? ? H1 _]; subst. exact (comma_no_digit H1). Qed.
Lemma listing_fun s l : listing s l -> forall l', listing s l' -> l = l'.
Proof.
  assert (I : forall k k' s, decimal (N.of_nat k) s -> decimal (N.of_nat k') s -> k = k') by (intros k k' x (_ & _ & H) (_ & _ & H'); lia).
  induction 1 as [k s Hk|k s ks t Hk Ht IH]; intros l' H'.
  - inversion H' as [k' ? Hk'|k' s' ks' t' Hk' Ht' E]; subst; [f_equal; eapply I; eauto|]. exfalso. eapply decimal_no_comma; [exact Hk|reflexivity].
  - remember (s ++ s2l "," ++ t) as u eqn:Eu. destruct H' as [k' s' Hk'|k' s' ks' t' Hk' Ht']; [exfalso; subst; eapply decimal_no_comma; [exact Hk'|reflexivity]|].
    assert (E : s' = s) by (eapply (digits_split _ _ t' t s' comma_no_digit comma_no_digit s); [apply Hk'|apply Hk|exact Eu]). subst s'. apply app_inv_head in Eu. cbn in Eu. injection Eu as ->. f_equal; [eapply I; eauto|now apply IH].
Qed.
Lemma listing_digit s l : listing s l -> exists c s', s = c :: s' /\ is_digit c.
Proof.
  assert (D : forall k s, decimal k s -> exists c s', s = c :: s' /\ is_digit c) by (intros k [|c x] (Hn & Hd & _); [congruence|]; inversion Hd; eauto).
  destruct 1 as [k s Hk|k s ks t Hk Ht]; destruct (D _ _ Hk) as (c & s' & -> & Hc); [eauto|]. exists c, (s' ++ s2l "," ++ t). auto.
Qed.
Lemma join_listing l : l <> [] -> listing (join_comma (map show_nat l)) l.
Proof.
  induction l as [|k l IH]; [congruence|]. intros _. destruct l as [|k' l]; [apply ls_one, show_nat_decimal|].
  change (join_comma (map show_nat (k :: k' :: l))) with (show_nat k ++ s2l "," ++ join_comma (map show_nat (k' :: l))). apply ls_more; [apply show_nat_decimal|now apply IH].
Qed.

(** ** Walks, from the end *)
Definition byte_arrow (g : graph) (x : nat) (b : N) (y : nat) : Prop := exists l t lo hi, arc_to g x l y /\ prints l t /\ range_text t lo hi /\ (lo <= b <= hi)%N.
Lemma walk_app g x u y v z : byte_walk g x u y -> byte_walk g y v z -> byte_walk g x (u ++ v) z.
Proof. induction 1; intros; [assumption|]. cbn. econstructor; eauto. Qed.
Lemma walk_snoc g u b : forall x z, byte_walk g x (u ++ [b]) z <-> exists y, byte_walk g x u y /\ byte_arrow g y b z.
Proof.
  intros x z. split.
  - revert x. induction u as [|c u IH]; intros x H; cbn in H; inversion H as [|? l y t lo hi ? ? ? H1 H2 H3 H4 H5]; subst.
    + inversion H5; subst. exists x. split; [constructor|]. exists l, t, lo, hi. auto.
    + apply IH in H5 as (y' & Hw & Ha). exists y'. split; [econstructor; eauto|exact Ha].
  - intros (y & Hw & l & t & lo & hi & H1 & H2 & H3 & H4). eapply walk_app; [exact Hw|]. econstructor; eauto. constructor.
Qed.

Section Subset.
  Variable m : nfa range.
  Hypothesis Hwf : wf m.
  Hypothesis Hlen : 1 <= length m.
  Hypothesis Hm : bytes_nfa m.
  Variable max : nat.
  Variable d : tdfa.
  Hypothesis Hb : built m max d.
  Hypothesis Hbd : bytes_dfa (base_dfa d).
  Let g := tdfa_graph d.
  Let h := nfa_graph show_u8_atom m.

  Lemma t_nth s : lab_ok d s (node_of s) -> nth_error (td_start d :: td_states d) (node_of s) = Some (td_get d s).
  Proof. destruct s as [i|]; cbn; [|reflexivity]. intros [_ H]. now apply nth_error_nth'. Qed.
  Lemma g_node s : lab_ok d s (node_of s) -> exists st, nth_error g (node_of s) = Some st /\ g_label st = join_comma (map show_nat (ts_nfa (td_get d s))).
  Proof using Hlen.
    intros Hs. assert (E := t_nth s Hs). assert (L : node_of s < length (td_start d :: td_states d)) by (apply nth_error_Some; congruence).
    unfold g, tdfa_graph. rewrite nth_tail, map_length, enumerate_length. destruct (Nat.ltb_spec (node_of s) (length (td_start d :: td_states d))) as [_|X]; [|lia].
    rewrite enum_nth, E. eexists. split; reflexivity.
  Qed.
  (** An arrow that reads a byte. *)
  Lemma g_arrow s b y : lab_ok d s (node_of s) -> byte_arrow g (node_of s) b y <-> exists t, find (fun t => in_range b (tt_sym t)) (ts_trans (td_get d s)) = Some t /\ y = node_of (Some (tt_to t)).
  Proof using Hlen Hb Hbd.
    intros Hs. destruct (trans_sorted m Hlen max d Hb s (node_of s) Hs) as [TS TO].
    assert (A : forall l y, arc_to g (node_of s) l y <-> trans_arrow (map (fun t => (tt_to t, tt_sym t)) (ts_trans (td_get d s))) l y \/ acc_arrow (base_dfa d) (ds_acc (dstate_of (td_get d s))) l y).
    { intros l y'. unfold g. destruct (tdfa_same d) as [S1 _]. rewrite S1, dfa_arrow.
      - rewrite (base_get d s (node_of s) Hs). rewrite (dstate_trans m Hlen max d Hb s (node_of s) Hs). tauto.
      - destruct s as [i|]; [|exact I]. cbn. rewrite map_length. apply Hs. }
    assert (B : forall t, In t (ts_trans (td_get d s)) -> byte_range (tt_sym t)).
    { intros t Ht. unfold bytes_dfa in Hbd. rewrite Forall_forall in Hbd. assert (X : In (dstate_of (td_get d s)) (d_start (base_dfa d) :: d_states (base_dfa d))).
      { cbn [base_dfa d_start d_states]. destruct s as [i|]; [right; apply in_map; apply nth_In; apply Hs|now left]. }
      specialize (Hbd _ X). rewrite (dstate_trans m Hlen max d Hb s (node_of s) Hs), Forall_map, Forall_forall in Hbd. exact (Hbd t Ht). }
    split.
    - intros (l & t & lo & hi & H1 & H2 & H3 & H4). apply A in H1 as [(tr & Ht & -> & ->)|(_ & [(_ & ->)|(_ & ->)])].
      + apply in_map_iff in Ht as (x & <- & Hx). cbn [fst snd] in *. rewrite (prints_fun _ _ H2 _ (escape_prints _)) in H3. destruct (range_text_fun _ _ _ _ _ H3 (show_range_text _ (B x Hx))) as [-> ->].
        exists x. split; [|cbn; lia]. clear - TS Hx H4. induction TS as [|y l Hs IH Hy]; [destruct Hx|]. cbn [find]. destruct Hx as [->|Hx]; [unfold in_range; destruct (tt_sym x); cbn in *; now replace (_ && _) with true by lia|].
        rewrite Forall_forall in Hy. specialize (Hy x Hx). destruct (in_range b (tt_sym y)) eqn:E; [|auto]. exfalso. unfold in_range in E. destruct (tt_sym x), (tt_sym y). cbn [fst snd] in *. lia.
      + exfalso. rewrite (prints_fun _ _ H2 _ dollar_prints) in H3. exact (range_no_dollar _ _ H3).
      + exfalso. rewrite (prints_fun _ _ H2 _ pr_nil) in H3. exact (range_ne _ _ H3).
    - intros (x & Ef & ->). apply find_some in Ef as [Hx Hr]. exists (escape_latex (show_byte_range (tt_sym x))), (show_byte_range (tt_sym x)), (fst (tt_sym x)), (snd (tt_sym x)).
      split; [apply A; left; exists (tt_to x, tt_sym x); split; [apply in_map_iff; eauto|split; [cbn; lia|reflexivity]]|]. split; [apply escape_prints|]. split; [now apply show_range_text, B|].
      unfold in_range in Hr. destruct (tt_sym x). cbn [fst snd] in *. lia.
  Qed.

  (** ** What a text leads to *)
  Variable T : list N.
  Hypothesis HT : Forall (fun b => (b <= 255)%N) T.
  Inductive land : nat -> nat -> Prop :=
  | land_0 : land 0 0
  | land_S : forall j q z p c r to, land j q -> zpath m q z p -> reads T j z j -> nth_error T j = Some c -> In (to, r) (trans (get m p)) -> in_range c r = true -> land (S j) to.
  Lemma land_path j q : land j q -> exists w, path byte_check m 0 w q /\ reads T 0 w j.
  Proof using Hlen.
    induction 1 as [|j q z p c r to H (w & Hw & Hr) Hz Hrz Hc Ht Hcr]; [exists []; split; constructor; lia|].
    exists (w ++ z ++ [IC c]). assert (j < length T) by (apply nth_error_Some; congruence). split.
    - eapply path_app; [exact Hw|]. eapply path_app; [apply zpath_path; exact Hz|]. eapply p_sym; [exact Ht|exact Hcr|constructor].
    - apply reads_app. exists j. split; [exact Hr|]. apply reads_app. exists j. split; [exact Hrz|]. constructor; [exact Hc|]. constructor. lia.
  Qed.
  Lemma path_land s w p : path byte_check m s w p -> forall i q z j, land i q -> zpath m q z s -> reads T i z i -> reads T i w j ->
    exists q' z', land j q' /\ zpath m q' z' p /\ reads T j z' j.
  Proof using Hlen.
    induction 1 as [s|s t e w u He Hp IH|s t a c w u Ha Hc Hp IH]; intros i q z j Hl Hz Hrz Hr.
    - apply reads_nil_inv in Hr as [<- _]. exists q, z. auto.
    - apply reads_app in Hr as (k & Hr1 & Hr2). assert (k = i) by (destruct (reads_chars _ _ _ _ Hr1) as [E _]; rewrite chars_mark in E; cbn in E; lia). subst k.
      apply (IH i q (z ++ mark e) j Hl); [eapply z_step; eauto|apply reads_app; eauto|exact Hr2].
    - apply reads_char_inv in Hr as [Hn Hr]. apply (IH (S i) t [] j); [eapply land_S; eauto|constructor| |exact Hr]. constructor. assert (i < length T) by (apply nth_error_Some; congruence). lia.
  Qed.
  Lemma lands_iff q : lands h T q <-> T <> [] /\ land (length T) q.
  Proof using Hm Hlen.
    assert (Hh : forall x y a, In (y, a) (trans (get m x)) -> forall c, has_byte (show_u8_atom a) c <-> byte_check a c = true).
    { intros x y r H c. assert (B : byte_range r).
      { unfold get in H. destruct (Nat.lt_ge_cases x (length m)) as [L|L]; [|rewrite (nth_overflow _ _ L) in H; destruct H].
        unfold bytes_nfa in Hm. rewrite Forall_forall in Hm. specialize (Hm _ (nth_In _ empty_state L)). rewrite Forall_forall in Hm. exact (Hm _ H). }
      unfold has_byte, byte_check, in_range. split.
      - intros (lo & hi & Ht & Hc). destruct (byte_class_fun _ _ _ _ _ Ht (show_byte_class r B)) as [-> ->]. destruct r. cbn [fst snd] in *. lia.
      - intros Hc. exists (fst r), (snd r). split; [now apply show_byte_class|]. destruct r. cbn [fst snd] in *. lia. }
    unfold lands. split.
    - intros (x & w & p & l & t & b & Hx & Hw & Ha & Hp & Hbt & Hr).
      assert (x = 0).
      { destruct Hx as (s & E & H). unfold h, nfa_graph in E. rewrite enum_nth in E. destruct (nth_error m x); [|discriminate]. injection E as <-. cbn in H. lia. }
      subst x. apply (tour_path show_u8_atom byte_check has_byte m Hh) in Hw. apply reads_app in Hr as (k & Hr1 & Hr2). apply reads_char_inv in Hr2 as [Hn Hr2]. apply reads_nil_inv in Hr2 as [Ek _].
      assert (HTn : T <> []) by (intros E; rewrite E in Hn; destruct k; discriminate). split; [exact HTn|]. rewrite <- Ek.
      destruct (path_land 0 w p Hw 0 0 [] k) as (q' & z' & L1 & L2 & L3); [constructor|constructor|constructor; lia|exact Hr1|].
      apply nfa_arrow in Ha as [(r & Hin & ->)|(k' & e' & Hk' & ->)]; [|exfalso; exact (zero_not_prints _ _ _ (eps_label_zero k' e') Hp)].
      rewrite (prints_fun _ _ Hp _ (escape_prints (show_u8_atom r))) in Hbt. apply (Hh _ _ _ Hin) in Hbt. eapply land_S; eauto.
    - intros [HTn Hl]. inversion Hl as [E Eq|j q0 z p c r to H1 H2 H3 H4 H5 H6 E Eq]; subst; [exfalso; apply HTn; now apply length_zero_iff_nil|].
      destruct (land_path _ _ H1) as (w & Hw & Hr). exists 0, (w ++ z), p, (escape_latex (show_u8_atom r)), (show_u8_atom r), c.
      split; [|split; [|split; [|split; [|split]]]].
      + unfold h, nfa_graph, initial. rewrite enum_nth. destruct (nth_error m 0) eqn:E0; [|apply nth_error_None in E0; clear - E0 Hlen; lia]. eexists. split; reflexivity.
      + apply (tour_path show_u8_atom byte_check has_byte m Hh). eapply path_app; [exact Hw|now apply zpath_path].
      + apply nfa_arrow. left. eauto.
      + apply escape_prints.
      + now apply (Hh _ _ _ H5).
      + rewrite <- app_assoc. apply reads_app. exists j. split; [exact Hr|]. apply reads_app. exists j. split; [exact H3|]. constructor; [exact H4|]. rewrite E. constructor. clear; lia.
  Qed.
  Lemma firstn_snoc j c : nth_error T j = Some c -> firstn (S j) T = firstn j T ++ [c].
  Proof. clear. revert T. induction j as [|j IH]; intros [|x T] H; cbn in *; try discriminate; [now injection H as ->|]. now rewrite (IH _ H). Qed.
  Lemma lab_node s j : lab_ok d s j -> lab_ok d s (node_of s).
  Proof using Hlen. destruct s; cbn; [|reflexivity]. intros [_ H]. lia. Qed.
  Lemma subset j : j <= length T ->
    (exists s, lab_ok d s j /\ (forall y, byte_walk g 0 (firstn j T) y <-> y = node_of s) /\ (forall q, In q (ts_nfa (td_get d s)) <-> land j q)) \/
    (0 < j /\ (forall y, ~ byte_walk g 0 (firstn j T) y) /\ forall q, ~ land j q).
  Proof using Hwf Hlen Hb Hbd HT.
    induction j as [|j IH]; intros Hj.
    - left. exists None. split; [reflexivity|]. split.
      + intros y. cbn. split; [intros H; now inversion H|]. intros ->. constructor.
      + intros q. cbn [td_get]. rewrite (b_start _ _ _ Hb). cbn. split; [intros [<-|[]]; constructor|]. intros H. inversion H. now left.
    - destruct (nth_error T j) as [c|] eqn:Ec; [|apply nth_error_None in Ec; lia]. rewrite (firstn_snoc j c Ec).
      destruct (IH ltac:(lia)) as [(s & Hs & Hw & Hq)|(Hj0 & Hw & Hq)].
      + assert (LS := lab_step m Hwf Hlen max d Hb T HT s j c Hs Ec).
        assert (ST : forall to, land (S j) to <-> exists i w, steps m T (ts_nfa (td_get d s)) j c i w to).
        { intros to. split.
          - intros H. inversion H as [|j' q z p c' r to' H1 H2 H3 H4 H5 H6]; subst. apply Hq in H1. apply In_nth_error in H1 as (i & Hi). exists i, z, q, p, r. rewrite H4 in Ec. injection Ec as ->. auto.
          - intros (i & w & q & p & r & H1 & H2 & H3 & H4 & H5). eapply land_S; [apply Hq; eapply nth_error_In; exact H1|..]; eauto. }
        assert (GA := g_arrow s c). destruct (find _ (ts_trans (td_get d s))) as [t|] eqn:Ef.
        * destruct LS as (L1 & cl & L2 & _ & _ & L5 & L6). left. exists (Some (tt_to t)). split; [exact L1|]. split.
          -- intros y. rewrite walk_snoc. split.
             ++ intros (x & Hx & Ha). apply Hw in Hx. subst x. apply (GA y (lab_node s j Hs)) in Ha as (t' & E & ->). now injection E as <-.
             ++ intros ->. exists (node_of s). split; [now apply Hw|]. apply (GA _ (lab_node s j Hs)). exists t. auto.
          -- intros q. rewrite L2, ST. split; [|intros (i & w & H); eapply L6; eauto]. intros H. apply in_map_iff in H as (x & <- & Hx). destruct (L5 x Hx) as (w & _ & H). eauto.
        * right. split; [lia|]. split.
          -- intros y H. apply walk_snoc in H as (x & Hx & Ha). apply Hw in Hx. subst x. apply (GA y (lab_node s j Hs)) in Ha as (t' & E & _). discriminate.
          -- intros q H. apply ST in H as (i & w & H). exact (LS _ _ _ H).
      + right. split; [lia|]. split.
        * intros y H. apply walk_snoc in H as (x & Hx & _). exact (Hw x Hx).
        * intros q H. inversion H; subst. eapply Hq; eauto.
  Qed.
End Subset.

(** ** The nodes *)
Lemma cand_ranges_ne cs r cl : In (r, cl) (cand_ranges cs) -> cl <> [].
Proof.
  destruct (split_ranges_spec (map fst cs)) as [_ _ _ P4 _]. unfold cand_ranges. intros H. apply in_map_iff in H as ([r' is] & E & H). injection E as -> <-. specialize (P4 _ _ H).
  destruct is as [|i is]; [congruence|]. cbn [map]. unfold dedup_cands. cbn [dedup_by existsb]. discriminate.
Qed.
Lemma reached_ne m l : reached m l -> l <> [].
Proof. intros [r cl H|nfas r cl _ H]; apply cand_ranges_ne in H; destruct cl; cbn; congruence. Qed.
Section Nodes.
  Variable m : nfa range.
  Hypothesis Hwf : wf m.
  Hypothesis Hlen : 1 <= length m.
  Variable max : nat.
  Variable d : tdfa.
  Hypothesis Hb : built m max d.
  Hypothesis Hbd : bytes_dfa (base_dfa d).
  Let g := tdfa_graph d.
  Lemma sorted_first (ts : list ttrans) t : StronglySorted (fun a b => (snd (tt_sym a) < fst (tt_sym b))%N) ts -> Forall (fun t => (fst (tt_sym t) <= snd (tt_sym t))%N) ts -> In t ts ->
    find (fun x => in_range (fst (tt_sym t)) (tt_sym x)) ts = Some t.
  Proof.
    induction 1 as [|x ts Hs IH Hx]; intros Hf Ht; [destruct Ht|]. inversion Hf as [|? ? F1 F2]; subst. cbn [find]. destruct Ht as [->|Ht].
    - unfold in_range. destruct (tt_sym t) as [a b]. cbn [fst snd] in *. now replace ((a <=? a)%N && (a <=? b)%N) with true by (clear - F1; lia).
    - rewrite Forall_forall in Hx, F2. specialize (Hx t Ht). destruct (in_range (fst (tt_sym t)) (tt_sym x)) eqn:E; [|now apply IH; [apply Forall_forall|]].
      exfalso. unfold in_range in E. destruct (tt_sym t), (tt_sym x). cbn [fst snd] in *. clear - E Hx. lia.
  Qed.
  Lemma node_reached l : reached m l -> exists u i, u <> [] /\ Forall (fun b => (b < 256)%N) u /\ byte_walk g 0 u (S i) /\ i < length (td_states d) /\ ts_nfa (td_get d (Some i)) = l.
  Proof using Hlen Hb Hbd.
    assert (STEP : forall s j r cl, lab_ok d s j -> In (r, cl) (cand_ranges (all_cands m (keep_of s) (ts_nfa (td_get d s)))) ->
      exists b i, (b < 256)%N /\ byte_arrow g (node_of s) b (S i) /\ i < length (td_states d) /\ ts_nfa (td_get d (Some i)) = map c_to cl).
    { intros s j r cl Hs Hin. destruct (lab_expanded m Hlen max d Hb s j Hs) as [_ [_ Hex]]. destruct (Forall2_In_l _ _ _ _ Hex Hin) as (t & Ht & (E1 & _ & _ & E4)). cbn [fst snd] in *.
      destruct (trans_sorted m Hlen max d Hb s j Hs) as [T1 T2]. exists (fst (tt_sym t)), (tt_to t).
      assert (L : tt_to t < length (td_states d)) by (rewrite Forall_forall in T2; apply (T2 t Ht)).
      assert (O := co_in _ _ (cand_ranges_ok (all_cands m (keep_of s) (ts_nfa (td_get d s))))). rewrite Forall_forall in O. specialize (O _ Hin). cbn [fst] in O.
      split; [rewrite E1; clear - O; lia|]. split; [|split; [exact L|]].
      - apply (g_arrow m Hlen max d Hb Hbd s _ _ (lab_node m Hlen d s j Hs)). exists t. split; [|reflexivity]. apply sorted_first; [exact T1| |exact Ht]. eapply Forall_impl; [|exact T2]. cbv beta. intros a Ha. apply Ha.
      - cbn [td_get]. unfold names in E4. rewrite (nth_error_nth' (map ts_nfa (td_states d)) (ts_nfa (stub []))) in E4 by (now rewrite map_length). rewrite map_nth in E4. congruence. }
    induction 1 as [r cl H|nfas r cl Hr (u & i & U1 & U2 & U3 & U4 & U5) H].
    - destruct (STEP None 0 r cl) as (b & i & B1 & B2 & B3 & B4); [reflexivity|cbn [td_get keep_of]; rewrite (b_start _ _ _ Hb); exact H|].
      exists [b], i. split; [discriminate|]. split; [now constructor|]. split; [|auto]. apply (walk_snoc g [] b). exists 0. split; [constructor|exact B2].
    - destruct (STEP (Some i) 1 r cl) as (b & i' & B1 & B2 & B3 & B4); [cbn; clear - U4; lia|rewrite U5; exact H|].
      exists (u ++ [b]), i'. split; [destruct u; discriminate|]. split; [apply Forall_app; split; [exact U2|now constructor]|]. split; [|auto]. apply walk_snoc. exists (S i). split; [exact U3|exact B2].
  Qed.
  Lemma nth_node x st : nth_error g x = Some st -> (x = 0 /\ g_label st = s2l "0") \/ (exists i, x = S i /\ i < length (td_states d) /\ g_label st = join_comma (map show_nat (ts_nfa (td_get d (Some i))))) \/ (x = S (length (td_states d)) /\ g_label st = s2l "accept").
  Proof using Hlen Hb.
    intros E. assert (L : x < length g) by (apply nth_error_Some; congruence). assert (GN := g_node m Hlen d). fold g in GN.
    assert (Lg : length g = S (S (length (td_states d)))) by (unfold g, tdfa_graph; rewrite app_length, map_length, enumerate_length; cbn; clear; lia).
    destruct x as [|i].
    - left. split; [reflexivity|]. destruct (GN None eq_refl) as (st' & E' & H). cbn [node_of] in E'. rewrite E in E'. injection E' as <-. rewrite H. cbn [td_get]. rewrite (b_start _ _ _ Hb). reflexivity.
    - right. destruct (Nat.lt_ge_cases i (length (td_states d))) as [Hi|Hi].
      + left. exists i. split; [reflexivity|]. split; [exact Hi|]. destruct (GN (Some i)) as (st' & E' & H); [cbn; clear - Hi; lia|]. cbn [node_of] in E'. rewrite E in E'. now injection E' as <-.
      + right. assert (Ei : i = length (td_states d)) by (clear - L Lg Hi; lia). subst i. split; [reflexivity|]. unfold g, tdfa_graph in E. rewrite nth_tail, map_length, enumerate_length in E. cbn [length] in E.
        rewrite Nat.ltb_irrefl, Nat.eqb_refl in E. now injection E as <-.
  Qed.
End Nodes.
