(** [U8NFA::build] and [U8NFA::new]: the byte automaton has exactly the encoded words of the character
    automaton. *)
From Verif Require Export PTrie.
From Coq Require Import ZifyBool ZifyNat.
Open Scope nat_scope.
Open Scope list_scope.
Set Default Proof Using "Type".

(** ** Encoded words *)
Definition enc_item (i : item) : word := match i with IC c => map IC (encode c) | IM e => [IM e] end.
Definition enc (w : word) : word := flat_map enc_item w.
Lemma enc_app u v : enc (u ++ v) = enc u ++ enc v.
Proof. apply flat_map_app. Qed.
Lemma enc_mark e : enc (mark e) = mark e.
Proof. destruct e; reflexivity. Qed.

(** ** The construction *)
Definition mp (t sacc off : nat) (x : nat * range) : nat * range := if fst x =? sacc then (t, snd x) else (fst x + off, snd x).
Definition mps t sacc off (s : state range) : state range := mkState (map (mp t sacc off) (trans s)) [].
(** The states of the symbol automaton of [(t, a)], except the first and last, lie in [subs] (whose first
    state has number [L]). *)
Record block (L : nat) (subs : list (state range)) (t : nat) (a : atom) (sym : nfa range) (off : nat) : Prop := {
  bl_sym : u8_symbol a = Ok sym;
  bl_off : L <= off + 1;
  bl_top : off + length sym - 1 <= L + length subs;
  bl_get : forall i, 1 <= i < length sym - 1 -> nth_error subs (off + i - L) = Some (mps t (length sym - 1) off (get sym i))
}.
Definition covers (L : nat) (subs : list (state range)) (ta : nat * atom) (es : list (nat * range)) : Prop :=
  exists sym off, block L subs (fst ta) (snd ta) sym off /\ es = map (mp (fst ta) (length sym - 1) off) (trans (get sym 0)).
Definition sub_ok (top : nat) (s : state range) : Prop :=
  eps s = [] /\ Forall (fun t => fst t < top /\ byte_ok (snd t)) (trans s).
Definition extends (subs subs' : list (state range)) : Prop := exists x, subs' = subs ++ x.
Lemma extends_refl l : extends l l.
Proof. exists []. now rewrite app_nil_r. Qed.
Lemma extends_trans a b c : extends a b -> extends b c -> extends a c.
Proof. intros [x ->] [y ->]. exists (x ++ y). now rewrite app_assoc. Qed.
Lemma block_ext L subs subs' t a sym off : extends subs subs' -> block L subs t a sym off -> block L subs' t a sym off.
Proof.
  intros [x ->] [H1 H2 H3 H4]. split; auto.
  - rewrite app_length. lia.
  - intros i Hi. specialize (H4 i Hi). rewrite nth_error_app1; [assumption|]. apply nth_error_Some. congruence.
Qed.
Lemma covers_ext L subs subs' ta es : extends subs subs' -> covers L subs ta es -> covers L subs' ta es.
Proof. intros He (sym & off & H1 & H2). exists sym, off. split; [eapply block_ext; eauto|assumption]. Qed.
Lemma sub_ok_mono top top' s : top <= top' -> sub_ok top s -> sub_ok top' s.
Proof. intros H [H1 H2]. split; [assumption|]. eapply Forall_impl; [|exact H2]. cbn. intros. lia || (split; [lia|tauto]). Qed.

Section Trans.
  Variable L : nat.
  Hypothesis HL : 1 <= L.
  Definition subs_ok (subs : list (state range)) : Prop := Forall (sub_ok (L + length subs)) subs.

  Lemma build_trans_spec trs subs t a : atom_ok a -> t < L -> subs_ok subs ->
    exists es subs', u8_build_trans L (trs, subs) (t, a) = Ok (trs ++ es, subs') /\ extends subs subs' /\ covers L subs' (t, a) es /\
      subs_ok subs' /\ Forall (fun x => fst x < L + length subs' /\ byte_ok (snd x)) es.
  Proof using HL.
    intros Ha Ht Hs. destruct (u8_symbol_spec a Ha) as (sym & E & Hsym). unfold u8_build_trans. cbn [fst snd]. rewrite E. cbn [bind].
    set (off := L + length subs - 1).
    change (fun x : nat * range => if fst x =? length sym - 1 then (t, snd x) else (fst x + off, snd x)) with (mp t (length sym - 1) off).
    change (fun s : state range => mkState (map (mp t (length sym - 1) off) (trans s)) []) with (mps t (length sym - 1) off).
    assert (Hl := so_len _ _ Hsym). set (mid := firstn (length sym - 2) (skipn 1 sym)).
    assert (Lm : length mid = length sym - 2) by (unfold mid; rewrite firstn_length, skipn_length; lia).
    assert (Gm : forall i, 1 <= i < length sym - 1 -> nth_error mid (i - 1) = Some (get sym i)).
    { intros i Hi. unfold mid. destruct i as [|i]; [lia|]. replace (S i - 1) with i by lia.
      assert (F : forall {A} k i (l : list A), i < k -> nth_error (firstn k l) i = nth_error l i).
      { clear. intros A k. induction k as [|k IH]; intros [|i] [|x l] H; cbn; try lia; auto. apply IH. lia. }
      rewrite F by lia. destruct sym as [|s0 sym']; [cbn in Hl; lia|]. cbn [skipn]. unfold get. cbn [nth]. cbn [length] in Hi.
      rewrite nth_error_nth' with (d := empty_state) by lia. reflexivity. }
    exists (map (mp t (length sym - 1) off) (trans (get sym 0))), (subs ++ map (mps t (length sym - 1) off) mid).
    assert (BT : forall k x, In x (map (mp t (length sym - 1) off) (trans (get sym k))) -> fst x < L + length (subs ++ map (mps t (length sym - 1) off) mid) /\ byte_ok (snd x)).
    { intros k x Hx. apply in_map_iff in Hx as ([j r] & Ex & Hj). apply (so_tgt _ _ Hsym) in Hj as (Hj & _ & Hr). unfold mp in Ex. cbn [fst snd] in Ex.
      rewrite app_length, map_length, Lm. destruct (Nat.eqb_spec j (length sym - 1)); subst x; cbn [fst snd]; split; auto; unfold off; lia. }
    split; [reflexivity|]. split; [now exists (map (mps t (length sym - 1) off) mid)|]. split; [|split].
    - exists sym, off. cbn [fst snd]. split; [|reflexivity]. split; [assumption|unfold off; lia| |].
      + rewrite app_length, map_length, Lm. unfold off. lia.
      + intros i Hi. rewrite nth_error_app2 by (unfold off; lia). replace (off + i - L - length subs) with (i - 1) by (unfold off; lia).
        rewrite nth_error_map, Gm by assumption. reflexivity.
    - apply Forall_app. split.
      + eapply Forall_impl; [|exact Hs]. intros s. apply sub_ok_mono. rewrite app_length. lia.
      + apply Forall_map. apply Forall_forall. intros s Hin. apply In_nth_error in Hin as (i & Hi).
        assert (Li : i < length mid) by (apply nth_error_Some; congruence).
        specialize (Gm (S i)). replace (S i - 1) with i in Gm by lia. rewrite Gm in Hi by lia. injection Hi as <-.
        split; [reflexivity|]. apply Forall_forall. intros x Hx. cbn [trans mps] in Hx. now apply BT in Hx.
    - apply Forall_forall. apply BT.
  Qed.
  Lemma fold_trans_spec ts : forall trs subs, Forall (fun x => fst x < L /\ atom_ok (snd x)) ts -> subs_ok subs ->
    exists ess subs', foldM (u8_build_trans L) ts (trs, subs) = Ok (trs ++ concat ess, subs') /\ extends subs subs' /\
      Forall2 (covers L subs') ts ess /\ subs_ok subs' /\ Forall (Forall (fun x => fst x < L + length subs' /\ byte_ok (snd x))) ess.
  Proof using HL.
    induction ts as [|[t a] ts IH]; intros trs subs Hts Hs; cbn [foldM].
    - exists [], subs. cbn. rewrite app_nil_r. split; [reflexivity|]. split; [apply extends_refl|]. repeat split; auto.
    - inversion Hts as [|? ? [H1 H2] H3]; subst. cbn [fst snd] in *.
      destruct (build_trans_spec trs subs t a H2 H1 Hs) as (es & s1 & -> & X1 & C1 & O1 & F1). cbn [bind].
      destruct (IH (trs ++ es) s1 H3 O1) as (ess & s2 & -> & X2 & C2 & O2 & F2). exists (es :: ess), s2. cbn [concat].
      rewrite app_assoc. split; [reflexivity|]. split; [eapply extends_trans; eauto|]. split; [constructor; [eapply covers_ext; eauto|assumption]|].
      split; [assumption|]. constructor; [|assumption]. eapply Forall_impl; [|exact F1]. cbn. intros x [Hx Hb]. split; [|assumption].
      destruct X2 as [y ->]. rewrite app_length. lia.
  Qed.
  (** A state and its image. *)
  Definition image (subs : list (state range)) (s : state atom) (s' : state range) : Prop :=
    exists ess, s' = mkState (concat ess) (eps s) /\ Forall2 (covers L subs) (trans s) ess /\
      Forall (fun x => fst x < L + length subs /\ byte_ok (snd x)) (concat ess).
  Lemma image_ext subs subs' s s' : extends subs subs' -> image subs s s' -> image subs' s s'.
  Proof using HL.
    intros He (ess & H1 & H2 & H3). exists ess. split; [assumption|]. split.
    - clear - H2 He. induction H2; constructor; auto. eapply covers_ext; eauto.
    - eapply Forall_impl; [|exact H3]. cbn. intros x [Hx Hb]. split; [|assumption]. destruct He as [y ->]. rewrite app_length. lia.
  Qed.
  Lemma fold_states_spec n : forall states subs, Forall (fun s => Forall (fun x => fst x < L /\ atom_ok (snd x)) (trans s)) n -> subs_ok subs ->
    exists sts subs', foldM (fun '(states, subs) (s : state atom) =>
                   do p <- foldM (u8_build_trans L) (trans s) ([], subs);
                   let '(trs, subs) := p in
                   Ok (states ++ [mkState trs (eps s)], subs)) n (states, subs) = Ok (states ++ sts, subs') /\
      extends subs subs' /\ Forall2 (image subs') n sts /\ subs_ok subs'.
  Proof using HL.
    induction n as [|s n IH]; intros states subs Hn Hs; cbn [foldM].
    - exists [], subs. rewrite app_nil_r. split; [reflexivity|]. split; [apply extends_refl|]. split; [constructor|assumption].
    - inversion Hn as [|? ? H1 H2]; subst. destruct (fold_trans_spec (trans s) [] subs H1 Hs) as (ess & s1 & -> & X1 & C1 & O1 & F1). cbn [bind].
      destruct (IH (states ++ [mkState ([] ++ concat ess) (eps s)]) s1 H2 O1) as (sts & s2 & -> & X2 & C2 & O2).
      exists (mkState (concat ess) (eps s) :: sts), s2. rewrite <- app_assoc. split; [reflexivity|]. split; [eapply extends_trans; eauto|]. split; [|assumption].
      constructor; [|assumption]. apply image_ext with s1; [assumption|]. exists ess. split; [reflexivity|]. split; [assumption|].
      clear - F1. induction F1; cbn; [constructor|]. apply Forall_app. auto.
  Qed.
End Trans.

Lemma Forall2_at {A B} (R : A -> B -> Prop) l m i d e : Forall2 R l m -> i < length l -> R (nth i l d) (nth i m e).
Proof. intros H. revert i. induction H; intros [|i] Hi; cbn in *; try lia; auto. apply IHForall2. lia. Qed.
Section Build.
  Variable n : nfa atom.
  Hypothesis Hn : ok n.
  Hypothesis Hat : forall s t a, In (t, a) (trans (get n s)) -> atom_ok a.
  Notation L := (length n).

  (** The byte automaton in terms of the character automaton. *)
  Record built (B : nfa range) (subs : list (state range)) : Prop := {
    bu_len : length B = L + length subs + 1;
    bu_eps : forall s t e, In (t, e) (eps (get B s)) <-> In (t, e) (eps (get n s)) \/ (s = L - 1 /\ t = length B - 1 /\ e = ENone);
    bu_trans : forall s x, s < L -> In x (trans (get B s)) <->
      exists t a es, In (t, a) (trans (get n s)) /\ covers L subs (t, a) es /\ In x es /\ incl es (trans (get B s));
    bu_cover : forall s t a, In (t, a) (trans (get n s)) -> exists es, covers L subs (t, a) es /\ incl es (trans (get B s));
    bu_sub : forall i, i < length subs -> get B (L + i) = nth i subs empty_state;
    bu_last : get B (length B - 1) = empty_state;
    bu_subs : subs_ok L subs;
    bu_tgt : forall s x, s < L -> In x (trans (get B s)) -> fst x < L + length subs /\ byte_ok (snd x);
    (** the same in order *)
    bu_img : forall s, s < L -> exists ess, trans (get B s) = concat ess /\ Forall2 (covers L subs) (trans (get n s)) ess;
    bu_eps_eq : forall s, s < L -> eps (get B s) = eps (get n s) ++ (if s =? L - 1 then [(length B - 1, ENone)] else [])
  }.
  Lemma build_spec : exists B subs, u8_build n = Ok B /\ built B subs.
  Proof using Hn Hat.
    destruct (fin_last n) as [Hlast H1]; [apply Hn|]. unfold u8_build. assert (G : (1 <=? L) = true) by lia. rewrite G. cbn [guard bind].
    destruct (fold_states_spec L H1 n [] []) as (sts & subs & -> & _ & HF & HO).
    { apply Forall_forall. intros s Hs. apply Forall_forall. intros [t a] Hx. apply (In_nth _ _ empty_state) in Hs as (i & Hi & <-).
      change (nth i n empty_state) with (get n i) in Hx. split; cbn [fst snd]; [eapply wf_trans; eauto; apply Hn|eauto]. }
    { constructor. }
    cbn [bind app]. eexists _, subs. split; [reflexivity|].
    assert (LS : length sts = L). { clear - HF. induction HF; cbn; congruence. }
    set (B := modify _ _ _).
    assert (LB : length B = L + length subs + 1) by (unfold B; rewrite modify_length, !app_length, LS; cbn; lia).
    assert (E0 : forall s, get B s = if s =? L - 1 then push_eps (L + length subs, ENone) (get ((sts ++ subs) ++ [empty_state]) s) else get ((sts ++ subs) ++ [empty_state]) s).
    { intros s. unfold B, get. rewrite nth_modify. rewrite !app_length, LS. cbn [length].
      assert (X : (L - 1 <? L + length subs + 1) = true) by lia. rewrite X, andb_true_r. reflexivity. }
    assert (Gs : forall s, s < L -> exists s', get ((sts ++ subs) ++ [empty_state]) s = s' /\ image L subs (get n s) s').
    { intros s Hs. unfold get. rewrite app_nth1 by (rewrite app_length; lia). rewrite app_nth1 by lia. eexists; split; [reflexivity|].
      now apply Forall2_at. }
    assert (Gt : forall s, s < L -> trans (get B s) = trans (get ((sts ++ subs) ++ [empty_state]) s)).
    { intros s Hs. rewrite E0. destruct (s =? L - 1); reflexivity. }
    assert (Gsub : forall i, i < length subs -> get B (L + i) = nth i subs empty_state).
    { intros i Hi. rewrite E0. replace (L + i =? L - 1) with false by lia. unfold get. rewrite app_nth1 by (rewrite app_length; lia).
      rewrite app_nth2 by lia. f_equal. lia. }
    assert (Glast : get B (L + length subs) = empty_state).
    { rewrite E0. replace (L + length subs =? L - 1) with false by lia. unfold get. rewrite app_nth2 by (rewrite app_length; lia).
      rewrite app_length, LS, Nat.sub_diag. reflexivity. }
    assert (Gc : forall s t a, In (t, a) (trans (get n s)) -> exists es, covers L subs (t, a) es /\ incl es (trans (get B s))).
    { intros s t a Ha. assert (Hs := trans_range _ _ _ Ha). rewrite Gt by assumption. destruct (Gs s Hs) as (s' & -> & ess & -> & H2 & _).
      destruct (Forall2_In_l _ _ _ _ H2 Ha) as (es & H3 & H4). exists es. split; [assumption|]. cbn [trans]. intros x Hx. apply in_concat. eauto. }
    split; auto.
    - intros s t e. destruct (Nat.lt_ge_cases s L) as [Hs|Hs].
      + destruct (Gs s Hs) as (s' & Es & ess & -> & _). rewrite E0, Es. replace (length B - 1) with (L + length subs) by lia. destruct (Nat.eqb_spec s (L - 1)) as [->|Hne].
        * cbn [push_eps eps]. rewrite in_app_iff. cbn. split; [intros [H|[H|[]]]; [auto|injection H as <- <-; auto]|]. intros [H|(_ & -> & ->)]; auto.
        * cbn [eps]. intuition.
      + rewrite (get_over n s) by assumption. assert (X : eps (get B s) = []).
        { destruct (Nat.lt_ge_cases s (L + length subs)) as [H|H].
          - replace s with (L + (s - L)) by lia. rewrite Gsub by lia. unfold subs_ok in HO. rewrite Forall_forall in HO. apply HO. apply nth_In. lia.
          - destruct (Nat.eq_dec s (L + length subs)) as [->|Hne]; [now rewrite Glast|]. rewrite get_over by lia. reflexivity. }
        rewrite X. cbn. split; [intros []|]. intros [[]|(E & _)]. lia.
    - intros s x Hs. split.
      + intros Hx. assert (Gx := Gt s Hs). destruct (Gs s Hs) as (s' & Es & ess & -> & H2 & _). rewrite Gx, Es in Hx. cbn [trans] in Hx.
        apply in_concat in Hx as (es & H3 & H4). destruct (Forall2_In_r _ _ _ _ H2 H3) as ([t a] & H5 & H6). exists t, a, es.
        repeat split; auto. rewrite Gx, Es. cbn [trans]. intros y Hy. apply in_concat. eauto.
      + intros (t & a & es & _ & _ & H3 & H4). auto.
    - replace (length B - 1) with (L + length subs) by lia. exact Glast.
    - intros s x Hs Hx. rewrite Gt in Hx by assumption. destruct (Gs s Hs) as (s' & Es & ess & -> & _ & H3). rewrite Es in Hx. cbn [trans] in Hx.
      rewrite Forall_forall in H3. auto.
    - intros s Hs. rewrite Gt by assumption. destruct (Gs s Hs) as (s' & -> & ess & -> & H2 & _). exists ess. split; [reflexivity|assumption].
    - intros s Hs. destruct (Gs s Hs) as (s' & Es & ess & -> & _). rewrite E0, Es. replace (length B - 1) with (L + length subs) by lia.
      destruct (s =? L - 1); cbn; [reflexivity|now rewrite app_nil_r].
  Qed.

  Section Built.
    Variables (B : nfa range) (subs : list (state range)).
    Hypothesis HB : built B subs.
    Let Hl : 1 <= L.
    Proof using Hn. now destruct (fin_last n) as [_ H1]; [apply Hn|]. Qed.
    Lemma covers_symbol t a es : covers L subs (t, a) es -> (exists s, In (t, a) (trans (get n s))) ->
      exists sym off, block L subs t a sym off /\ es = map (mp t (length sym - 1) off) (trans (get sym 0)) /\ symbol_ok a sym /\ t < L.
    Proof using Hn Hat.
      intros (sym & off & H1 & H2) (s & Hs). exists sym, off. cbn [fst snd] in *. split; [assumption|]. split; [assumption|].
      destruct (u8_symbol_spec a (Hat _ _ _ Hs)) as (sym' & E & H). rewrite (bl_sym _ _ _ _ _ _ H1) in E. injection E as <-.
      split; [assumption|]. eapply wf_trans; eauto. apply Hn.
    Qed.
    Lemma block_state t a sym off i : block L subs t a sym off -> 1 <= i < length sym - 1 -> get B (off + i) = mps t (length sym - 1) off (get sym i) /\ L <= off + i < length B - 1.
    Proof using HB Hn Hat Hl.
      intros Hb Hi. assert (G := bl_get _ _ _ _ _ _ Hb i Hi). assert (O := bl_off _ _ _ _ _ _ Hb).
      assert (X : off + i - L < length subs) by (apply nth_error_Some; congruence).
      replace (off + i) with (L + (off + i - L)) by lia. rewrite (bu_sub _ _ HB) by assumption. assert (E := bu_len _ _ HB). split; [|lia].
      apply nth_error_nth with (d := empty_state) in G. exact G.
    Qed.
    Lemma built_from x W : path byte_check B x W (length B - 1) ->
      (x < L -> exists w, path acheck n x w (L - 1) /\ W = enc w) /\
      (forall t a sym off i, block L subs t a sym off -> symbol_ok a sym -> t < L -> 1 <= i < length sym - 1 -> x = off + i ->
         exists W1 w, W = W1 ++ enc w /\ path byte_check sym i W1 (length sym - 1) /\ path acheck n t w (L - 1)) /\
      (x = length B - 1 -> W = []).
    Proof using HB Hn Hat Hl.
      assert (LB := bu_len _ _ HB). remember (length B - 1) as z eqn:Ez. induction 1 as [x|x y e w u He Hp IH|x y r c w u He Hc Hp IH].
      - split; [|split]; auto.
        + intros Hx. lia.
        + intros t a sym off i Hb Hs Ht Hi E. destruct (block_state _ _ _ _ _ Hb Hi) as [_ X]. lia.
      - specialize (IH Ez). destruct IH as (IH1 & IH2 & IH3). split; [|split].
        + intros Hx. apply (bu_eps _ _ HB) in He as [He|(-> & -> & ->)].
          * destruct IH1 as (v & Hv & ->); [eapply wf_eps; eauto; apply Hn|]. exists (mark e ++ v). split; [eapply p_eps; eauto|]. now rewrite enc_app, enc_mark.
          * rewrite IH3 by congruence. exists []. split; [constructor|reflexivity].
        + intros t a sym off i Hb Hs Ht Hi E. destruct (block_state _ _ _ _ _ Hb Hi) as [X _]. subst x. rewrite X in He. destruct He.
        + intros ->. rewrite Ez, (bu_last _ _ HB) in He. destruct He.
      - specialize (IH Ez). destruct IH as (IH1 & IH2 & IH3).
        assert (Step : forall t a sym off i, block L subs t a sym off -> symbol_ok a sym -> t < L -> In (y, r) (map (mp t (length sym - 1) off) (trans (get sym i))) ->
          exists W1 v, IC c :: w = W1 ++ enc v /\ path byte_check sym i W1 (length sym - 1) /\ path acheck n t v (L - 1)).
        { intros t a sym off i Hb Hs Ht Hin. apply in_map_iff in Hin as ([j r'] & E & Hj). assert (Hg := so_tgt _ _ Hs _ _ _ Hj). unfold mp in E. cbn [fst snd] in E.
          destruct (Nat.eqb_spec j (length sym - 1)) as [Ej|Ej].
          - injection E as <- <-. destruct (IH1 Ht) as (v & Hv & ->). exists [IC c], v. split; [reflexivity|]. split; [|assumption].
            subst j. eapply path_sym1; eauto.
          - injection E as <- <-. destruct (IH2 t a sym off j Hb Hs Ht) as (W1 & v & -> & H1 & H2); [lia|lia|]. exists (IC c :: W1), v.
            split; [reflexivity|]. split; [|assumption]. eapply p_sym; eauto. }
        split; [|split].
        + intros Hx. apply (bu_trans _ _ HB) in He as (t & a & es & Ha & Hcv & Hin & _); [|assumption].
          destruct (covers_symbol _ _ _ Hcv (ex_intro _ x Ha)) as (sym & off & Hb & -> & Hs & Ht).
          destruct (Step t a sym off 0 Hb Hs Ht Hin) as (W1 & v & E & H1 & H2). apply (so_lang _ _ Hs) in H1 as (d & Hd & ->).
          exists (IC d :: v). split; [eapply p_sym; eauto|]. exact E.
        + intros t a sym off i Hb Hs Ht Hi E. destruct (block_state _ _ _ _ _ Hb Hi) as [X _]. subst x. rewrite X in He. cbn [mps trans] in He. eauto.
        + intros ->. rewrite Ez, (bu_last _ _ HB) in He. destruct He.
    Qed.
    Lemma block_path t a sym off i W1 : block L subs t a sym off -> symbol_ok a sym -> path byte_check sym i W1 (length sym - 1) ->
      1 <= i < length sym - 1 -> path byte_check B (off + i) W1 t.
    Proof using HB Hn Hat Hl.
      intros Hb Hs Hp. remember (length sym - 1) as z eqn:Ez. induction Hp as [i|i y e w u He Hp IH|i y r c w u He Hc Hp IH]; intros Hi.
      - lia.
      - rewrite (so_eps _ _ Hs) in He. destruct He.
      - assert (Hg := so_tgt _ _ Hs _ _ _ He). rewrite Ez in Hi. destruct (block_state _ _ _ _ _ Hb Hi) as [X _].
        assert (Hin : In (mp t (length sym - 1) off (y, r)) (trans (get B (off + i)))) by (rewrite X; cbn [mps trans]; now apply in_map).
        unfold mp in Hin. cbn [fst snd] in Hin. destruct (Nat.eqb_spec y (length sym - 1)) as [Ey|Ey].
        + assert (Ew : w = []).
          { subst y u. clear IH He Hin. inversion Hp as [|? ? ? ? ? H|? ? ? ? ? ? H]; subst; [reflexivity| |].
            - rewrite (so_eps _ _ Hs) in H. destruct H.
            - apply (so_tgt _ _ Hs) in H. lia. }
          subst w. eapply p_sym; eauto. constructor.
        + eapply p_sym; eauto. rewrite (Nat.add_comm y off). apply IH; [assumption|lia].
    Qed.
    Lemma built_to s w u : path acheck n s w u -> u = L - 1 -> path byte_check B s (enc w) (length B - 1).
    Proof using HB Hn Hat Hl.
      induction 1 as [s|s y e w u He Hp IH|s y a c w u He Hc Hp IH]; intros ->.
      - change (enc []) with (mark ENone ++ []). eapply p_eps; [|constructor]. apply (bu_eps _ _ HB). auto.
      - rewrite enc_app, enc_mark. eapply p_eps; [|now apply IH]. apply (bu_eps _ _ HB). auto.
      - destruct (bu_cover _ _ HB _ _ _ He) as (es & Hcv & Hincl).
        destruct (covers_symbol _ _ _ Hcv (ex_intro _ s He)) as (sym & off & Hb & -> & Hs & Ht).
        assert (P0 : path byte_check sym 0 (map IC (encode c)) (length sym - 1)) by (apply (so_lang _ _ Hs); eauto).
        assert (Hsl := so_len _ _ Hs). cbn [enc flat_map enc_item]. eapply path_app; [|now apply IH]. clear IH Hp.
        inversion P0 as [|? ? ? ? ? H|? y' r c' w' ? H1 H2 H3]; [lia| |].
        + rewrite (so_eps _ _ Hs) in H. destruct H.
        + assert (Hg := so_tgt _ _ Hs _ _ _ H1). assert (Hin : In (mp y (length sym - 1) off (y', r)) (trans (get B s))) by (apply Hincl; now apply in_map).
          unfold mp in Hin. cbn [fst snd] in Hin. destruct (Nat.eqb_spec y' (length sym - 1)) as [Ey|Ey].
          * assert (Ew : w' = []).
            { subst y'. clear - H3 Hs. inversion H3 as [|? ? ? ? ? H|? ? ? ? ? ? H]; subst; [reflexivity| |].
              - rewrite (so_eps _ _ Hs) in H. destruct H.
              - apply (so_tgt _ _ Hs) in H. lia. }
            subst w'. eapply p_sym; eauto. constructor.
          * eapply p_sym; eauto. rewrite (Nat.add_comm y' off). eapply block_path; eauto. lia.
    Qed.
    Lemma built_lang W : lang byte_check B W <-> exists w, lang acheck n w /\ W = enc w.
    Proof using HB Hn Hat Hl.
      split.
      - intros H. apply built_from in H as [H _]. apply H. lia.
      - intros (w & Hw & ->). eapply built_to; eauto.
    Qed.
    Lemma built_ok : ok B.
    Proof using HB Hn Hat Hl.
      assert (LB := bu_len _ _ HB). destruct (fin_last n) as [Hlast _]; [apply Hn|].
      assert (Hcase : forall s, s < L \/ eps (get B s) = []).
      { intros s. destruct (Nat.lt_ge_cases s L) as [H|H]; [auto|right]. destruct (eps (get B s)) as [|[t e] l] eqn:E; [reflexivity|].
        assert (X : In (t, e) (eps (get B s))) by (rewrite E; now left). apply (bu_eps _ _ HB) in X as [X|(-> & _)]; [|lia]. apply eps_range in X. lia. }
      split.
      - assert (X := bu_last _ _ HB). destruct (exists_last (l := B)) as (B' & s & E); [intros ->; cbn in LB; lia|]. exists B'. rewrite E in *.
        unfold get in X. rewrite app_length in X. cbn in X. rewrite app_nth2 in X by lia. replace (length B' + 1 - 1 - length B') with 0 in X by lia. cbn in X. now subst.
      - apply wf_intro.
        + intros s t e H. apply (bu_eps _ _ HB) in H as [H|(_ & -> & _)]; [|lia]. apply (wf_eps n) in H; [lia|apply Hn].
        + intros s t a H. destruct (Nat.lt_ge_cases s L) as [Hs|Hs]; [apply (bu_tgt _ _ HB) in H; cbn in H; [lia|assumption]|].
          assert (Hr := trans_range _ _ _ H). destruct (Nat.eq_dec s (length B - 1)) as [->|Hne]; [rewrite (bu_last _ _ HB) in H; destruct H|].
          replace s with (L + (s - L)) in H by lia. rewrite (bu_sub _ _ HB) in H by lia. assert (HO := bu_subs _ _ HB). unfold subs_ok in HO. rewrite Forall_forall in HO.
          destruct (HO (nth (s - L) subs empty_state)) as [_ HT]; [apply nth_In; lia|]. rewrite Forall_forall in HT. apply HT in H. cbn in H. lia.
      - apply Forall_forall. intros st Hst. apply (In_nth _ _ empty_state) in Hst as (s & Hs & <-). change (nth s B empty_state) with (get B s).
        destruct (Hcase s) as [H|H]; [|now right]. destruct (Nat.eq_dec s (L - 1)) as [->|Hne].
        + left. destruct (trans (get B (L - 1))) as [|x l] eqn:E; [reflexivity|]. assert (X : In x (trans (get B (L - 1)))) by (rewrite E; now left).
          apply (bu_trans _ _ HB) in X as (t & a & es & X & _); [|assumption]. rewrite Hlast in X. destruct X.
        + assert (Hp : pure (get n s)). { assert (Hp := ok_pure n Hn). rewrite Forall_forall in Hp. apply Hp. now apply get_In. }
          destruct Hp as [Hp|Hp].
          * left. destruct (trans (get B s)) as [|x l] eqn:E; [reflexivity|]. assert (X : In x (trans (get B s))) by (rewrite E; now left).
            apply (bu_trans _ _ HB) in X as (t & a & es & X & _); [|assumption]. rewrite Hp in X. destruct X.
          * right. destruct (eps (get B s)) as [|[t e] l] eqn:E; [reflexivity|]. assert (X : In (t, e) (eps (get B s))) by (rewrite E; now left).
            apply (bu_eps _ _ HB) in X as [X|(? & _)]; [|lia]. rewrite Hp in X. destruct X.
      - destruct (ok_acy n Hn) as (h & Hh). exists (fun x => if x <? L then S (h x) else 0). apply ranked_get. intros s t H.
        apply (bu_eps _ _ HB) in H as [H|(-> & -> & _)].
        + assert (Hs := eps_range _ _ _ H). assert (Ht : t < L) by (eapply wf_eps; eauto; apply Hn). rewrite ranked_get in Hh. apply Hh in H.
          replace (s <? L) with true by lia. replace (t <? L) with true by lia. lia.
        + replace (length B - 1 <? L) with false by lia. replace (L - 1 <? L) with true by lia. lia.
    Qed.
    Lemma built_labels s t r : In (t, r) (trans (get B s)) -> byte_ok r.
    Proof using HB Hn Hat Hl.
      assert (LB := bu_len _ _ HB). intros H. destruct (Nat.lt_ge_cases s L) as [Hs|Hs]; [apply (bu_tgt _ _ HB) in H; cbn in H; [tauto|assumption]|].
      assert (Hr := trans_range _ _ _ H). destruct (Nat.eq_dec s (length B - 1)) as [->|Hne]; [rewrite (bu_last _ _ HB) in H; destruct H|].
      replace s with (L + (s - L)) in H by lia. rewrite (bu_sub _ _ HB) in H by lia. assert (HO := bu_subs _ _ HB). unfold subs_ok in HO. rewrite Forall_forall in HO.
      destruct (HO (nth (s - L) subs empty_state)) as [_ HT]; [apply nth_In; lia|]. rewrite Forall_forall in HT. apply HT in H. apply H.
    Qed.
  End Built.

  (** [U8NFA::new] on a good automaton. *)
  Theorem u8_new_refined : exists m B, u8_new n = Ok m /\ refined byte_check B m /\
    (forall W, lang byte_check B W <-> exists w, lang acheck n w /\ W = enc w) /\
    (forall s t r, In (t, r) (trans (get B s)) -> byte_ok r).
  Proof using Hn Hat.
    destruct build_spec as (B & subs & E & HB). unfold u8_new, u8_new_loop_opt. rewrite E. cbn [bind].
    destruct (finalize_spec byte_check range_eqb (fun _ => True)) with (n := B) as (m & Em & Hm).
    - intros a b _ _ H. apply range_eqb_eq in H. now subst.
    - intros ? ? ? ?. exact I.
    - eapply built_ok; eauto.
    - assert (LB := bu_len _ _ HB). destruct (fin_last n) as [_ H1]; [apply Hn|]. lia.
    - exists m, B. split; [exact Em|]. split; [exact Hm|]. split; [intros W; eapply built_lang; eauto|]. intros s t r H. eapply built_labels; eauto.
  Qed.
End Build.
