(** Every state of the byte automaton lies on a way from the first to the last one, if this is so of the character automaton and every edge can be taken. *)
From Verif Require Export PTrimBuild PStrip PU8.
From Coq Require Import ZifyBool ZifyNat.
Open Scope nat_scope.
Open Scope list_scope.
Set Default Proof Using "Type".

(** ** Tries *)
Record leafy (t : trie) : Prop := {
  lf_len : 1 <= length t;
  lf_up : forall k j r, In (Some j, r) (nth k t []) -> k < j < length t;
  lf_at : forall k, k < length t -> exists p, at_ t k p }.
Lemma at_mono t t' : (forall k x, In x (nth k t []) -> In x (nth k t' [])) -> forall k p, at_ t k p -> at_ t' k p.
Proof. intros H k p Hk. induction Hk as [|k p j r Hk IH Hj]; [constructor|]. econstructor; eauto. Qed.
Lemma nth_grow {B} k (t : list (list B)) : nth k (t ++ [[]]) [] = nth k t [].
Proof.
  destruct (Nat.lt_ge_cases k (length t)) as [H|H]; [now apply app_nth1|]. rewrite app_nth2 by assumption. rewrite (nth_overflow t) by assumption.
  destruct (k - length t) as [|[|]]; reflexivity.
Qed.
Lemma insert_leafy rest : forall t k t', leafy t -> k < length t -> (forall i, 1 <= i -> i < length t -> nth i t [] = [] -> i = k /\ rest <> []) ->
  trie_insert t (Some k) rest = Ok t' -> leafy t' /\ forall i, 1 <= i -> i < length t' -> nth i t' [] <> [].
Proof.
  induction rest as [|r rest IH]; intros t k t' Ht Hk He; cbn [trie_insert].
  - intros E. injection E as <-. split; [assumption|]. intros i H1 H2 H3. now apply He in H3.
  - destruct (find (fun x => range_eqb (snd x) r) (nth k t [])) as [[nx r0]|] eqn:Ef.
    + apply find_some in Ef as [Hin _]. destruct nx as [nx|].
      * intros E. apply (IH t nx t') in E; auto; [apply (lf_up _ Ht) in Hin; lia|]. intros i H1 H2 H3. destruct (He i H1 H2 H3) as [-> _]. rewrite H3 in Hin. destruct Hin.
      * destruct rest as [|r' rest]; cbn [trie_insert]; [|discriminate]. intros E. injection E as <-. split; [assumption|]. intros i H1 H2 H3. destruct (He i H1 H2 H3) as [-> _]. rewrite H3 in Hin. destruct Hin.
    + destruct rest as [|r' rest].
      * intros E. injection E as <-.
        assert (HN : forall i, nth i (modify k (fun ts => ts ++ [(None, r)]) t) [] = if i =? k then nth i t [] ++ [(None, r)] else nth i t []) by (intros i; now rewrite nth_push).
        split; [split|].
        -- rewrite modify_length. apply Ht.
        -- intros i j x Hx. rewrite modify_length. apply (lf_up _ Ht i j x). rewrite HN in Hx. destruct (i =? k); [|assumption]. apply in_app_or in Hx as [Hx|[Hx|[]]]; [assumption|discriminate Hx].
        -- intros i Hi. rewrite modify_length in Hi. destruct (lf_at _ Ht i Hi) as (p & Hp). exists p. eapply at_mono; [|exact Hp]. intros j x Hx. rewrite HN. destruct (j =? k); [apply in_or_app; now left|assumption].
        -- intros i H1 H2 H3. rewrite modify_length in H2. rewrite HN in H3. destruct (Nat.eqb_spec i k) as [->|Hne]; [now destruct (nth k t [])|]. apply He in H3; [lia|assumption|assumption].
      * set (t1 := modify k (fun ts => ts ++ [(Some (length t), r)]) (t ++ [[]])).
        assert (HL : length t1 = S (length t)) by (unfold t1; rewrite modify_length, app_length; cbn; lia).
        assert (HN : forall i, nth i t1 [] = if i =? k then nth i t [] ++ [(Some (length t), r)] else nth i t []) by (intros i; unfold t1; rewrite nth_push by (rewrite app_length; lia); now rewrite nth_grow).
        assert (HM : forall i x, In x (nth i t []) -> In x (nth i t1 [])) by (intros j x Hx; rewrite HN; destruct (j =? k); [apply in_or_app; now left|assumption]).
        intros E. apply (IH t1 (length t) t') in E; auto; [|lia|].
        -- split.
           ++ lia.
           ++ intros i j x Hx. rewrite HN in Hx. rewrite HL. destruct (Nat.eqb_spec i k) as [->|Hne]; [apply in_app_or in Hx as [Hx|[Hx|[]]]; [|injection Hx as <- _; lia]|]; apply (lf_up _ Ht) in Hx; lia.
           ++ intros i Hi. destruct (Nat.eq_dec i (length t)) as [->|Hne].
              ** destruct (lf_at _ Ht k Hk) as (p & Hp). exists (p ++ [r]). apply at_step with k; [eapply at_mono; eauto|]. rewrite HN, Nat.eqb_refl. apply in_or_app. right. now left.
              ** destruct (lf_at _ Ht i) as (p & Hp); [lia|]. exists p. eapply at_mono; eauto.
        -- intros i H1 H2 H3. rewrite HL in H2. rewrite HN in H3. destruct (Nat.eqb_spec i k) as [->|Hne]; [now destruct (nth k t [])|]. destruct (Nat.eq_dec i (length t)) as [->|Hne']; [split; [reflexivity|discriminate]|].
           apply He in H3; [lia|assumption|lia].
Qed.
Lemma fold_leafy seqs : forall t t', leafy t -> (forall i, 1 <= i -> i < length t -> nth i t [] <> []) ->
  foldM (fun st s => trie_insert st (Some 0) s) seqs t = Ok t' -> leafy t' /\ forall i, 1 <= i -> i < length t' -> nth i t' [] <> [].
Proof.
  induction seqs as [|s seqs IH]; intros t t' Ht Hn; cbn [foldM].
  - intros E. injection E as <-. auto.
  - intros E. apply bind_ok in E as (t1 & E1 & E2). apply insert_leafy in E1 as [H1 H2]; auto; [|apply Ht|].
    + eapply IH; eauto.
    + intros i X1 X2 X3. now apply Hn in X3.
Qed.
Lemma symbol_auto_trimmed a sym : atom_ok a -> u8_symbol a = Ok sym -> (exists c, acheck a c = true) -> trimmed sym.
Proof.
  intros Ha E (c & Hc). destruct (u8_symbol_spec a Ha) as (sym' & E' & Hs). assert (sym' = sym) as -> by congruence. clear E'.
  assert (P0 : path byte_check sym 0 (map IC (encode c)) (length sym - 1)) by (apply (so_lang _ _ Hs); eauto). apply path_conn in P0.
  unfold u8_symbol in E. apply bind_ok in E as (t & E1 & E2). injection E2 as <-. unfold symbol_trie in E1. apply bind_ok in E1 as (ls & _ & E1).
  apply fold_leafy in E1 as [Ht Hn].
  2: { split; [cbn; lia| |].
       - intros [|[|k]] j r [].
       - intros k Hk. cbn in Hk. assert (k = 0) as -> by lia. exists []. constructor. }
  2: { cbn. intros; lia. }
  change (map _ t ++ [empty_state]) with (of_trie t) in *. assert (HL := of_trie_length t). rewrite HL in *. cbn [Nat.sub] in P0. rewrite Nat.sub_0_r in P0.
  assert (H0 : forall k p, at_ t k p -> conn (of_trie t) 0 k).
  { intros k p Hp. induction Hp as [|k p j r Hk IH Hj]; [apply conn_refl|]. eapply conn_trans; [exact IH|]. eapply conn_step; [|apply conn_refl]. apply succ_all_trans with r. apply of_trie_trans. now right. }
  assert (H1 : forall d k, length t - k <= d -> 1 <= k -> k <= length t -> conn (of_trie t) k (length t)).
  { induction d as [|d IH]; intros k Hd Hk Hk2; [replace k with (length t) by lia; apply conn_refl|]. destruct (Nat.eq_dec k (length t)) as [->|Hne]; [apply conn_refl|].
    specialize (Hn k Hk ltac:(lia)). destruct (nth k t []) as [|[[j|] r] l] eqn:E; [congruence| |].
    - assert (Hj : In (Some j, r) (nth k t [])) by (rewrite E; now left). assert (Hu := lf_up _ Ht _ _ _ Hj). eapply conn_step; [apply succ_all_trans with r; apply of_trie_trans; right; exact Hj|]. apply IH; lia.
    - eapply conn_step; [|apply conn_refl]. apply succ_all_trans with r. apply of_trie_trans. left. split; [reflexivity|]. rewrite E. now left. }
  intros k Hk. rewrite HL in *. cbn [Nat.sub]. rewrite Nat.sub_0_r. split.
  - destruct (Nat.eq_dec k (length t)) as [->|Hne]; [assumption|]. destruct (lf_at _ Ht k) as (p & Hp); [lia|]. eauto.
  - destruct (Nat.eq_dec k 0) as [->|Hne]; [assumption|]. apply (H1 (length t)); lia.
Qed.

(** ** Where the added states come from *)
(** The added state number [i] belongs to the symbol automaton of an edge [(t, a)] whose first bytes are among [trs]. *)
Definition owned (L : nat) (subs : list (state range)) (ts : list (nat * atom)) (trs : list (nat * range)) (i : nat) : Prop :=
  exists t a sym off j, In (t, a) ts /\ block L subs t a sym off /\ incl (map (mp t (length sym - 1) off) (trans (get sym 0))) trs /\ 1 <= j < length sym - 1 /\ L + i = off + j.
Lemma owned_ext L subs subs' ts ts' trs trs' i : extends subs subs' -> incl ts ts' -> incl trs trs' -> owned L subs ts trs i -> owned L subs' ts' trs' i.
Proof.
  intros H1 H2 H3 (t & a & sym & off & j & X1 & X2 & X3 & X4). exists t, a, sym, off, j. split; [auto|]. split; [eapply block_ext; eauto|]. split; [|assumption]. eapply incl_tran; eauto.
Qed.
Section Owned.
  Variable L : nat.
  Hypothesis HL : 1 <= L.
  Lemma build_trans_owned trs subs t a trs' subs' : atom_ok a -> t < L -> subs_ok L subs -> u8_build_trans L (trs, subs) (t, a) = Ok (trs', subs') ->
    extends subs subs' /\ subs_ok L subs' /\ incl trs trs' /\ forall i, length subs <= i -> i < length subs' -> owned L subs' [(t, a)] trs' i.
  Proof using HL.
    intros Ha Ht Hs E. destruct (build_trans_spec L HL trs subs t a Ha Ht Hs) as (es & s1 & E1 & X1 & (sym & off & Hb & Ees) & O1 & _). assert (s1 = subs' /\ trs' = trs ++ es) as [-> ->] by (split; congruence).
    split; [assumption|]. split; [assumption|]. split; [apply incl_appl, incl_refl|]. cbn [fst snd] in *.
    intros i H1 H2. destruct (u8_symbol_spec a Ha) as (sym' & E' & Hsym). assert (sym' = sym) as -> by (rewrite (bl_sym _ _ _ _ _ _ Hb) in E'; congruence). clear E'.
    assert (Hsl := so_len _ _ Hsym).
    (* the block of this edge is the last one *)
    unfold u8_build_trans in E. cbn [fst snd] in E. rewrite (bl_sym _ _ _ _ _ _ Hb) in E. cbn [bind] in E. set (mid := firstn (length sym - 2) (skipn 1 sym)) in E. set (es0 := map _ (trans (get sym 0))) in E. injection E as E2 E3. unfold mid in E3. clear mid. unfold es0 in E2. clear es0.
    set (off' := L + length subs - 1) in *. exists t, a, sym, off', (L + i - off').
    assert (Lm : length subs' = length subs + (length sym - 2)) by (rewrite <- E3, app_length, map_length, firstn_length, skipn_length; lia).
    split; [now left|]. split; [|split; [|unfold off'; lia]].
    - split; [apply (bl_sym _ _ _ _ _ _ Hb)|unfold off'; lia|unfold off'; lia|]. intros k Hk. rewrite <- E3. rewrite nth_error_app2 by (unfold off'; lia).
      replace (off' + k - L - length subs) with (k - 1) by (unfold off'; lia). rewrite nth_error_map.
      assert (F : forall {A} k i (l : list A), i < k -> nth_error (firstn k l) i = nth_error l i).
      { clear. intros A k. induction k as [|k IH]; intros [|i] [|x l] H; cbn; try lia; auto. apply IH. lia. }
      rewrite F by lia. destruct sym as [|s0 sym']; [cbn in Hsl; lia|]. cbn [skipn]. destruct k as [|k]; [lia|]. replace (S k - 1) with k by lia.
      cbn [length] in Hk. rewrite nth_error_nth' with (d := empty_state) by lia. reflexivity.
    - apply app_inv_head in E2. rewrite <- E2. apply incl_appr. intros y Hy. exact Hy.
  Qed.
  Lemma fold_trans_owned ts : forall trs subs trs' subs', Forall (fun x => fst x < L /\ atom_ok (snd x)) ts -> subs_ok L subs -> foldM (u8_build_trans L) ts (trs, subs) = Ok (trs', subs') ->
    extends subs subs' /\ subs_ok L subs' /\ incl trs trs' /\ forall i, length subs <= i -> i < length subs' -> owned L subs' ts trs' i.
  Proof using HL.
    induction ts as [|[t a] ts IH]; intros trs subs trs' subs' Hts Hs; cbn [foldM].
    - intros E. injection E as <- <-. split; [apply extends_refl|]. split; [assumption|]. split; [apply incl_refl|]. intros; lia.
    - inversion Hts as [|? ? [T1 T2] T3]; subst. cbn [fst snd] in *. intros E. apply bind_ok in E as ([trs1 subs1] & E1 & E2).
      apply build_trans_owned in E1 as (X1 & X2 & X3 & X4); auto. apply IH in E2 as (Y1 & Y2 & Y3 & Y4); auto.
      split; [eapply extends_trans; eauto|]. split; [assumption|]. split; [eapply incl_tran; eauto|]. intros i H1 H2.
      destruct (Nat.lt_ge_cases i (length subs1)).
      + eapply owned_ext; [exact Y1| |exact Y3|apply X4; assumption]. intros x [<-|[]]. now left.
      + eapply owned_ext; [apply extends_refl| |apply incl_refl|apply Y4; assumption]. apply incl_tl, incl_refl.
  Qed.
  Lemma fold_states_owned n : forall states subs states' subs', Forall (fun s => Forall (fun x => fst x < L /\ atom_ok (snd x)) (trans s)) n -> subs_ok L subs ->
    foldM (fun '(states, subs) (s : state atom) =>
                   do p <- foldM (u8_build_trans L) (trans s) ([], subs);
                   let '(trs, subs) := p in
                   Ok (states ++ [mkState trs (eps s)], subs)) n (states, subs) = Ok (states', subs') ->
    extends subs subs' /\ subs_ok L subs' /\ exists sts, states' = states ++ sts /\ length sts = length n /\
      forall i, length subs <= i -> i < length subs' -> exists s, s < length n /\ owned L subs' (trans (get n s)) (trans (get sts s)) i.
  Proof using HL.
    induction n as [|s n IH]; intros states subs states' subs' Hn Hs; cbn [foldM].
    - intros E. injection E as <- <-. split; [apply extends_refl|]. split; [assumption|]. exists []. rewrite app_nil_r. split; [reflexivity|]. split; [reflexivity|]. intros; lia.
    - inversion Hn as [|? ? N1 N2]; subst. intros E. apply bind_ok in E as ([st1 subs1] & E1 & E2). apply bind_ok in E1 as ([trs1 subs1'] & E0 & E1). injection E1 as <- ->.
      apply fold_trans_owned in E0 as (X1 & X2 & X3 & X4); auto. apply IH in E2 as (Y1 & Y2 & sts & -> & Y3 & Y4); auto.
      split; [eapply extends_trans; eauto|]. split; [assumption|]. exists (mkState trs1 (eps s) :: sts). rewrite <- app_assoc. split; [reflexivity|]. split; [cbn; lia|]. intros i H1 H2.
      destruct (Nat.lt_ge_cases i (length subs1)) as [Hi|Hi].
      + exists 0. split; [cbn; lia|]. cbn. eapply owned_ext; [exact Y1|apply incl_refl|apply incl_refl|apply X4; assumption].
      + destruct (Y4 i Hi H2) as (k & Hk & Ho). exists (S k). split; [cbn; lia|]. exact Ho.
  Qed.
End Owned.

Section Bytes.
  Variable n : nfa atom.
  Hypothesis Hn : ok n.
  Hypothesis Hat : forall s t a, In (t, a) (trans (get n s)) -> atom_ok a.
  Notation L := (length n).
  Lemma build_owned B subs : u8_build n = Ok B -> PU8.built n B subs -> forall i, i < length subs -> exists s, s < L /\ owned L subs (trans (get n s)) (trans (get B s)) i.
  Proof using Hn Hat.
    intros E HB. destruct (fin_last n) as [Hlast H1]; [apply Hn|]. unfold u8_build in E. assert (G : (1 <=? L) = true) by lia. rewrite G in E. cbn [guard bind] in E.
    apply bind_ok in E as ([sts0 subs'] & E1 & E2). apply fold_states_owned in E1 as (_ & HO & sts & E & LS & Ho); auto.
    2: { apply Forall_forall. intros s Hs. apply Forall_forall. intros [t a] Hx. apply (In_nth _ _ empty_state) in Hs as (i & Hi & <-).
         change (nth i n empty_state) with (get n i) in Hx. split; cbn [fst snd]; [eapply wf_trans; eauto; apply Hn|eauto]. }
    2: constructor.
    cbn [app] in E. subst sts0. injection E2 as E2.
    assert (LB : length B = L + length subs' + 1) by (rewrite <- E2, modify_length, !app_length, LS; cbn; lia).
    assert (E0 : forall s, get B s = if s =? L - 1 then push_eps (L + length subs', ENone) (get ((sts ++ subs') ++ [empty_state]) s) else get ((sts ++ subs') ++ [empty_state]) s).
    { intros s. rewrite <- E2. unfold get. rewrite nth_modify. rewrite !app_length, LS. cbn [length].
      assert (X : (L - 1 <? L + length subs' + 1) = true) by lia. rewrite X, andb_true_r. reflexivity. }
    assert (Es : subs' = subs).
    { assert (LB' := bu_len _ _ _ HB). apply nth_ext with (d := empty_state) (d' := empty_state); [lia|]. intros i Hi. rewrite <- (bu_sub _ _ _ HB) by lia.
      rewrite E0. replace (L + i =? L - 1) with false by lia. unfold get. rewrite app_nth1 by (rewrite app_length; lia). rewrite app_nth2 by lia. f_equal. lia. }
    subst subs'. intros i Hi. destruct (Ho i) as (s & Hs & Hw); [cbn; lia|assumption|]. exists s. split; [assumption|].
    assert (Gt : trans (get B s) = trans (get sts s)).
    { rewrite E0. unfold get. rewrite app_nth1 by (rewrite app_length; lia). rewrite app_nth1 by lia. destruct (s =? L - 1); reflexivity. }
    now rewrite Gt.
  Qed.

  Section Ways.
    Variables (B : nfa range) (subs : list (state range)).
    Hypothesis HE : u8_build n = Ok B.
    Hypothesis HB : PU8.built n B subs.
    Hypothesis Hc : forall s t a, In (t, a) (trans (get n s)) -> exists c, acheck a c = true.
    (** The states of the symbol automaton, in the byte automaton; the first one is [s]. *)
    Definition spot (s t : nat) (sym : nfa range) (off i : nat) : nat := if i =? length sym - 1 then t else if i =? 0 then s else off + i.
    Lemma spot_conn s t a sym off : s < L -> block L subs t a sym off -> symbol_ok a sym -> incl (map (mp t (length sym - 1) off) (trans (get sym 0))) (trans (get B s)) ->
      forall i j, i < length sym -> conn sym i j -> conn B (spot s t sym off i) (spot s t sym off j).
    Proof using Hn Hat HB Hc HE.
      intros Hs Hb Hsym Hi i j Hl H. apply (conn_map sym B (spot s t sym off)); [|assumption]. clear i j Hl H. intros i j H. right.
      apply succ_all_inv in H as [(e & H)|(r & H)]; [rewrite (so_eps _ _ Hsym) in H; destruct H|]. assert (Hg := so_tgt _ _ Hsym _ _ _ H).
      apply succ_all_trans with r. assert (EM : mp t (length sym - 1) off (j, r) = (spot s t sym off j, r)).
      { unfold mp, spot. cbn [fst snd]. destruct (j =? length sym - 1); [reflexivity|]. replace (j =? 0) with false by lia. f_equal. lia. }
      assert (HI : In (spot s t sym off j, r) (map (mp t (length sym - 1) off) (trans (get sym i)))) by (rewrite <- EM; now apply in_map).
      unfold spot at 2. replace (i =? length sym - 1) with false by lia. destruct (Nat.eqb_spec i 0) as [->|Hne]; [now apply Hi|].
      destruct (block_state n Hn Hat B subs HB t a sym off i Hb) as [X _]; [lia|]. rewrite X. exact HI.
    Qed.
    Lemma edge_conn s t : In t (succ_all n s) -> conn B s t.
    Proof using Hn Hat HB Hc HE.
      intros H. apply succ_all_inv in H as [(e & H)|(a & H)].
      - eapply conn_step; [|apply conn_refl]. apply succ_all_eps with e. apply (bu_eps _ _ _ HB). now left.
      - destruct (bu_cover _ _ _ HB _ _ _ H) as (es & Hcv & Hincl).
        destruct (covers_symbol n Hn Hat subs t a es Hcv (ex_intro _ s H)) as (sym & off & Hb & -> & Hs & Ht). assert (Hsl := so_len _ _ Hs).
        assert (HT : trimmed sym) by (eapply symbol_auto_trimmed; [eapply Hat; exact H|apply (bl_sym _ _ _ _ _ _ Hb)|eapply Hc; exact H]).
        destruct (HT 0) as [_ H0]; [lia|]. apply (spot_conn s t a sym off) in H0; auto; [|eapply trans_range; eauto|lia].
        unfold spot in H0. rewrite !Nat.eqb_refl in H0. replace (0 =? length sym - 1) with false in H0 by lia. exact H0.
    Qed.
    Lemma char_conn s t : conn n s t -> conn B s t.
    Proof using Hn Hat HB Hc HE. intros H. induction H as [s|s t u H1 H2 IH]; [apply conn_refl|]. eapply conn_trans; [apply edge_conn; exact H1|exact IH]. Qed.
    Lemma bytes_trimmed : trimmed n -> trimmed B.
    Proof using Hn Hat HB Hc HE.
      intros HT. assert (LB := bu_len _ _ _ HB). destruct (fin_last n) as [_ H1]; [apply Hn|].
      assert (HL : conn B (L - 1) (length B - 1)).
      { eapply conn_step; [|apply conn_refl]. apply succ_all_eps with ENone. apply (bu_eps _ _ _ HB). auto. }
      assert (HC : forall s, s < L -> conn B 0 s /\ conn B s (length B - 1)).
      { intros s Hs. destruct (HT s Hs) as [T1 T2]. split; [now apply char_conn|]. eapply conn_trans; [apply char_conn; exact T2|exact HL]. }
      intros s Hs. destruct (Nat.lt_ge_cases s L) as [Hsl|Hsl]; [auto|]. destruct (Nat.eq_dec s (length B - 1)) as [->|Hne].
      - split; [|apply conn_refl]. apply HC. lia.
      - destruct (build_owned B subs HE HB (s - L)) as (s0 & Hs0 & t & a & sym & off & j & X1 & X2 & X3 & X4 & X5); [lia|].
        destruct (u8_symbol_spec a (Hat _ _ _ X1)) as (sym' & E' & Hsym). assert (sym' = sym) as -> by (rewrite (bl_sym _ _ _ _ _ _ X2) in E'; congruence). clear E'.
        assert (HTs : trimmed sym) by (eapply symbol_auto_trimmed; [eapply Hat; exact X1|apply (bl_sym _ _ _ _ _ _ X2)|eapply Hc; exact X1]).
        destruct (HTs j) as [J1 J2]; [lia|]. apply (spot_conn s0 t a sym off) in J1; auto; [|lia]. apply (spot_conn s0 t a sym off) in J2; auto; [|lia].
        unfold spot in J1, J2. rewrite !Nat.eqb_refl in J2. replace (j =? length sym - 1) with false in * by lia. replace (j =? 0) with false in * by lia. replace (0 =? length sym - 1) with false in J1 by lia. cbn [Nat.eqb] in J1.
        replace s with (off + j) by lia. split; [eapply conn_trans; [apply (HC s0 Hs0)|exact J1]|]. eapply conn_trans; [exact J2|]. apply (HC t). eapply wf_trans; eauto. apply Hn.
    Qed.
  End Ways.
End Bytes.
