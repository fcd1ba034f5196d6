(** The byte automaton prefers the encoding of what the character automaton prefers. *)
From Verif Require Export PPrioWorking PByte.
From Verif Require Export PPrio.
From Coq Require Import ZifyBool ZifyNat ZifyN.
Open Scope nat_scope.
Open Scope list_scope.
Set Default Proof Using "Type".

Section Byte.
  Variable T : list N.
  Notation T' := (utf8 T).
  Definition bpos (j : nat) : nat := length (utf8 (firstn j T)).
  Lemma utf8_app a b : utf8 (a ++ b) = utf8 a ++ utf8 b. Proof. apply flat_map_app. Qed.
  Lemma firstn_nth {A} (l : list A) j c : nth_error l j = Some c -> firstn (S j) l = firstn j l ++ [c].
  Proof. revert j; induction l as [|x l IH]; intros [|j] H; try discriminate; [now injection H as ->|]. change (x :: firstn (S j) l = x :: (firstn j l ++ [c])). f_equal. now apply IH. Qed.
  Lemma bpos_S j c : nth_error T j = Some c -> bpos (S j) = bpos j + length (encode c).
  Proof. intros H. unfold bpos. rewrite (firstn_nth T j c H), utf8_app, app_length. cbn. now rewrite app_nil_r. Qed.
  Lemma bpos_le j : bpos j <= length T'.
  Proof. unfold bpos. rewrite <- (firstn_skipn j T) at 2. rewrite utf8_app, app_length. lia. Qed.
  Lemma bpos_end : bpos (length T) = length T'.
  Proof. unfold bpos. now rewrite firstn_all. Qed.
  Lemma skipn_bpos j : skipn (bpos j) T' = utf8 (skipn j T).
  Proof. unfold bpos. rewrite <- (firstn_skipn j T) at 2. rewrite utf8_app, skipn_app, skipn_all, Nat.sub_diag. reflexivity. Qed.
  Lemma bpos_0 j : j <= length T -> bpos j = 0 <-> j = 0.
  Proof.
    intros Hj. unfold bpos. split; [|intros ->; reflexivity]. intros H. apply length_zero_iff_nil in H. apply utf8_nil in H.
    apply (f_equal (@length N)) in H. rewrite firstn_length in H. cbn in H. lia.
  Qed.
  Lemma bpos_last j : j <= length T -> bpos j = length T' <-> j = length T.
  Proof.
    intros Hj. split; [|intros ->; apply bpos_end]. intros H. assert (E := skipn_bpos j). rewrite H, skipn_all in E. symmetry in E. apply utf8_nil in E.
    apply (f_equal (@length N)) in E. rewrite skipn_length in E. cbn in E. lia.
  Qed.
  Lemma on_bpos j e : j <= length T -> on T' (bpos j) e = on T j e.
  Proof.
    intros Hj. destruct e; cbn; try reflexivity.
    - destruct (Nat.eqb_spec j 0) as [->|H]; [reflexivity|]. apply Nat.eqb_neq. rewrite bpos_0; assumption.
    - destruct (Nat.eqb_spec j (length T)) as [->|H]; [rewrite bpos_end; apply Nat.eqb_refl|]. apply Nat.eqb_neq. rewrite bpos_last; assumption.
  Qed.
  (** A character read from its bytes. *)
  Lemma reads_encode j c : nth_error T j = Some c -> reads T' (bpos j) (map IC (encode c)) (bpos (S j)).
  Proof.
    intros H. rewrite (bpos_S j c H). assert (B := bpos_le (S j)). rewrite (bpos_S j c H) in B. apply reads_IC; [|lia].
    rewrite skipn_bpos, (nth_skipn T j c H). cbn. change (flat_map encode (skipn (S j) T)) with (utf8 (skipn (S j) T)).
    rewrite firstn_app, Nat.sub_diag, firstn_all. cbn. now rewrite app_nil_r.
  Qed.
  Lemma encode_reads j d q : reads T' (bpos j) (map IC (encode d)) q -> nth_error T j = Some d /\ q = bpos (S j).
  Proof.
    intros H. assert (B := reads_le _ _ _ _ H). apply reads_chars in H as [H1 H2]. rewrite chars_IC in H1, H2. rewrite skipn_bpos in H2.
    destruct (skipn j T) as [|c r] eqn:E.
    - cbn in H2. rewrite firstn_nil in H2. now apply encode_nonempty in H2.
    - destruct (skipn_nth T j c r E) as [Hc _]. assert (X : c = d).
      { assert (E2 : encode d ++ skipn (q - bpos j) (utf8 (c :: r)) = encode c ++ utf8 r) by (rewrite H2 at 1; rewrite firstn_skipn; reflexivity).
        apply encode_app_inj in E2 as [-> _]. reflexivity. }
      subst d. split; [assumption|]. now rewrite (bpos_S j c Hc).
  Qed.

  Variable n : nfa atom.
  Hypothesis Hn : ok n.
  Hypothesis Hat : forall s t a, In (t, a) (trans (get n s)) -> atom_ok a.
  Notation L := (length n).
  Variables (B : nfa range) (subs : list (state range)).
  Hypothesis HB : built n B subs.
  Variable K' : nat -> option word -> Prop.
  Notation ev' := (ev byte_check T' B K').

  Definition asym (x : nat * range) : alt range := ASym (fst x) (snd x).
  (** A block is entered and left at fixed places of the text. *)
  Lemma block_ev t a sym off qe r' : block L subs t a sym off -> PTrie.symbol_ok a sym ->
    forall m i q, length T' - q <= m -> q <= length T' -> i < length sym - 1 ->
    (forall W q', path byte_check sym i W (length sym - 1) -> reads T' q W q' -> q' = qe /\ ev' (alts B t) qe r') ->
    exists r, ev' (map asym (map (mp t (length sym - 1) off) (trans (get sym i)))) q r /\
      ((r = pre (map IC (slice T' q qe)) r' /\ exists W, path byte_check sym i W (length sym - 1) /\ reads T' q W qe) \/
       (r = None /\ forall W q', path byte_check sym i W (length sym - 1) -> ~ reads T' q W q')).
  Proof using HB Hn Hat.
    intros Hb Hs. induction m as [m IHm] using lt_wf_ind. intros i q Hm Hq Hi HW.
    assert (Htg := fun j r => so_tgt _ _ Hs i j r). assert (Hpi := fun w => so_eps _ _ Hs w).
    set (z := length sym - 1) in *.
    assert (Hself : path byte_check sym z [] z) by constructor.
    assert (Hstop : forall W, path byte_check sym z W z -> W = []).
    { intros W H. inversion H as [|? ? ? ? ? H1|? ? ? ? ? ? H1]; subst; [reflexivity| |].
      - rewrite Hpi in H1. destruct H1.
      - apply (so_tgt _ _ Hs) in H1. unfold z in H1. lia. }
    (* over the transitions of the node *)
    assert (G : forall l, incl l (trans (get sym i)) ->
      exists r, ev' (map asym (map (mp t z off) l)) q r /\
      ((r = pre (map IC (slice T' q qe)) r' /\ exists y rg c W, In (y, rg) l /\ byte_check rg c = true /\ path byte_check sym y W z /\ reads T' q (IC c :: W) qe) \/
       (r = None /\ forall y rg c W q', In (y, rg) l -> byte_check rg c = true -> path byte_check sym y W z -> ~ reads T' q (IC c :: W) q'))).
    { induction l as [|[y rg] l IHl]; intros Hincl.
      - exists None. split; [constructor|]. right. split; [reflexivity|]. intros ? ? ? ? ? [].
      - destruct (IHl (fun x Hx => Hincl x (or_intror Hx))) as (r2 & E2 & D2). assert (Hin : In (y, rg) (trans (get sym i))) by (apply Hincl; now left).
        destruct (Htg _ _ Hin) as (Hy & _ & _).
        assert (G1 : exists r1, ev1 byte_check T' B K' (asym (mp t z off (y, rg))) q r1 /\
          ((r1 = pre (map IC (slice T' q qe)) r' /\ exists c W, byte_check rg c = true /\ path byte_check sym y W z /\ reads T' q (IC c :: W) qe) \/
           (r1 = None /\ forall c W q', byte_check rg c = true -> path byte_check sym y W z -> ~ reads T' q (IC c :: W) q'))).
        { destruct (canb byte_check T' q rg) as [c|] eqn:Ec.
          - assert (Ec' := Ec). apply canb_iff in Ec' as [Hc1 Hc2]. assert (Hlt : q < length T') by (apply nth_error_Some; congruence).
            unfold asym, mp. cbn [fst snd]. destruct (Nat.eqb_spec y z) as [->|Hne]; cbn [fst snd].
            + assert (R : reads T' q [IC c] (S q)) by (constructor; [assumption|]; constructor; lia).
              destruct (HW [IC c] (S q)) as [<- Ht']; [eapply path_sym1; eauto|assumption|]. exists (pre [IC c] r'). split; [now apply e_sym|]. left.
              split; [|exists c, []; auto]. unfold slice. replace (S q - q) with 1 by lia. rewrite (nth_skipn T' q c Hc1). reflexivity.
            + destruct (IHm (length T' - S q)) with (i := y) (q := S q) as (r1 & E1 & D1); try lia.
              { intros W q' HWp HWr. apply (HW (IC c :: W)); [eapply p_sym; eauto|]. now constructor. }
              exists (pre [IC c] r1). split.
              * apply e_sym; [assumption|]. assert (Hy' : 1 <= y < length sym - 1) by (unfold z in *; lia).
                rewrite Nat.add_comm. destruct (block_state n Hn Hat B subs HB t a sym off y Hb Hy') as [X Y].
                unfold alts. destruct (Nat.eqb_spec (off + y) (length B - 1)); [lia|]. rewrite X. unfold edges, mps. cbn [trans eps map app]. rewrite app_nil_r.
                exact E1.
              * destruct D1 as [[-> (W & HW1 & HW2)]|[-> D1]].
                -- left. split.
                   ++ rewrite <- pre_app. f_equal. assert (Hqq := reads_le _ _ _ _ HW2). unfold slice. rewrite (nth_skipn T' q c Hc1).
                      replace (qe - q) with (S (qe - S q)) by lia. reflexivity.
                   ++ exists c, W. split; [assumption|]. split; [assumption|]. now constructor.
                -- right. split; [reflexivity|]. intros c' W q' _ HW1 HR. apply reads_char_inv in HR as [HR1 HR2]. eapply D1; eauto.
          - exists None. split; [unfold asym, mp; cbn [fst snd]; destruct (y =? z); now apply e_sym_no|]. right. split; [reflexivity|].
            intros c W q' Hc HWp HR. apply reads_char_inv in HR as [HR1 HR2]. assert (Y : canb byte_check T' q rg = Some c) by (apply canb_iff; auto). congruence. }
        destruct G1 as (r1 & E1 & D1). exists (orelse r1 r2). split; [cbn [map]; constructor; assumption|].
        destruct D1 as [[-> (c & W & A1 & A2 & A3)]|[-> D1]].
        + left. split; [|exists y, rg, c, W; split; [now left|auto]]. destruct D2 as [[-> _]|[-> _]]; destruct r'; reflexivity.
        + destruct D2 as [[-> (y2 & rg2 & c & W & A0 & A1)]|[-> D2]].
          * left. split; [reflexivity|]. exists y2, rg2, c, W. split; [now right|assumption].
          * right. split; [reflexivity|]. intros y2 rg2 c W q' [E|Hx]; [injection E as <- <-; auto|eauto]. }
    destruct (G (trans (get sym i)) (incl_refl _)) as (r & E & D). exists r. split; [exact E|].
    destruct D as [[-> (y & rg & c & W & A1 & A2 & A3 & A4)]|[-> D]].
    - left. split; [reflexivity|]. exists (IC c :: W). split; [eapply p_sym; eauto|assumption].
    - right. split; [reflexivity|]. intros W q' HP HR. inversion HP as [s1 E1|? ? ? ? ? H1|? y rg c W' ? H1 H2 H3]; subst.
      + lia.
      + rewrite Hpi in H1. destruct H1.
      + exact (D y rg c W' q' H1 H2 H3 HR).
  Qed.

  Variable K : nat -> option word -> Prop.
  Hypothesis HK : forall j r, j <= length T -> K j r -> K' (bpos j) (option_map enc r).
  Definition follow (x : alt atom) (l : list (alt range)) : Prop :=
    match x with
    | AAcc => l = [AEps (length B - 1) ENone]
    | ASym t a => exists es, covers L subs (t, a) es /\ l = map asym es /\ exists s, In (t, a) (trans (get n s))
    | AEps t e => l = [AEps t e] /\ exists s, In (t, e) (eps (get n s))
    end.
  Definition followl (l : list (alt atom)) (l' : list (alt range)) : Prop := exists ls, Forall2 follow l ls /\ l' = concat ls.
  Lemma follow_state s : s < L -> followl (alts n s) (alts B s).
  Proof using HB Hn.
    clear HK Hat K K' T. intros Hs. assert (LB := bu_len _ _ _ HB). unfold alts at 2. destruct (Nat.eqb_spec s (length B - 1)); [lia|]. cbn [app].
    unfold alts. destruct (bu_img _ _ _ HB s Hs) as (ess & E1 & E2). assert (E3 := bu_eps_eq _ _ _ HB s Hs).
    unfold edges. rewrite E1, E3. destruct (Nat.eqb_spec s (L - 1)) as [->|Hne].
    - destruct (fin_last n) as [Hlast _]; [apply Hn|]. rewrite Hlast in *. cbn in *. inversion E2; subst. exists [[AEps (length B - 1) ENone]].
      split; [repeat constructor|reflexivity].
    - rewrite app_nil_r. cbn [app]. exists (map (map asym) ess ++ map (fun x => [x]) (map (fun e => AEps (fst e) (snd e)) (eps (get n s)))). split.
      + apply Forall2_app.
        * assert (HI : forall t a, In (t, a) (trans (get n s)) -> exists s, In (t, a) (trans (get n s))) by eauto. revert HI.
          generalize dependent (trans (get n s)). intros l H2 HI. clear E1. induction H2 as [|[t a] es l ess Hc H2 IH]; [constructor|]. cbn [map]. constructor.
          -- cbn. exists es. split; [assumption|]. split; [reflexivity|]. apply HI. now left.
          -- apply IH. intros; apply HI. now right.
        * assert (HI : forall t a, In (t, a) (eps (get n s)) -> exists s, In (t, a) (eps (get n s))) by eauto. revert HI. clear E3.
          generalize (eps (get n s)). intros l HI. induction l as [|[t a] l IH]; [constructor|]. cbn [map]. constructor.
          -- cbn. split; [reflexivity|]. apply HI. now left.
          -- apply IH. intros; apply HI. now right.
      + rewrite concat_app. f_equal.
        * change (fun t : nat * range => ASym (fst t) (snd t)) with asym. now rewrite concat_map.
        * generalize (map (fun e => @AEps range (fst e) (snd e)) (eps (get n s))). induction l as [|x l IH]; cbn; [reflexivity|]. f_equal. exact IH.
  Qed.
  Lemma enc_pre u r : option_map enc (pre u r) = pre (enc u) (option_map enc r).
  Proof. destruct r; cbn; [now rewrite enc_app|reflexivity]. Qed.
  Lemma built_ev0 :
    (forall x j r, ev1 acheck T n K x j r -> j <= length T -> forall l, follow x l -> ev' l (bpos j) (option_map enc r)) /\
    (forall l j r, ev acheck T n K l j r -> j <= length T -> forall l', followl l l' -> ev' l' (bpos j) (option_map enc r)).
  Proof using HB Hn Hat HK.
    assert (LB := bu_len _ _ _ HB).
    assert (Sym : forall t a es j r', j <= length T -> covers L subs (t, a) es -> (exists s, In (t, a) (trans (get n s))) ->
      (forall c, canb acheck T j a = Some c -> ev' (alts B t) (bpos (S j)) r') ->
      ev' (map asym es) (bpos j) (match canb acheck T j a with Some c => pre (map IC (encode c)) r' | None => None end)).
    { intros t a es j r' Hj Hc Hex Ht. destruct (covers_symbol n Hn Hat subs t a es Hc Hex) as (sym & off & Hb & -> & Hs & HtL).
      destruct (block_ev t a sym off (bpos (S j)) r' Hb Hs (length T' - bpos j) 0 (bpos j)) as (r & E & D).
      - lia.
      - apply bpos_le.
      - assert (X := so_len _ _ Hs). lia.
      - intros W q' HP HR. apply (so_lang _ _ Hs) in HP as (d & Hd & ->). apply encode_reads in HR as [HR1 ->]. split; [reflexivity|]. apply (Ht d). apply canb_iff. auto.
      - destruct (canb acheck T j a) as [c|] eqn:Ec.
        + apply canb_iff in Ec as [Hc1 Hc2]. destruct D as [[-> _]|[_ D]].
          * assert (X : slice T' (bpos j) (bpos (S j)) = encode c).
            { assert (R := reads_encode j c Hc1). apply reads_chars in R as [_ R]. rewrite chars_IC in R. unfold slice. now rewrite <- R. }
            rewrite X in E. exact E.
          * exfalso. apply (D (map IC (encode c)) (bpos (S j))); [apply (so_lang _ _ Hs); eauto|now apply reads_encode].
        + destruct D as [[_ (W & HP & HR)]|[-> _]]; [|exact E]. exfalso.
          apply (so_lang _ _ Hs) in HP as (d & Hd & ->). apply encode_reads in HR as [HR1 _].
          assert (Y : canb acheck T j a = Some d) by (apply canb_iff; auto). congruence. }
    apply ev_ind2.
    - intros j r Hk Hj l ->. apply ev_one. rewrite <- (pre_nil (option_map enc r)). change (@nil item) with (mark ENone). apply e_eps; [reflexivity|].
      unfold alts. rewrite Nat.eqb_refl. rewrite (bu_last _ _ _ HB). cbn. apply ev_one. constructor. auto.
    - intros t a j Hc Hj l (es & H1 & -> & H2). assert (S1 := Sym t a es j None Hj H1 H2). rewrite Hc in S1. apply S1. discriminate.
    - intros t a j c r Hc Hev IH Hj l (es & H1 & -> & H2). assert (S1 := Sym t a es j (option_map enc r) Hj H1 H2). rewrite Hc in S1.
      rewrite enc_pre. change (enc [IC c]) with (map IC (encode c) ++ []). rewrite app_nil_r. apply S1. intros _ _.
      apply canb_iff in Hc as [Hc _]. assert (S j <= length T) by (apply nth_error_Some; congruence). apply IH; [assumption|]. apply follow_state.
      destruct H2 as (s & H2). eapply wf_trans; eauto. apply Hn.
    - intros t e j He Hj l [-> _]. apply ev_one. apply e_eps_no. now rewrite on_bpos.
    - intros t e j r He Hev IH Hj l [-> (s & Hs)]. apply ev_one. rewrite enc_pre, enc_mark. apply e_eps; [now rewrite on_bpos|]. apply IH; [assumption|].
      apply follow_state. eapply wf_eps; eauto. apply Hn.
    - intros j Hj l' (ls & H1 & ->). inversion H1; subst. constructor.
    - intros x l j r r' H1 IH1 H2 IH2 Hj l' (ls & H3 & ->). inversion H3 as [|? y ? ls' F1 F2]; subst. cbn [concat].
      assert (E : option_map enc (orelse r r') = orelse (option_map enc r) (option_map enc r')) by now destruct r. rewrite E.
      apply ev_app; [apply IH1; assumption|]. apply IH2; [assumption|]. exists ls'. auto.
  Qed.
  Lemma built_ev s j r : s < L -> j <= length T -> ev acheck T n K (alts n s) j r -> ev' (alts B s) (bpos j) (option_map enc r).
  Proof using HB Hn Hat HK. intros Hs Hj H. eapply built_ev0; eauto. now apply follow_state. Qed.
End Byte.

(** The byte automaton of a character automaton. *)
Theorem u8_best T n m r : ok n -> 1 <= length n -> (forall s t a, In (t, a) (trans (get n s)) -> atom_ok a) ->
  u8_new n = Ok m -> m <> [] -> ev acheck T n (K0 T) (alts n 0) 0 r ->
  ev byte_check (utf8 T) m (K0 (utf8 T)) (alts m 0) 0 (option_map enc r).
Proof.
  intros Hn Hl Hat Em Hm Hev. destruct (build_spec n Hn Hat) as (B & subs & E & HB). unfold u8_new, u8_new_loop_opt in Em. rewrite E in Em. cbn [bind] in Em.
  assert (HKp : keeps byte_check B m).
  { eapply (finalize_keeps byte_check range_eqb (fun _ => True)); [| | | |exact Em|exact Hm].
    - intros a b _ _ H. apply range_eqb_eq in H. now subst.
    - intros ? ? ? ?. exact I.
    - eapply built_ok; eauto.
    - assert (LB := bu_len _ _ _ HB). lia. }
  apply HKp; [apply K0_det|lia|]. change 0 with (bpos T 0) at 2. eapply built_ev; eauto; [|lia].
  intros j r' Hj ->. unfold K0, k0. destruct (Nat.eqb_spec j (length T)) as [->|Hne].
  - now rewrite bpos_end, Nat.eqb_refl.
  - assert (X := proj1 (bpos_last T j Hj)). destruct (Nat.eqb_spec (bpos T j) (length (utf8 T))); [tauto|reflexivity].
Qed.
