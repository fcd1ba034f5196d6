(** The patterns for which the captures are at fixed offsets. *)
From Verif Require Import SpecFixed PFixed PCompile PAll PFree POnePlace PAlive PCount POutcome PAnchored PCaret SpecPriority SpecCaret PPrioSpec.
From Coq Require Import Permutation ZifyBool ZifyNat ZifyN.
Open Scope nat_scope.
Open Scope list_scope.

(** ** Words of patterns whose loops read are not much longer than what they read *)
Fixpoint treads (t : tree) : Prop :=
  match t with
  | TUnion l | TConcat l => Forall (fun x => x) (map treads l)
  | TCapture t _ | TRepeat t _ | TUpTo t _ _ => treads t
  | TStar t _ => (forall w, tlang acheck t w -> chars w <> []) /\ treads t
  | _ => True
  end.
Definition bounded_by (K : nat) (L : word -> Prop) : Prop := forall w, L w -> length w <= K * (1 + length (chars w)).
Lemma bounded_mono K K' L : K <= K' -> bounded_by K L -> bounded_by K' L.
Proof. intros H B w Hw. specialize (B w Hw). assert (K * (1 + length (chars w)) <= K' * (1 + length (chars w))) by (apply Nat.mul_le_mono_r; assumption). lia. Qed.
Lemma pow_bounded K L n w : bounded_by K L -> powL L n w -> length w <= K * (n + length (chars w)).
Proof.
  intros B. induction 1 as [|n u v Hu _ IH]; [apply Nat.le_0_l|]. specialize (B u Hu). rewrite chars_app, !app_length. nia.
Qed.
Lemma star_bounded K L n w : bounded_by K L -> (forall w, L w -> chars w <> []) -> powL L n w -> length w <= 2 * K * length (chars w).
Proof.
  intros B C. induction 1 as [|n u v Hu _ IH]; [apply Nat.le_0_l|]. specialize (B u Hu). specialize (C u Hu). rewrite chars_app, !app_length. destruct (chars u) as [|c r]; [contradiction|]. cbn [length] in *. nia.
Qed.
Lemma words_bounded t : treads t -> exists K, bounded_by K (tlang acheck t).
Proof.
  induction t as [ |a|l IH|t k IH|l IH|t k IH|t k b IH|t b IH| | | ] using tree_ind'; intros H; cbn [treads] in H.
  - exists 0. intros w ->. cbn. lia.
  - exists 1. intros w (c & _ & ->). cbn. lia.
  - induction IH as [|t l IHt _ IHl]; [exists 0; intros w Hw; inversion Hw|]. inversion H as [|? ? H1 H2]; subst. destruct (IHt H1) as (K1 & B1), (IHl H2) as (K2 & B2).
    exists (K1 + K2). intros w Hw. cbn [tlang map] in Hw. inversion Hw as [? ? Hw'|? ? Hw']; subst.
    + apply (bounded_mono K1 (K1 + K2) (tlang acheck t)); [lia|exact B1|exact Hw'].
    + apply (bounded_mono K2 (K1 + K2) (tlang acheck (TUnion l))); [lia|exact B2|exact Hw'].
  - destruct (IH H) as (K & B). exists (K + 2). intros w (v & Hv & ->). specialize (B v Hv). cbn [length chars]. rewrite chars_app, !app_length. cbn [length chars]. nia.
  - induction IH as [|t l IHt _ IHl]; [exists 0; intros w Hw; inversion Hw; subst; cbn; lia|]. inversion H as [|? ? H1 H2]; subst. destruct (IHt H1) as (K1 & B1), (IHl H2) as (K2 & B2).
    exists (K1 + K2). intros w Hw. cbn [tlang map] in Hw. inversion Hw as [|? ? u v Hu Hv]; subst. specialize (B1 u Hu). specialize (B2 v Hv). rewrite chars_app, !app_length. nia.
  - destruct (IH H) as (K & B). exists (K * S k). intros w Hw. assert (X := pow_bounded K _ k w B Hw). nia.
  - destruct (IH H) as (K & B). exists (K * S k). intros w (m & Hm & Hw). assert (X := pow_bounded K _ m w B Hw). nia.
  - destruct H as [Hc H]. destruct (IH H) as (K & B). exists (2 * K). intros w (m & Hw). assert (X := star_bounded K _ m w B Hc Hw). nia.
  - exists 1. intros w ->. cbn. lia.
  - exists 1. intros w ->. cbn. lia.
  - exists 0. intros w [].
Qed.
Lemma treads_concat a b : treads a -> treads b -> treads (t_concat a b).
Proof.
  intros Ha Hb. assert (G : treads (TConcat [a; b])) by (cbn; auto).
  destruct a; auto. cbn [t_concat treads] in *. rewrite map_app. apply Forall_app. split; [assumption|]. cbn. auto.
Qed.
Lemma quant_treads c q : treads c -> (unbounded (q_type q) = true -> forall w, tlang acheck c w -> chars w <> []) -> treads (quant_tree c q).
Proof.
  intros Hc Hg. assert (HR : forall n, treads (t_repeat c n)) by (intros []; cbn; auto).
  assert (HU : forall n b, treads (t_upto c n b)) by (intros []; cbn; auto).
  unfold quant_tree. destruct (q_type q) as [ | | |n|n [m|]]; cbn [t_star t_optional unbounded] in *; auto.
  - cbn. auto.
  - apply treads_concat; cbn; auto.
  - destruct (m <? n)%N; [exact I|]. destruct (m =? n)%N; auto. apply treads_concat; auto.
  - apply treads_concat; cbn; auto.
Qed.
Lemma loops_treads :
  (forall p g, loops_part p = true -> treads (part_tree p g)) /\
  (forall e g, loops_expr e = true -> treads (expr_tree e g)) /\
  (forall b g, forallb loops_part b = true -> Forall treads (branch_trees b g)) /\
  (forall e g, loops_read e = true -> Forall treads (ere_trees e g)).
Proof.
  apply syntax_ind.
  - intros e IH g H. now apply IH.
  - intros e q IH g H. rewrite part_tree_quant. cbn [loops_part] in H. apply andb_true_iff in H as [H1 H2].
    apply quant_treads; [now apply IH|]. intros Hq. rewrite Hq in H1. cbn in H1. intros w. now apply (proj1 (proj2 (consumes_words acheck))).
  - intros; exact I.
  - intros; exact I.
  - intros; exact I.
  - intros bs IH g H. rewrite expr_tree_sub. cbn [treads]. rewrite Forall_map. now apply IH.
  - constructor.
  - intros p b IHp IHb g H. cbn [forallb] in H. apply andb_true_iff in H as [H1 H2]. rewrite branch_trees_cons. constructor; auto.
  - constructor.
  - intros b e IHb IHe g H. unfold loops_read in *. cbn [forallb] in H. apply andb_true_iff in H as [H1 H2]. rewrite ere_trees_cons.
    constructor; [|auto]. cbn [treads]. rewrite Forall_map. now apply IHb.
Qed.
Lemma loops_treads_of e : loops_read e = true -> treads (tree_of e).
Proof. intros H. rewrite tree_of_eq. cbn [treads]. rewrite Forall_map. now apply loops_treads. Qed.

(** ** Bytes *)
Lemma encode_four c : length (encode c) <= 4.
Proof. rewrite encode_length. unfold len_utf8. repeat destruct (_ <? _)%N; lia. Qed.
Lemma enc_four w : length (enc w) <= 4 * length w.
Proof.
  induction w as [|[c|k] w IH]; [cbn; lia| |].
  - change (enc (IC c :: w)) with (map IC (encode c) ++ enc w). rewrite app_length, map_length. assert (H := encode_four c). cbn [length]. lia.
  - change (enc (IM k :: w)) with (IM k :: enc w). cbn [length]. lia.
Qed.
Lemma utf8_le T : length T <= length (utf8 T).
Proof. unfold utf8. induction T as [|c T IH]; cbn; [lia|]. rewrite app_length. destruct (encode c) eqn:Ec; [now apply encode_nonempty in Ec|]. cbn. lia. Qed.
Lemma utf8_bytes T : length (utf8 T) = byte_pos T (length T).
Proof.
  unfold byte_pos. rewrite firstn_all. unfold utf8. induction T as [|c T IH]; [reflexivity|]. cbn [flat_map map]. rewrite app_length, IH, encode_length. reflexivity.
Qed.
Lemma padded_bounded e : loops_read e = true -> exists K, forall w, padded true true (tlang acheck (tree_of e)) w -> length w <= K * (1 + length (chars w)).
Proof.
  intros H. destruct (words_bounded _ (loops_treads_of e H)) as (K & B). exists (K + 1). intros w (pre & v & post & -> & _ & _ & _ & _ & Hv). specialize (B v Hv).
  rewrite !chars_app, !chars_IC, !app_length, !map_length. nia.
Qed.

(** ** The whole text *)
Lemma reads_no_end T i v j : reads T i v j -> j < length T -> has EEnd v = false.
Proof.
  intros H Hj. destruct (has EEnd v) eqn:E; [|reflexivity]. exfalso. apply has_iff in E. apply in_split in E as (u & w & ->). apply reads_app in H as (k & _ & H).
  inversion H as [| |? ? ? ? H1 H2 H3]; subst. specialize (H2 eq_refl). apply reads_le in H3. lia.
Qed.
Lemma both_scalar i T : Forall scalar T -> Forall scalar (firstn i T) /\ Forall scalar (skipn i T).
Proof. intros H. apply Forall_app. now rewrite firstn_skipn. Qed.
Lemma longer e m T i j L k : byte_automaton_of e m -> Forall scalar T -> matches T e i j L -> 0 < i \/ j < length T -> exists W, lang byte_check m W /\ k <= length (chars W).
Proof.
  intros Hm HT Hma Hij. set (p := repeat 97%N k). assert (Hps : Forall scalar p) by (apply Forall_forall; intros x Hx; apply repeat_spec in Hx; subst x; reflexivity).
  assert (Hpl : length p = k) by apply repeat_length.
  assert (G : exists T' W', Forall scalar T' /\ accepted T' e W' /\ k <= length T').
  { apply (matches_word T HT) in Hma as (v & H1 & H2 & _). assert (Hl := reads_le _ _ _ _ H2). destruct Hij as [Hi|Hj].
    - exists (p ++ skipn i T). eexists. split; [apply Forall_app; split; [assumption|]; apply Forall_forall; intros x Hx; rewrite Forall_forall in HT; apply HT; rewrite <- (firstn_skipn i T); apply in_or_app; auto|].
      split; [eapply shifted_accepted; eauto|rewrite app_length; lia].
    - assert (Hne := reads_no_end _ _ _ _ H2 Hj). exists (T ++ p), (map IC (firstn i T) ++ v ++ map IC (skipn j T ++ p)). split; [apply Forall_app; auto|]. split; [|rewrite app_length; lia]. split.
      + exists (firstn i T), v, (skipn j T ++ p). split; [reflexivity|]. split; [now apply both_scalar|]. split; [apply Forall_app; split; [now apply both_scalar|assumption]|]. split; [discriminate|]. split; [discriminate|assumption].
      + assert (Li : length (firstn i T) = i) by (rewrite firstn_length; lia).
        apply reads_app. exists i. split; [|apply reads_app; exists j; split].
        * assert (R := reads_IC (T ++ p) 0 (firstn i T)). rewrite Li in R. apply R; [cbn [skipn]; rewrite firstn_app; replace (i - length T) with 0 by lia; cbn; apply app_nil_r|rewrite app_length; lia].
        * now apply reads_longer.
        * assert (R := reads_IC (T ++ p) j (skipn j T ++ p)). rewrite app_length, skipn_length in R. replace (j + (length T - j + length p)) with (length (T ++ p)) in R by (rewrite app_length; lia). apply R; [|lia].
          rewrite skipn_app. replace (j - length T) with 0 by lia. cbn [skipn]. rewrite <- skipn_length, <- app_length. apply firstn_all. }
  destruct G as (T' & W' & HT' & Ha & Hk). destruct Hm as (_ & _ & _ & M4 & _). destruct (proj2 (M4 T' (enc W') HT') (ex_intro _ W' (conj Ha eq_refl))) as [H1 _]. exists (enc W'). split; [assumption|].
  rewrite chars_enc. destruct Ha as [_ Ha]. apply reads_whole in Ha as [-> _]. eapply Nat.le_trans; [exact Hk|apply utf8_le].
Qed.
Lemma fixed_whole e m offs T i j L : byte_automaton_of e m -> fixed_offsets m = Ok (Some offs) -> Forall scalar T -> matches T e i j L -> i = 0 /\ j = length T.
Proof.
  intros Hm Ef HT Hma. assert (Hm' := Hm). destruct Hm' as (M1 & M2 & M3 & M4 & M5 & M6 & M7).
  destruct (fixed_offsets_spec m M6 (ok_wf _ M1) ltac:(lia) M5) as (o & Eo & Ho). rewrite Ef in Eo. injection Eo as <-. destruct (proj1 (Ho offs) eq_refl) as ((l & El) & _ & _).
  destruct (topological_spec m) as (o & Eo & Hto); [now apply closed_wf, ok_wf|lia|]. rewrite El in Eo. injection Eo as <-. destruct Hto as (P & Hord & _ & _). destruct (ranked m l P Hord) as [K1 K2].
  assert (Hb : i <= j <= length T) by (apply (matches_word T HT) in Hma as (v & _ & H2 & _); exact (reads_le _ _ _ _ H2)).
  assert (N : ~ (0 < i \/ j < length T)).
  { intros Hij. destruct (longer e m T i j L (length m) Hm HT Hma Hij) as (W & HW & Hlen). assert (X := path_rank e m Hm (fun x => idx x l) 0 W _ K2 HW ltac:(lia)). specialize (K1 (length m - 1) ltac:(lia)). cbn in X. lia. }
  lia.
Qed.

(** ** Fixed offsets are the offsets of every match *)
Definition pair_up (p : option nat * option nat) : option (nat * nat) := match p with (Some a, Some b) => Some (a, b) | _ => None end.
Lemma mapM_nth {A B} (g : A -> res B) : forall l ys, mapM g l = Ok ys -> forall k d d', k < length l -> g (nth k l d) = Ok (nth k ys d').
Proof.
  induction l as [|x l IH]; intros ys H k d d' Hk; [cbn in Hk; lia|]. cbn [mapM] in H. apply bind_ok in H as (y & Ey & H). apply bind_ok in H as (zs & Ez & H). injection H as <-.
  destruct k as [|k]; [exact Ey|]. cbn [nth]. apply IH; [assumption|]. cbn in Hk. lia.
Qed.
Lemma fo_slice_pair T p z : fo_slice T p = Ok z -> z = pair_up p.
Proof. destruct p as [[a|] [b|]]; cbn [fo_slice pair_up]; unfold fo_slice; intros H; try (destruct (str_get_ok _ _ _)); try discriminate; now injection H as <-. Qed.
Lemma fixed_positions e m offs T i j L : byte_automaton_of e m -> fixed_offsets m = Ok (Some offs) -> Forall scalar T -> matches T e i j L ->
  forall k, capture T L k = pair_up (nth k offs (None, None)).
Proof.
  intros Hm Ef HT Hma k. destruct (fixed_every e m offs Hm Ef) as [Hlen Every]. assert (E := Every T i j L HT Hma). unfold fo_exec in E. apply bind_ok in E as (cs & E & E'). injection E' as ->.
  destruct (Nat.lt_ge_cases k (length offs)) as [Hk|Hk].
  - assert (X := mapM_nth _ _ _ E k (None, None) None Hk). apply fo_slice_pair in X. rewrite <- X.
    assert (Y : nth_error (map (capture T L) (seq 0 (length offs))) k = Some (capture T L k)) by (apply map_nth_error; now apply nth_error_seq_lt || (rewrite (nth_error_nth' _ 0) by (rewrite seq_length; lia); rewrite seq_nth by assumption; reflexivity)).
    symmetry. now apply nth_error_nth.
  - rewrite nth_overflow by assumption. cbn. unfold capture. destruct (last_of k L) eqn:El; [|reflexivity]. exfalso. assert (k < num_capture_groups m) by (eapply byte_uses; eauto; congruence). lia.
Qed.
Lemma fixed_rigid e m offs : byte_automaton_of e m -> fixed_offsets m = Ok (Some offs) -> rigid e.
Proof.
  intros Hm Ef. exists (fun k => pair_up (nth k offs (None, None))). intros T i j L HT Hma. destruct (fixed_whole e m offs T i j L Hm Ef HT Hma) as [-> ->].
  split; [reflexivity|]. split; [reflexivity|]. eapply fixed_positions; eauto.
Qed.

(** ** Captures that do not move are at fixed offsets *)
Lemma finish_one_same T U p q x : finish_one T p = Ok x -> finish_one U q = Ok x -> p = q.
Proof.
  destruct p as [[a|] [b|]], q as [[c|] [d|]]; cbn [finish_one]; intros H H'; repeat (destruct (str_get_ok _ _ _)); congruence.
Qed.
Lemma finish_same T U : forall b b' x y, finish T b = Ok x -> finish U b' = Ok y -> x = y -> b = b'.
Proof.
  unfold finish. induction b as [|p b IH]; intros [|q b'] x y H H' E; cbn [mapM] in *; auto.
  - apply bind_ok in H' as (z & _ & H'). apply bind_ok in H' as (r & _ & H'). congruence.
  - apply bind_ok in H as (z & _ & H). apply bind_ok in H as (r & _ & H). congruence.
  - apply bind_ok in H as (z & H1 & H). apply bind_ok in H as (r & H2 & H). apply bind_ok in H' as (z' & H1' & H'). apply bind_ok in H' as (r' & H2' & H'). injection H as <-. injection H' as <-. injection E as <- <-.
    f_equal; [eapply finish_one_same; eauto|eapply IH; eauto].
Qed.
Section Rigid.
  Variables (s : list N) (e : ere).
  Hypothesis Hp : parse_str s = ROk e.
  Hypothesis Hs : Forall scalar s.
  Variable n : nfa atom.
  Variable m : nfa range.
  Hypothesis En : working_new (tree_of e) = Ok n.
  Hypothesis Hn : automaton_of e n.
  Hypothesis Em : u8_new n = Ok m.
  Hypothesis Hm : byte_automaton_of e m.
  Variables k l : nat.
  Hypothesis Hk : carets e = Some k.
  Hypothesis Hl : dollars e = Some l.
  (** Every word is a match of the text it reads. *)
  Lemma word_is_match W : lang byte_check m W -> exists w T i j L, W = enc w /\ chars w = T /\ padded true true (tlang acheck (tree_of e)) w /\ Forall scalar T /\ matches T e i j L /\
    forall g, finish T (run_marks (fun _ => 1) 0 W (no_bounds g)) = Ok (map (capture T L) (seq 0 g)).
  Proof using Hp Hs En Hn Em Hm Hk Hl.
    intros HW. assert (Hm' := Hm). destruct Hm' as (M1 & M2 & M3 & M4 & M5 & M6 & M7).
    destruct (m_before s e Hp Hs n m En Hn Em Hm k W Hk HW) as [_ B], (m_after s e Hp Hs n m En Hn Em Hm l W Hl HW) as [_ A].
    destruct (m_word s e Hp Hs n m En Hn Em Hm W HW) as (w & Ew & _ & P). assert (HT : Forall scalar (chars w)).
    { destruct P as (pre & v & post & -> & P1 & P2 & _ & _ & P3). rewrite !chars_app, !chars_IC. apply Forall_app. split; [assumption|]. apply Forall_app. split; [|assumption]. eapply tlang_scalar; eauto. }
    assert (R : reads (utf8 (chars w)) 0 W (length (utf8 (chars w)))) by (rewrite <- chars_enc, <- Ew; apply reads_whole; split; [reflexivity|split; assumption]).
    destruct (proj1 (M4 (chars w) W HT) (conj HW R)) as (v & Acc & Ev). destruct (accepted_matches _ e v Acc) as (i & j & L & Hma & HL).
    exists w, (chars w), i, j, L. split; [assumption|]. split; [reflexivity|]. split; [assumption|]. split; [assumption|]. split; [assumption|]. intros g. rewrite Ev, run_marks_enc. apply HL.
  Qed.
  Fixpoint times_word (c : word) (x : nat) : word := match x with 0 => [] | S x => c ++ times_word c x end.
  Lemma times_path q c x : path byte_check m q c q -> path byte_check m q (times_word c x) q.
  Proof using. intros H. induction x as [|x IH]; cbn; [constructor|]. eapply path_app; eauto. Qed.
  Lemma times_long c x : c <> [] -> x <= length (times_word c x).
  Proof using. intros H. induction x as [|x IH]; cbn; [lia|]. rewrite app_length. destruct c; [contradiction|]. cbn. lia. Qed.
  Lemma empty_descends (h : nat -> nat) q w t : (forall a b, In (b, ENone) (eps (get m a)) -> h b < h a) -> path byte_check m q w t -> w = [] -> h t <= h q.
  Proof using.
    intros Hh H. induction H as [q|q t x w u Hx H IH|q t a c w u Ha Hc H IH]; intros E; [lia| |discriminate].
    apply app_eq_nil in E as [E1 E2]. destruct x; try discriminate. apply Hh in Hx. specialize (IH E2). lia.
  Qed.
  Lemma rigid_acyclic : loops_read e = true -> rigid e -> exists o, topological_ordering m = Ok (Some o).
  Proof using Hp Hs En Hn Em Hm Hk Hl.
    intros Hlr (f & Hf). assert (Hm' := Hm). destruct Hm' as (M1 & M2 & M3 & M4 & M5 & M6 & M7).
    destruct (topological_spec m) as (o & Eo & Hto); [now apply closed_wf, ok_wf|lia|]. destruct o as [o|]; [eauto|]. exfalso.
    assert (HR := m_readable e m Hm).
    destruct Hto as [(q & t & H0 & Hqt & Htq)|(x & Hx & Hno)]; [|apply Hno; apply conn_linked; now apply M3].
    assert (Hq : q < length m) by (destruct Hqt as [(x & Hx)|(x & Hx)]; [eapply eps_range; eauto|eapply trans_range; eauto]).
    destruct (conn_path m byte_check 0 q HR) as (u & Hu); [now apply M3|]. destruct (conn_path m byte_check q (length m - 1) HR) as (v & Hv); [now apply M3|].
    destruct (conn_path m byte_check t q HR) as (c0 & Hc0); [now apply conn_linked|].
    assert (C : exists c, c <> [] /\ path byte_check m q c q).
    { destruct Hqt as [(x & Hx)|(r & Hx)].
      - exists (mark x ++ c0). split; [|eapply p_eps; eauto]. intros E. apply app_eq_nil in E as [E1 E2]. destruct x; try discriminate.
        destruct (ok_acy _ M1) as [h Hh]. rewrite ranked_get in Hh. assert (Y := empty_descends h t c0 q Hh Hc0 E2). apply Hh in Hx. lia.
      - destruct (HR _ _ _ Hx) as (b & Hb). exists (IC b :: c0). split; [discriminate|]. eapply p_sym; eauto. }
    destruct C as (c & Hc & Pc). destruct (padded_bounded e Hlr) as (K & B).
    assert (LW : forall x, lang byte_check m (u ++ times_word c x ++ v)) by (intros x; eapply path_app; [exact Hu|]; eapply path_app; [now apply times_path|exact Hv]).
    assert (Len : exists N0, forall W, lang byte_check m W -> length (chars W) = N0).
    { exists (match f 0 with Some (_, y) => y | None => 0 end). intros W HW. destruct (word_is_match W HW) as (w & T & i & j & L & -> & Hw & _ & HT & Hma & _). destruct (Hf T i j L HT Hma) as (-> & -> & Hc0'). rewrite <- (Hc0' 0). unfold capture. rewrite (match_zero e T _ _ _ Hma).
      rewrite chars_enc, Hw. apply utf8_bytes. }
    destruct Len as (N0 & Len). set (x := S (4 * (K * (1 + N0)))). specialize (LW x). destruct (word_is_match _ LW) as (w & T & i & j & L & Ew & Hw & Hpad & _).
    specialize (Len _ LW). specialize (B w Hpad). assert (F := enc_four w). rewrite Ew, chars_enc, Hw in Len. assert (Q := utf8_le T). rewrite Hw in B. rewrite <- Ew in F. rewrite !app_length in F.
    assert (Y := times_long c x Hc). assert (K * (1 + length T) <= K * (1 + N0)) by (apply Nat.mul_le_mono_l; lia). unfold x in *. lia.
  Qed.
  Theorem rigid_fixed : loops_read e = true -> rigid e -> exists offs, fixed_offsets m = Ok (Some offs).
  Proof using Hp Hs En Hn Em Hm Hk Hl.
    intros Hlr Hr. assert (Ht := rigid_acyclic Hlr Hr). destruct Hr as (f & Hf). assert (Hm' := Hm). destruct Hm' as (M1 & M2 & M3 & M4 & M5 & M6 & M7).
    destruct (fixed_offsets_spec m M6 (ok_wf _ M1) ltac:(lia) M5) as (o & Eo & Ho). rewrite Eo.
    destruct (conn_path m byte_check 0 (length m - 1) (m_readable e m Hm)) as (W0 & HW0); [apply M3; lia|].
    exists (run_marks (fun _ => 1) 0 W0 (no_bounds (num_capture_groups m))). f_equal. apply Ho. split; [assumption|]. split; [eauto|]. intros W HW.
    destruct (word_is_match W0 HW0) as (w0 & T0 & i0 & j0 & L0 & E0 & Hw0 & _ & HT0 & Ma0 & F0). destruct (word_is_match W HW) as (w & T & i & j & L & E & Hw & _ & HT & Ma & F).
    destruct (Hf _ _ _ _ HT0 Ma0) as (_ & _ & C0). destruct (Hf _ _ _ _ HT Ma) as (_ & _ & C).
    eapply finish_same; [apply F|apply F0|]. apply map_ext. intros x. now rewrite C, C0.
  Qed.
End Rigid.

(** ** The macros *)
Lemma base_automaton s e b u : parse_str s = ROk e -> Forall scalar s -> pick_base_engine e = Ok (b, u) -> exists n, working_new (tree_of e) = Ok n /\ automaton_of e n /\ u8_new n = Ok u /\ byte_automaton_of e u.
Proof.
  intros Hp Hs Eb. destruct (two_cases s e Hp Hs) as [[H _]|(Hx & n & m & En & Hn & Hg & Em & Hm)].
  - rewrite (base_panics s e Hp Hs H) in Eb. discriminate.
  - exists n. assert (u = m). { unfold pick_base_engine in Eb. rewrite En in Eb. cbn [bind] in Eb. rewrite Em in Eb. cbn [bind] in Eb. apply bind_ok in Eb as (o & _ & H). destruct o as [op|]; [now injection H as <- <-|].
      apply bind_ok in H as (o & _ & H). destruct o; apply bind_ok in H as (x & _ & H); now injection H as <- <-. }
    subst u. auto.
Qed.
Lemma fixed_made s e en b offs : compiled s en -> en = EFixed b offs -> parse_str s = ROk e -> exists u, pick_base_engine e = Ok (b, u) /\ fixed_offsets u = Ok (Some offs).
Proof.
  intros H E Hg. subst en. destruct H as [H|[H|[H|[H|[H|H]]]]]; apply with_ere_ok in H as (e' & Hp & H); rewrite Hg in Hp; injection Hp as <-.
  - unfold pick_engine in H. destruct (pick_base_engine e) as [[b' u]| | |] eqn:Eb; try discriminate. cbn [bind] in H. assert (F := base_op e b' u Eb).
    destruct (fixed_offsets u) as [[offs'|]| | |] eqn:Ef; try discriminate; cbn [bind] in H.
    + destruct (length offs' =? num_capture_groups u) eqn:El; [|discriminate]. injection H as <- <-. eauto.
    + injection H as ->. destruct F.
  - apply bind_ok in H as (n & En & H). apply bind_ok in H as (m & Em & H). apply bind_ok in H as (d & Ed & H). destruct d as [d|]; [|discriminate]. unfold make_dfa in H. apply bind_ok in H as (y & _ & H). discriminate.
  - apply bind_ok in H as (n & En & H). unfold make_flat in H. apply bind_ok in H as (y & _ & H). destruct (nfa_compiles n); discriminate.
  - apply bind_ok in H as (n & En & H). apply bind_ok in H as (m & Em & H). unfold make_flat_u8 in H. apply bind_ok in H as (y & _ & H). discriminate.
  - apply bind_ok in H as (n & En & H). apply bind_ok in H as (m & Em & H). apply bind_ok in H as ([op|] & Eo & H); discriminate.
  - destruct (pick_base_engine e) as [[b' u]| | |] eqn:Eb; try discriminate. cbn [bind] in H.
    destruct (fixed_offsets u) as [[offs'|]| | |] eqn:Ef; try discriminate; cbn [bind] in H.
    destruct (length offs' =? num_capture_groups u) eqn:El; [|discriminate]. injection H as <- <-. eauto.
Qed.
Theorem chosen_rigid s e en b offs : compiled s en -> Forall scalar s -> G_ere e s -> en = EFixed b offs -> rigid e.
Proof.
  intros H Hs Hg E. apply parse_iff in Hg. destruct (fixed_made s e en b offs H E Hg) as (u & Eb & Ef). destruct (base_automaton s e b u Hg Hs Eb) as (n & _ & _ & _ & Hu). eapply fixed_rigid; eauto.
Qed.
Theorem rigid_chosen s e en k l : compile_regex s = Ok en -> Forall scalar s -> G_ere e s -> carets e = Some k -> dollars e = Some l -> loops_read e = true -> rigid e ->
  (exists b offs, en = EFixed b offs) /\ compile_fixed s = Ok en.
Proof.
  intros H Hs Hg Hk Hl Hlr Hr. apply parse_iff in Hg. apply with_ere_ok in H as (e' & Hp & H). rewrite Hg in Hp. injection Hp as <-. unfold compile_fixed. rewrite (parsed_with_ere s e _ Hg).
  unfold pick_engine in H. destruct (pick_base_engine e) as [[b u]| | |] eqn:Eb; try discriminate. cbn [bind] in *. destruct (base_automaton s e b u Hg Hs Eb) as (n & En & Hn & Em & Hu).
  destruct (rigid_fixed s e Hg Hs n u En Hn Em Hu k l Hk Hl Hlr Hr) as (offs & Ef). rewrite Ef in H |- *. cbn [bind] in *. destruct (length offs =? num_capture_groups u); [|discriminate]. injection H as <-. split; [eauto|reflexivity].
Qed.

(** ** Two patterns *)
Ltac take H := inversion H; subst; clear H.
Definition void (a : atom) : expr := XSub [[PQuant (XAtom a) {| q_type := QMultiple 0; q_alt := false |}]].
Lemma void_expr T a g i j L : m_expr T (void a) g i j L -> i = j /\ L = [(g, (i, i))].
Proof.
  intros H. take H. match goal with H : m_alts _ _ _ _ _ _ |- _ => take H end; [|match goal with H : m_alts _ _ _ _ _ _ |- _ => take H end].
  match goal with H : m_branch _ _ _ _ _ _ |- _ => take H end. match goal with H : m_branch _ _ _ _ _ _ |- _ => take H end. match goal with H : m_part _ _ _ _ _ _ |- _ => take H end.
  match goal with H : m_iter _ _ _ _ _ _ _ |- _ => take H end; [auto|]. cbn in *. lia.
Qed.
Lemma void_iter T a n : forall g i j L, m_iter T (void a) n g i j L -> i = j /\ L = repeat (g, (i, i)) n.
Proof.
  induction n as [|n IH]; intros g i j L H; inversion H as [|? ? ? ? ? ? L1 L2 H1 H2]; subst; [auto|].
  apply void_expr in H1 as [-> ->]. apply IH in H2 as [-> ->]. auto.
Qed.
Definition idle_loop : ere := [[PStart; PSingle (XAtom (NormalChar 97)); PQuant (void (NormalChar 98)) {| q_type := QPlus; q_alt := false |}; PSingle (XAtom (NormalChar 99)); PEnd]].
Definition astray_pat : ere := [[PStart; PSingle (XSub [[PSingle (XAtom (NormalChar 97))]; [PEnd]]); PSingle (XSub [[PStart]; [PSingle (XAtom (NormalChar 98))]]); PSingle (XAtom (NormalChar 99)); PEnd]].
Lemma branch_inv T p b g i k L : m_branch T (p :: b) g i k L -> exists j L1 L2, m_part T p g i j L1 /\ m_branch T b (g + groups_part p) j k L2 /\ L = L1 ++ L2.
Proof. intros H. take H. eauto 7. Qed.
Lemma nil_inv T g i k L : m_branch T [] g i k L -> i = k /\ L = [].
Proof. intros H. take H. auto. Qed.
Lemma alts_inv T b bs g i j L : m_alts T (b :: bs) g i j L -> m_branch T b g i j L \/ m_alts T bs (g + groups_branch b) i j L.
Proof. intros H. take H; auto. Qed.
Lemma none_inv T g i j L : ~ m_alts T [] g i j L.
Proof. intros H. take H. Qed.
Lemma start_inv T g i j L : m_part T PStart g i j L -> i = 0 /\ j = 0 /\ L = [].
Proof. intros H. take H. auto. Qed.
Lemma end_inv T g i j L : m_part T PEnd g i j L -> i = length T /\ j = length T /\ L = [].
Proof. intros H. take H. auto. Qed.
Lemma char_inv T c g i j L : m_part T (PSingle (XAtom (NormalChar c))) g i j L -> nth_error T i = Some c /\ j = S i /\ L = [].
Proof. intros H. take H. match goal with H : m_expr _ _ _ _ _ _ |- _ => take H end. match goal with H : atom_has _ _ |- _ => cbn in H; subst end. auto. Qed.
Lemma sub_inv T bs g i j L : m_part T (PSingle (XSub bs)) g i j L -> exists L', m_alts T bs (S g) i j L' /\ L = L' ++ [(g, (i, j))].
Proof. intros H. take H. match goal with H : m_expr _ _ _ _ _ _ |- _ => take H end. eauto. Qed.
Lemma last_repeat k p n : last_of k (repeat (k, p) (S n)) = Some p.
Proof. induction n as [|n IH]; [cbn; now rewrite Nat.eqb_refl|]. change (repeat (k, p) (S (S n))) with ((k, p) :: repeat (k, p) (S n)). cbn [last_of]. now rewrite IH. Qed.
Lemma last_app k : forall L M, last_of k (L ++ M) = match last_of k M with Some x => Some x | None => last_of k L end.
Proof. induction L as [|[g p] L IH]; intros M; cbn; [now destruct (last_of k M)|]. rewrite IH. destruct (last_of k M); reflexivity. Qed.
Lemma last_repeat_other k g p n : g <> k -> last_of k (repeat (g, p) n) = None.
Proof. intros H. induction n as [|n IH]; [reflexivity|]. cbn. rewrite IH. now destruct (Nat.eqb_spec g k). Qed.
Lemma idle_rigid : rigid idle_loop.
Proof.
  exists (fun k => match k with 0 => Some (0, 2) | 1 => Some (1, 1) | _ => None end). intros T i j L _ (L' & H & ->). apply alts_inv in H as [H|H]; [|now apply none_inv in H].
  apply branch_inv in H as (? & ? & ? & H1 & H & ->). apply start_inv in H1 as (-> & -> & ->). apply branch_inv in H as (? & ? & ? & H1 & H & ->). apply char_inv in H1 as (C1 & -> & ->).
  apply branch_inv in H as (? & ? & ? & H1 & H & ->). take H1. match goal with H : m_iter _ _ _ _ _ _ _ |- _ => apply void_iter in H as [<- ->] end.
  apply branch_inv in H as (? & ? & ? & H1 & H & ->). apply char_inv in H1 as (C2 & -> & ->). apply branch_inv in H as (? & ? & ? & H1 & H & ->). apply end_inv in H1 as (E & -> & ->). apply nil_inv in H as [<- ->].
  destruct T as [|a [|c [|]]]; try discriminate. cbn in C1, C2. injection C1 as ->. injection C2 as ->. split; [reflexivity|]. split; [reflexivity|].
  match goal with H : quant_allows _ ?n |- _ => destruct n as [|n0]; [cbn in H; lia|] end. intros k. cbn [app]. unfold capture. rewrite !app_nil_r. rewrite last_app. destruct k as [|[|k]].
  - reflexivity.
  - change (last_of 1 [(0, (0, length [97%N; 99%N]))]) with (@None (nat * nat)). cbn iota. change (1 + groups_part PStart + groups_part (PSingle (XAtom (NormalChar 97)))) with 1. now rewrite last_repeat.
  - change (last_of (S (S k)) [(0, (0, length [97%N; 99%N]))]) with (@None (nat * nat)). cbn iota. change (1 + groups_part PStart + groups_part (PSingle (XAtom (NormalChar 97)))) with 1. now rewrite last_repeat_other.
Qed.
Lemma astray_rigid : rigid astray_pat.
Proof.
  exists (fun k => match k with 0 => Some (0, 3) | 1 => Some (0, 1) | 2 => Some (1, 2) | _ => None end). intros T i j L _ (L' & H & ->). apply alts_inv in H as [H|H]; [|now apply none_inv in H].
  apply branch_inv in H as (? & ? & ? & H1 & H & ->). apply start_inv in H1 as (-> & -> & ->).
  apply branch_inv in H as (? & ? & ? & H1 & H & ->). apply sub_inv in H1 as (? & H1 & ->).
  apply branch_inv in H as (? & ? & ? & H2 & H & ->). apply sub_inv in H2 as (? & H2 & ->).
  apply branch_inv in H as (? & ? & ? & H3 & H & ->). apply char_inv in H3 as (C3 & -> & ->). apply branch_inv in H as (? & ? & ? & H3 & H & ->). apply end_inv in H3 as (E & -> & ->). apply nil_inv in H as [<- ->].
  apply alts_inv in H1 as [H1|H1].
  - apply branch_inv in H1 as (? & ? & ? & H3 & H1 & ->). apply nil_inv in H1 as [<- ->]. apply char_inv in H3 as (C1 & -> & ->).
    apply alts_inv in H2 as [H2|H2]; [apply branch_inv in H2 as (? & ? & ? & H3 & H2 & ->); apply start_inv in H3 as (? & _); discriminate|].
    apply alts_inv in H2 as [H2|H2]; [|now apply none_inv in H2]. apply branch_inv in H2 as (? & ? & ? & H3 & H2 & ->). apply nil_inv in H2 as [<- ->]. apply char_inv in H3 as (C2 & -> & ->).
    destruct T as [|a [|b [|c [|]]]]; try discriminate. cbn in C1, C2, C3. injection C1 as ->. injection C2 as ->. injection C3 as ->. split; [reflexivity|]. split; [reflexivity|].
    intros [|[|[|k]]]; reflexivity.
  - exfalso. apply alts_inv in H1 as [H1|H1]; [|now apply none_inv in H1]. apply branch_inv in H1 as (? & ? & ? & H3 & H1 & ->). apply nil_inv in H1 as [<- ->]. apply end_inv in H3 as (E1 & -> & ->).
    destruct T; [|discriminate]. cbn in *. match goal with H : nth_error [] ?n = Some _ |- _ => destruct n; discriminate end.
Qed.
