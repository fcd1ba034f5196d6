(** Keywords, runs of characters and fields. *)
From Coq Require Import String.
From Verif Require Import PStrip PAll PCompile PAnchored PCount PLazyAll PRoom PLiteral PropPriority PropCount SpecGroups SpecLaws SpecPriority SpecLiteral SpecCaret SpecToken.
From Coq Require Import ZifyBool ZifyNat ZifyN Sorted.
Open Scope nat_scope.
Open Scope list_scope.
Notation length := List.length.

(** *** The head of a list of ways *)
Lemma hd_flat_map {A B} (f : A -> list B) l x : hd_error (flat_map f l) = Some x -> exists l1 a l2, l = l1 ++ a :: l2 /\ (forall b, In b l1 -> f b = []) /\ hd_error (f a) = Some x.
Proof.
  induction l as [|a l IH]; [discriminate|]. cbn [flat_map]. destruct (f a) as [|y r] eqn:E.
  - cbn [app]. intros H. destruct (IH H) as (l1 & b & l2 & -> & H1 & H2). exists (a :: l1), b, l2. split; [reflexivity|]. split; [|assumption]. intros c [<-|Hc]; auto.
  - cbn. intros H. exists [], a, l. split; [reflexivity|]. split; [intros b []|]. rewrite E. exact H.
Qed.
Lemma flat_map_none {A B} (f : A -> list B) l : hd_error (flat_map f l) = None -> forall a, In a l -> f a = [].
Proof.
  induction l as [|a l IH]; intros H b []; cbn [flat_map] in H; destruct (f a) as [|y r] eqn:E; try discriminate H; cbn [app] in H; subst; auto.
Qed.
Lemma seq_later n : forall s l1 a l2, seq s n = l1 ++ a :: l2 -> forall b, In b l2 -> a < b.
Proof.
  induction n as [|n IH]; intros s l1 a l2 H b Hb; [destruct l1; discriminate|]. destruct l1 as [|x l1]; cbn in H; injection H as -> H.
  - rewrite <- H in Hb. apply in_seq in Hb. lia.
  - eapply IH; eauto.
Qed.
(** The best match begins where the first match begins, and among the matches from there it is the first one listed. *)
Lemma best_hd has T e i j L : hd_error (all_matches has T e) = Some (i, j, L) ->
  exists L', hd_error (w_alts has T e 1 i) = Some (j, L') /\ L = L' ++ [(0, (i, j))] /\
  forall i' j' L', In (i', j', L') (all_matches has T e) -> i < i' \/ i' = i /\ exists L'', In (j', L'') (w_alts has T e 1 i).
Proof.
  intros H. apply hd_flat_map in H as (l1 & a & l2 & El & H1 & H2). destruct (w_alts has T e 1 a) as [|[j0 L0] r] eqn:Ew; [discriminate H2|]. cbn in H2. injection H2 as -> -> <-. exists L0. rewrite Ew. split; [reflexivity|]. split; [reflexivity|].
  intros i' j' L' Hi. unfold all_matches in Hi. apply in_flat_map in Hi as (x & Hx & Hi). apply in_map_iff in Hi as ([y Ly] & E & Hy). cbn in E. injection E as -> -> <-.
  rewrite El in Hx. apply in_app_or in Hx as [Hx|[->|Hx]].
  - specialize (H1 _ Hx). destruct (w_alts has T e 1 i'); [destruct Hy|discriminate H1].
  - right. split; [reflexivity|]. exists Ly. now rewrite <- Ew.
  - left. eapply seq_later; eauto.
Qed.
Lemma stands_window w T U : stands false false w T U -> window w T (length U) /\ length U + length w <= length T /\ U = firstn (length U) T.
Proof.
  intros (V & -> & _). split; [apply split_window|]. split; [rewrite !app_length; lia|]. now rewrite firstn_app, Nat.sub_diag, firstn_all, app_nil_r.
Qed.
Lemma window_stands w T i : window w T i -> i <= length T -> stands false false w T (firstn i T) /\ length (firstn i T) = i.
Proof. intros H Hi. split; [|rewrite firstn_length; lia]. exists (skipn (length w) (skipn i T)). split; [now apply window_split|]. split; discriminate. Qed.
Lemma span_bytes T U w : stands false false w T U -> byte_pos T (length U) = bytes_of U /\ byte_pos T (length U + length w) = bytes_of U + bytes_of w.
Proof. intros (V & -> & _). split; [apply byte_pos_prefix|]. rewrite <- bytes_app, app_assoc, <- app_length. apply byte_pos_prefix. Qed.

(** ** Keywords *)
Section Keys.
  Variable T : list N.
  Lemma chars_ways w : forall g i, i <= length T -> (window w T i /\ w_branch atom_check T (map chr w) g i = [(i + length w, [])]) \/ (~ window w T i /\ w_branch atom_check T (map chr w) g i = []).
  Proof.
    unfold window. induction w as [|c w IH]; intros g i Hi; cbn [map w_branch length]; [left; rewrite Nat.add_0_r; auto|].
    cbn [chr w_part w_expr groups_part groups_expr]. rewrite Nat.add_0_r. destruct (nth_error T i) as [d|] eqn:En.
    - rewrite (skipn_nth_cons i T d En). cbn [firstn]. destruct (atom_check (NormalChar c) d) eqn:Ec.
      + apply atom_check_iff in Ec. cbn in Ec. subst d. assert (Hlt : i < length T) by (apply nth_error_Some; congruence). cbn [then_ flat_map fst snd app]. rewrite app_nil_r.
        destruct (IH g (S i) Hlt) as [[H1 H2]|[H1 H2]]; rewrite H2; cbn [map fst snd].
        * left. split; [now rewrite H1|]. do 2 f_equal. lia.
        * right. split; [|reflexivity]. intros E. injection E as E. now apply H1.
      + right. split; [|reflexivity]. intros E. injection E as -> _. assert (X : atom_check (NormalChar c) c = true) by (apply atom_check_iff; reflexivity). congruence.
    - right. split; [|reflexivity]. apply nth_error_None in En. rewrite skipn_all2 by assumption. discriminate.
  Qed.
  Definition key (w : list N) : branch := [PSingle (XSub [map chr w])].
  Lemma chars_groups w : groups_branch (map chr w) = 0.
  Proof. unfold groups_branch. induction w as [|c w IH]; [reflexivity|exact IH]. Qed.
  Lemma key_groups w : groups_branch (key w) = 1.
  Proof. unfold groups_branch, key. cbn. fold (groups_branch (map chr w)). now rewrite chars_groups. Qed.
  Definition keys : list (list N) -> ere := map key.
  Lemma key_ways w g i : i <= length T -> (window w T i /\ w_branch atom_check T (key w) g i = [(i + length w, [(g, (i, i + length w))])]) \/ (~ window w T i /\ w_branch atom_check T (key w) g i = []).
  Proof.
    intros Hi. unfold key. cbn [w_branch]. change (w_part atom_check T (PSingle (XSub [map chr w])) g i) with (w_expr atom_check T (XSub [map chr w]) g i). rewrite w_expr_sub. cbn [w_alts]. destruct (chars_ways w (S g) i Hi) as [[H1 H2]|[H1 H2]]; rewrite H2; [left|right]; auto.
  Qed.
  Lemma keys_hd ws : forall g i, i <= length T ->
    match hd_error (w_alts atom_check T (keys ws) g i) with
    | Some (j, L) => exists k w, nth_error ws k = Some w /\ window w T i /\ j = i + length w /\ L = [(g + k, (i, j))] /\ forall k' w', k' < k -> nth_error ws k' = Some w' -> ~ window w' T i
    | None => forall w, In w ws -> ~ window w T i
    end.
  Proof.
    induction ws as [|w ws IH]; intros g i Hi; cbn [keys map w_alts]; [intros w []|]. rewrite key_groups. destruct (key_ways w g i Hi) as [[H1 H2]|[H1 H2]]; rewrite H2; cbn [app hd_error].
    - exists 0, w. rewrite Nat.add_0_r. do 4 (split; [reflexivity || assumption|]). intros k' w' Hk. lia.
    - specialize (IH (g + 1) i Hi). fold (keys ws). destruct (hd_error (w_alts atom_check T (keys ws) (g + 1) i)) as [[j L]|].
      + destruct IH as (k & v & K1 & K2 & K3 & K4 & K5). exists (S k), v. split; [assumption|]. split; [assumption|]. split; [assumption|]. split; [rewrite K4; do 2 f_equal; lia|].
        intros [|k'] w' Hk Hw'; [cbn in Hw'; injection Hw' as <-; assumption|]. apply (K5 k'); [lia|assumption].
      + intros v [<-|Hv]; auto.
  Qed.
  Lemma plain_hd ws : forall g i, i <= length T ->
    match hd_error (w_alts atom_check T (map (word_branch false false) ws) g i) with
    | Some (j, L) => exists k w, nth_error ws k = Some w /\ window w T i /\ j = i + length w /\ L = [] /\ forall k' w', k' < k -> nth_error ws k' = Some w' -> ~ window w' T i
    | None => forall w, In w ws -> ~ window w T i
    end.
  Proof.
    induction ws as [|w ws IH]; intros g i Hi; cbn [map w_alts]; [intros w []|]. replace (word_branch false false w) with (map chr w) by (unfold word_branch; cbn [app]; now rewrite app_nil_r). destruct (chars_ways w g i Hi) as [[H1 H2]|[H1 H2]]; rewrite H2; cbn [app hd_error].
    - exists 0, w. do 4 (split; [reflexivity || assumption|]). intros k' w' Hk. lia.
    - specialize (IH (g + groups_branch (map chr w)) i Hi). destruct (hd_error (w_alts atom_check T _ _ i)) as [[j L]|].
      + destruct IH as (k & v & K1 & K2 & K3 & K4 & K5). exists (S k), v. do 4 (split; [assumption|]).
        intros [|k'] w' Hk Hw'; [cbn in Hw'; injection Hw' as <-; assumption|]. apply (K5 k'); [lia|assumption].
      + intros v [<-|Hv]; auto.
  Qed.
  (** From a place to the text. *)
  Lemma first_place ws e i j L (mk : nat -> nat * nat -> log) : (forall g i, i <= length T ->
    match hd_error (w_alts atom_check T e g i) with
    | Some (j, L) => exists k w, nth_error ws k = Some w /\ window w T i /\ j = i + length w /\ L = mk (g + k) (i, j) /\ forall k' w', k' < k -> nth_error ws k' = Some w' -> ~ window w' T i
    | None => forall w, In w ws -> ~ window w T i
    end) -> hd_error (all_matches atom_check T e) = Some (i, j, L) ->
    exists U k w, first_of ws T U k w /\ length U = i /\ j = i + length w /\ L = mk (S k) (i, j) ++ [(0, (i, j))].
  Proof.
    intros Hh H. apply hd_flat_map in H as (l1 & a & l2 & El & H1 & H2).
    assert (Ha : a <= length T) by (assert (X : In a (seq 0 (S (length T)))) by (rewrite El; apply in_or_app; right; now left); apply in_seq in X; lia).
    assert (G := Hh 1 a Ha). destruct (w_alts atom_check T e 1 a) as [|[j0 L0] r] eqn:Ew; [discriminate H2|]. cbn [map hd_error fst snd] in H2, G. injection H2 as -> -> <-.
    destruct G as (k & w & K1 & K2 & K3 & K4 & K5). destruct (window_stands w T i K2 Ha) as [S1 S2]. exists (firstn i T), k, w. split; [|split; [assumption|split; [assumption|now rewrite K4]]].
    split; [assumption|]. split; [assumption|]. intros k' w' U' Hk' HU'. destruct (stands_window w' T U' HU') as (W1 & W2 & _). rewrite S2.
    destruct (Nat.lt_trichotomy i (length U')) as [Hlt|[Heq|Hgt]]; [now left| |].
    - right. split; [assumption|]. destruct (Nat.le_gt_cases k k') as [|Hlt]; [assumption|]. exfalso. apply (K5 k' w' Hlt Hk'). now rewrite Heq.
    - exfalso. assert (X : In (length U') l1).
      { assert (X : In (length U') (seq 0 (S (length T)))) by (apply in_seq; lia). rewrite El in X. apply in_app_or in X as [X|[X|X]]; [assumption|lia|]. assert (Y := seq_later _ _ _ _ _ El _ X). lia. }
      specialize (H1 _ X). specialize (Hh 1 (length U') ltac:(lia)). destruct (w_alts atom_check T e 1 (length U')); [|discriminate H1]. cbn in Hh. apply (Hh w'); [eapply nth_error_In; eauto|assumption].
  Qed.
  Lemma no_place ws e (P : nat -> nat -> nat -> log -> Prop) : (forall g i, i <= length T ->
    match hd_error (w_alts atom_check T e g i) with
    | Some (j, L) => P g i j L
    | None => forall w, In w ws -> ~ window w T i
    end) -> hd_error (all_matches atom_check T e) = None -> forall w U, In w ws -> ~ stands false false w T U.
  Proof.
    intros Hh H w U Hw HU. destruct (stands_window w T U HU) as (W1 & W2 & _). assert (X := flat_map_none _ _ H (length U) ltac:(apply in_seq; lia)).
    specialize (Hh 1 (length U) ltac:(lia)). cbv beta in X. destruct (w_alts atom_check T e 1 (length U)); [|discriminate X]. now apply (Hh w).
  Qed.
End Keys.
Lemma key_grammar w : G_branch (key w) (s2l "(" ++ quote w ++ s2l ")").
Proof.
  unfold key. rewrite <- (app_nil_r (s2l "(" ++ quote w ++ s2l ")")). apply Gbr_cons; [|constructor]. apply Gp_single, Gx_sub, Ge_one.
  assert (H := word_branch_grammar false false w). unfold word_text, word_branch in H. cbn [app] in H. now rewrite !app_nil_r in H.
Qed.
Lemma keys_grammar w ws : G_ere (keys (w :: ws)) (group_any (w :: ws)).
Proof.
  revert w. induction ws as [|v ws IH]; intros w; cbn [keys map].
  - cbn [group_any]. apply Ge_one, key_grammar.
  - change (group_any (w :: v :: ws)) with ((s2l "(" ++ quote w ++ s2l ")") ++ s2l "|" ++ group_any (v :: ws)). apply Ge_more; [apply key_grammar|apply IH].
Qed.
Lemma keys_scalar ws : Forall (Forall scalar) ws -> Forall scalar (group_any ws).
Proof.
  assert (K : forall w, Forall scalar w -> Forall scalar (s2l "(" ++ quote w ++ s2l ")")) by (intros w Hw; apply Forall_app; split; [repeat constructor|apply Forall_app; split; [now apply quote_scalar|repeat constructor]]).
  induction 1 as [|w ws Hw Hws IH]; [constructor|]. destruct ws as [|v ws]; [now apply K|].
  change (group_any (w :: v :: ws)) with ((s2l "(" ++ quote w ++ s2l ")") ++ s2l "|" ++ group_any (v :: ws)). apply Forall_app. split; [now apply K|]. apply Forall_app. split; [repeat constructor|exact IH].
Qed.
Lemma chars_free w : forallb free_part (map chr w) = true.
Proof. induction w; [reflexivity|assumption]. Qed.
Lemma chars_loops w : forallb loops_part (map chr w) = true.
Proof. induction w; [reflexivity|assumption]. Qed.
Lemma keys_free ws : anchor_free (keys ws) = true.
Proof. apply forallb_forall. intros b Hb. apply in_map_iff in Hb as (w & <- & _). cbn. now rewrite chars_free. Qed.
Lemma keys_loops ws : loops_read (keys ws) = true.
Proof. apply forallb_forall. intros b Hb. apply in_map_iff in Hb as (w & <- & _). cbn. now rewrite chars_loops. Qed.
Lemma words_free ws : anchor_free (map (word_branch false false) ws) = true.
Proof. apply forallb_forall. intros b Hb. apply in_map_iff in Hb as (w & <- & _). unfold word_branch. cbn [app]. rewrite app_nil_r. apply chars_free. Qed.
Lemma words_loops ws : loops_read (map (word_branch false false) ws) = true.
Proof. apply forallb_forall. intros b Hb. apply in_map_iff in Hb as (w & <- & _). unfold word_branch. cbn [app]. rewrite app_nil_r. apply chars_loops. Qed.
Lemma key_carets w : carets_branch (key w) = Some 0.
Proof. unfold carets_branch, key. cbn [map carets_part carets_expr]. assert (H := chars_carets w []). rewrite app_nil_r in H. unfold common. cbn [map]. rewrite H. reflexivity. Qed.
Lemma keys_carets ws : carets (keys ws) = Some 0.
Proof.
  unfold carets, common. destruct ws as [|w ws]; [reflexivity|]. unfold keys; cbn [map]. rewrite key_carets.
  assert (X : forallb (opt_eqb (Some 0)) (map carets_branch (map key ws)) = true) by (apply forallb_forall; intros x Hx; apply in_map_iff in Hx as (b & <- & Hb); apply in_map_iff in Hb as (v & <- & _); now rewrite key_carets). now rewrite X.
Qed.
Lemma keys_groups ws : groups (keys ws) = length ws.
Proof. unfold groups, keys. rewrite map_map. induction ws as [|w ws IH]; [reflexivity|]. cbn [map list_sum fold_right length] in *. rewrite key_groups. unfold list_sum in IH. rewrite IH. reflexivity. Qed.
(** Both answers of an engine, given the best match. *)
Lemma best_answer s e en T : compiled s en -> Forall scalar s -> Forall scalar T -> G_ere e s -> loops_read e = true -> anchor_free e = true -> caret_ok e = true ->
  match hd_error (all_matches atom_check T e) with
  | Some (i, j, L) => engine_test en T = Ok true /\ engine_exec en T = Ok (Some (map (capture T L) (seq 0 (engine_groups en)))) /\
      exists i' j' L', matches T e i' j' L' /\ (forall k, last_of k L' <> None -> k < engine_groups en) /\ forall k, k < engine_groups en -> capture T L k = capture T L' k
  | None => engine_test en T = Ok false /\ engine_exec en T = Ok None
  end.
Proof.
  intros H Hs HT Hg Hl Hf Hc. assert (X := C25_free s e en T atom_check H Hs HT Hg atom_check_iff Hl Hf).
  destruct (compiled_unique _ en e H Hs Hg) as (G1 & R & _). specialize (R (or_intror Hc)).
  destruct (right_test e en R T HT) as (b & Eb & Hb). destruct (right_exec e en R T HT) as (o & Eo & Ho). rewrite X in Eo. injection Eo as <-.
  destruct (hd_error (all_matches atom_check T e)) as [[[i j] L]|] eqn:Eh; cbn [answer] in *.
  - split; [|split; [assumption|]].
    + rewrite Eb. f_equal. apply Hb. destruct Ho as [(i' & j' & L' & Hm & _) _]. now exists i', j', L'.
    + destruct (exec_room s e en T _ H Hs HT Hg (or_intror Hc) X) as (i' & j' & L' & M1 & M2 & M3). exists i', j', L'. split; [assumption|]. split; [assumption|].
      intros k Hk. apply (f_equal (fun l => nth_error l k)) in M2. rewrite !nth_capture in M2 by assumption. congruence.
  - split; [|assumption]. rewrite Eb. f_equal. destruct b; [|reflexivity]. exfalso. apply Ho. now apply Hb.
Qed.
Lemma key_match T w g i j L : m_branch T (key w) g i j L -> L = [(g, (i, j))].
Proof.
  intros H. unfold key in H. inversion H as [|p b g0 i0 k j0 L1 L2 H1 H2]; subst. inversion H2; subst. inversion H1 as [e0 g1 i1 j1 L3 Hx| | |]; subst. inversion Hx as [|bs g2 i2 j2 L4 Ha]; subst.
  inversion Ha as [b bs g3 i3 j3 L5 Hb|b bs g3 i3 j3 L5 Hb]; subst; [|inversion Hb]. rewrite <- (app_nil_r (map chr w)) in Hb. apply chars_match in Hb as [Hb _]. inversion Hb; subst. reflexivity.
Qed.
Lemma keys_match T ws : forall g i j L, m_alts T (keys ws) g i j L -> exists k, k < length ws /\ L = [(g + k, (i, j))].
Proof.
  induction ws as [|w ws IH]; intros g i j L H; cbn [keys map] in H; inversion H as [b bs g0 i0 j0 L0 Hb|b bs g0 i0 j0 L0 Hb]; subst.
  - apply key_match in Hb. exists 0. rewrite Nat.add_0_r. cbn. split; [lia|assumption].
  - rewrite key_groups in Hb. destruct (IH _ _ _ _ Hb) as (k & Hk & ->). exists (S k). cbn. split; [lia|]. do 2 f_equal. lia.
Qed.
Definition key_answer (T U w : list N) (k m : nat) : option (nat * nat) := if (m =? 0) || (m =? S k) then Some (bytes_of U, bytes_of U + bytes_of w) else None.
Lemma key_capture T ws U k w i j : first_of ws T U k w -> length U = i -> j = i + length w -> forall m, capture T ([(S k, (i, j))] ++ [(0, (i, j))]) m = key_answer T U w k m.
Proof.
  intros (_ & Hst & _) <- -> m. destruct (span_bytes T U w Hst) as [B1 B2]. unfold capture, key_answer. cbn [app last_of].
  destruct m as [|m]; cbn [Nat.eqb orb]; [now rewrite B1, B2|]. rewrite (Nat.eqb_sym k m). destruct (m =? k); [now rewrite B1, B2|reflexivity].
Qed.
Theorem keys_find w0 ws en T : compiled (group_any (w0 :: ws)) en -> Forall (Forall scalar) (w0 :: ws) -> Forall scalar T ->
  exists o, engine_exec en T = Ok o /\ engine_test en T = Ok (match o with Some _ => true | None => false end) /\
    match o with
    | Some cs => exists U k w, first_of (w0 :: ws) T U k w /\ S k < length cs /\ length cs <= S (length (w0 :: ws)) /\ (~ is_dfa en -> length cs = S (length (w0 :: ws))) /\ cs = map (key_answer T U w k) (seq 0 (length cs))
    | None => forall w U, In w (w0 :: ws) -> ~ stands false false w T U
    end.
Proof.
  intros H Hw HT. assert (Hs := keys_scalar _ Hw). assert (Hg := keys_grammar w0 ws). set (e := keys (w0 :: ws)) in *.
  assert (X := best_answer _ e en T H Hs HT Hg (keys_loops _) (keys_free _) ltac:(unfold caret_ok, e; now rewrite keys_carets)).
  destruct (hd_error (all_matches atom_check T e)) as [[[i j] L]|] eqn:Eh.
  - destruct X as (X1 & X2 & i' & j' & L' & M1 & M2 & M3). eexists. split; [exact X2|]. split; [exact X1|].
    destruct (first_place T (w0 :: ws) e i j L (fun k p => [(k, p)]) (keys_hd T _) Eh) as (U & k & w & F1 & F2 & F3 & ->). assert (KC := key_capture T _ U k w i j F1 F2 F3).
    exists U, k, w. rewrite map_length, seq_length. split; [assumption|]. split; [|split; [|split]].
    + destruct (Nat.lt_ge_cases (S k) (engine_groups en)) as [|Hge]; [assumption|exfalso]. destruct M1 as (L0 & M0 & ->). destruct (keys_match T _ _ _ _ _ M0) as (k' & _ & ->).
      assert (Hk : 1 + k' < engine_groups en) by (apply M2; cbn [app last_of]; cbn; rewrite Nat.eqb_refl; discriminate). specialize (M3 (1 + k') Hk). rewrite KC in M3.
      unfold key_answer in M3. replace (1 + k' =? S k) with false in M3 by lia. unfold capture in M3. cbn in M3. rewrite Nat.eqb_refl in M3. discriminate.
    + destruct (C32_groups_partial _ en e H Hs Hg) as [C _]. unfold e in C. now rewrite keys_groups in C.
    + intros Hd. rewrite <- (keys_groups (w0 :: ws)). fold e. assert (Hl : exists v, nth_error (w0 :: ws) (length ws) = Some v /\ In v (w0 :: ws)).
      { destruct (nth_error (w0 :: ws) (length ws)) as [v|] eqn:Ev; [exists v; split; [reflexivity|eapply nth_error_In; eauto]|]. apply nth_error_None in Ev. cbn in Ev. lia. }
      destruct Hl as (v & Hv & Hin).
      assert (Hm : exists L, matches v e 0 (length v) L /\ last_of (groups e) L <> None).
      { assert (A : forall ws g, nth_error ws (length ws - 1) = Some v -> m_alts v (keys ws) g 0 (length v) [(g + (length ws - 1), (0, length v))]).
        { induction ws0 as [|u ws' IH]; intros g Hn; [discriminate|]. cbn [keys map]. destruct ws' as [|u' ws'].
          - cbn in Hn. injection Hn as ->. cbn. rewrite Nat.add_0_r. apply ma_here. unfold key. rewrite <- (app_nil_r [(g, (0, length v))]). apply mb_cons with (j := length v); [|constructor; lia].
            apply mp_single. change [(g, (0, length v))] with ([] ++ [(g, (0, length v))]). apply me_group, ma_here. rewrite <- (app_nil_r (map chr v)). apply chars_match. cbn [skipn]. split; [constructor; lia|apply firstn_all].
          - apply ma_later. rewrite key_groups. replace (g + (length (u :: u' :: ws') - 1)) with (g + 1 + (length (u' :: ws') - 1)) by (cbn; lia). apply IH. cbn [length] in *. replace (S (S (length ws')) - 1) with (S (S (length ws') - 1)) in Hn by lia. exact Hn. }
        specialize (A (w0 :: ws) 1). cbn [length] in A. rewrite Nat.sub_succ, Nat.sub_0_r in A. specialize (A Hv). eexists. split; [exists [(1 + length ws, (0, length v))]; split; [exact A|reflexivity]|].
        unfold e. rewrite keys_groups. cbn [app last_of length Nat.add]. cbn. rewrite Nat.eqb_refl. discriminate. }
      destruct Hm as (Lv & Hm & Hla). rewrite Forall_forall in Hw. exact (C32_exact _ en e v 0 (length v) Lv H Hs Hg Hd (Hw v Hin) Hm Hla).
    + apply map_ext. exact KC.
  - destruct X as [X1 X2]. exists None. split; [assumption|]. split; [assumption|]. exact (no_place T (w0 :: ws) e _ (keys_hd T _) Eh).
Qed.
Theorem words_first w0 ws en T : compiled (quote_any (w0 :: ws)) en -> Forall (Forall scalar) (w0 :: ws) -> Forall scalar T ->
  exists o, engine_exec en T = Ok o /\ engine_test en T = Ok (match o with Some _ => true | None => false end) /\
    match o with
    | Some cs => exists U k w, first_of (w0 :: ws) T U k w /\ cs = [Some (bytes_of U, bytes_of U + bytes_of w)]
    | None => forall w U, In w (w0 :: ws) -> ~ stands false false w T U
    end.
Proof.
  intros H Hw HT. assert (Hs := any_scalar _ Hw). assert (Hg := any_grammar w0 ws). set (e := map (word_branch false false) (w0 :: ws)) in *.
  assert (X := best_answer _ e en T H Hs HT Hg (words_loops _) (words_free _) ltac:(unfold caret_ok, e; now rewrite words_carets)).
  destruct (hd_error (all_matches atom_check T e)) as [[[i j] L]|] eqn:Eh.
  - destruct X as (X1 & X2 & _). eexists. split; [exact X2|]. split; [exact X1|].
    destruct (first_place T (w0 :: ws) e i j L (fun _ _ => []) (plain_hd T _) Eh) as (U & k & w & F1 & F2 & F3 & ->). exists U, k, w. split; [assumption|].
    assert (G2 : engine_groups en = 1) by (destruct (C32_groups_partial _ en e H Hs Hg) as [C _]; unfold e in C; rewrite words_groups in C; destruct (compiled_right _ en H Hs) as (_ & _ & C' & _); lia).
    rewrite G2. cbn [seq map]. destruct F1 as (_ & Hst & _). destruct (span_bytes T U w Hst) as [B1 B2]. unfold capture. cbn [app last_of Nat.eqb]. subst i j. now rewrite B1, B2.
  - destruct X as [X1 X2]. exists None. split; [assumption|]. split; [assumption|]. exact (no_place T (w0 :: ws) e _ (plain_hd T _) Eh).
Qed.
Theorem keys_compile w0 ws : Forall (Forall scalar) (w0 :: ws) ->
  (exists en, compile_regex (group_any (w0 :: ws)) = Ok en) /\ (exists en, compile_flat (group_any (w0 :: ws)) = Ok en) /\ exists en, compile_flat_u8 (group_any (w0 :: ws)) = Ok en.
Proof.
  intros Hw. assert (Hs := keys_scalar _ Hw). assert (Hp : parse_str (group_any (w0 :: ws)) = ROk (keys (w0 :: ws))) by apply parse_iff, keys_grammar.
  assert (Ha : forall x, In x (atoms (keys (w0 :: ws))) -> named_well x).
  { intros x Hx. unfold atoms in Hx. apply in_flat_map in Hx as (b & Hb & Hx). apply in_map_iff in Hb as (v & <- & _). unfold key, atoms_branch in Hx. cbn in Hx. rewrite !app_nil_r in Hx.
    apply in_flat_map in Hx as (p & Hq & Hx). apply in_map_iff in Hq as (c & <- & _). destruct Hx as [<-|[]]. exact I. }
  assert (H0 : Forall scalar w0) by (now inversion Hw).
  assert (Ho : occurs (keys (w0 :: ws)) w0).
  { exists 0, (length w0), ([(1, (0, length w0))] ++ [(0, (0, length w0))]). exists [(1, (0, length w0))]. split; [|reflexivity]. cbn [keys map]. apply ma_here. unfold key. rewrite <- (app_nil_r [(1, (0, length w0))]). apply mb_cons with (j := length w0); [|constructor; lia].
    apply mp_single. change [(1, (0, length w0))] with ([] ++ [(1, (0, length w0))]). apply me_group, ma_here. rewrite <- (app_nil_r (map chr w0)). apply chars_match. cbn [skipn]. split; [constructor; lia|apply firstn_all]. }
  split; [|split; [exact (flat_compiles _ _ Hp Hs w0 Ha H0 Ho)|exact (flat_u8_compiles _ _ Hp Hs w0 H0 Ho)]].
  apply (anchors_compile _ _ w0 _ Hp Hs (keys_carets _)); auto.
Qed.
