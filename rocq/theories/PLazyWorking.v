(** The finished automata of a pattern start a match before they read on. *)
From Verif Require Export PLazy PPrioWorking PPrioByte.
From Coq Require Import ZifyBool ZifyNat ZifyN.
Open Scope nat_scope.
Open Scope list_scope.
Set Default Proof Using "Type".

Definition any_ranges : list range := to_ranges (NonmatchingList []).
(** Before the match the character automaton has one way to read, by the symbol of the loop. *)
Definition lazy_char (n : nfa atom) : Prop := lazyq to_ranges (fun _ _ => False) (fun k => k = any_ranges) n.

Lemma get_app1 {A} (l m : nfa A) q : q < length l -> get (l ++ m) q = get l q.
Proof. intros H. unfold get. now apply app_nth1. Qed.
Lemma get_app2 {A} (l m : nfa A) q : get (l ++ m) (length l + q) = get m q.
Proof. unfold get. rewrite app_nth2 by lia. f_equal. lia. Qed.
Lemma front_lazy b : ok b -> 2 <= length b -> get b 0 = mkState [] [(1, ESC 0)] -> lazy_char (nfa_concat [nfa_concat [any_loop; b]; any_loop]).
Proof.
  intros Hok Hl Hg. assert (Hb := ok_fin _ Hok). assert (Ha : fin any_loop) by (exists (firstn 3 any_loop); reflexivity).
  assert (La : length any_loop = 4) by reflexivity.
  set (f := nfa_concat [any_loop; b]). assert (Lf : length f = 6 + length b) by (unfold f; rewrite nfa_concat_length; [cbn; lia|repeat constructor; assumption]).
  assert (Ef : f = [mkState [] [(1, ENone)]] ++ seg 1 any_loop (5, ENone) ++ seg 5 b (5 + length b, ENone) ++ [] ++ [empty_state]).
  { unfold f. rewrite nfa_concat_eq by (repeat constructor; assumption). cbn [cl]. rewrite <- !app_assoc. reflexivity. }
  assert (Hf : fin f) by exact (ok_fin _ (loop_front_ok true b Hok)).
  set (N := nfa_concat [f; any_loop]).
  assert (EN : N = [mkState [] [(1, ENone)]] ++ seg 1 f (1 + length f, ENone) ++ cl (1 + length f) [any_loop] ++ [empty_state]).
  { unfold N. rewrite nfa_concat_eq by (repeat constructor; assumption). cbn [cl]. rewrite <- !app_assoc. reflexivity. }
  assert (GN : forall q, q < length f - 1 -> get N (S q) = shift 1 (get f q)).
  { intros q Hq. rewrite EN. change (S q) with (length [@mkState atom [] [(1, ENone)]] + q). rewrite get_app2, get_app1 by (rewrite seg_length; lia).
    rewrite get_seg by (try assumption; lia). destruct (Nat.eqb_spec q (length f - 1)); [lia|reflexivity]. }
  assert (G0 : get N 0 = mkState [] [(1, ENone)]) by (rewrite EN; reflexivity).
  assert (F0 : get f 0 = mkState [] [(1, ENone)]) by (rewrite Ef; reflexivity).
  assert (FA : forall q, q < 4 -> get f (1 + q) = get (seg 1 any_loop (5, ENone)) q).
  { intros q Hq. rewrite Ef. change (1 + q) with (length [@mkState atom [] [(1, ENone)]] + q). rewrite get_app2. apply get_app1. rewrite seg_length. lia. }
  assert (FB : get f 5 = mkState [] [(6, ESC 0)]).
  { rewrite Ef. change 5 with (length [@mkState atom [] [(1, ENone)]] + 4) at 3. rewrite get_app2.
    change 4 with (length (seg 1 any_loop (5, ENone)) + 0). rewrite get_app2, get_app1 by (rewrite seg_length; lia).
    rewrite get_seg by (try assumption; lia). destruct (Nat.eqb_spec 0 (length b - 1)); [lia|]. rewrite Hg. reflexivity. }
  assert (G1 : get N 1 = mkState [] [(2, ENone)]) by (rewrite GN, F0 by lia; reflexivity).
  assert (G2 : get N 2 = mkState [] [(5, ENone); (3, ENone)]) by (rewrite GN by lia; change 1 with (1 + 0); rewrite (FA 0) by lia; reflexivity).
  assert (G3 : get N 3 = mkState [(4, NonmatchingList [])] []) by (rewrite GN by lia; change 2 with (1 + 1); rewrite (FA 1) by lia; reflexivity).
  assert (G4 : get N 4 = mkState [] [(2, ENone)]) by (rewrite GN by lia; change 3 with (1 + 2); rewrite (FA 2) by lia; reflexivity).
  assert (G5 : get N 5 = mkState [] [(6, ENone)]) by (rewrite GN by lia; change 4 with (1 + 3); rewrite (FA 3) by lia; reflexivity).
  assert (G6 : get N 6 = mkState [] [(7, ESC 0)]) by (rewrite GN, FB by lia; reflexivity).
  assert (E6 : fl N (edges (get N 6)) [LS]) by (rewrite G6; apply fl_start; constructor).
  assert (E5 : fl N (edges (get N 5)) [LS]) by (rewrite G5; apply (fl_none N 6 [] [LS] []); [assumption|constructor]).
  assert (E3 : fl N (edges (get N 3)) [LC 4 (NonmatchingList [])]) by (rewrite G3; apply fl_sym; constructor).
  assert (E2 : fl N (edges (get N 2)) [LS; LC 4 (NonmatchingList [])]).
  { rewrite G2. apply (fl_none N 5 _ [LS] [LC 4 (NonmatchingList [])]); [assumption|]. apply (fl_none N 3 [] [LC 4 (NonmatchingList [])] []); [assumption|constructor]. }
  assert (E4 : fl N (edges (get N 4)) [LS; LC 4 (NonmatchingList [])]) by (rewrite G4; apply (fl_none N 2 [] [LS; LC 4 (NonmatchingList [])] []); [assumption|constructor]).
  assert (E1 : fl N (edges (get N 1)) [LS; LC 4 (NonmatchingList [])]) by (rewrite G1; apply (fl_none N 2 [] [LS; LC 4 (NonmatchingList [])] []); [assumption|constructor]).
  assert (E0 : fl N (edges (get N 0)) [LS; LC 4 (NonmatchingList [])]) by (rewrite G0; apply (fl_none N 1 [] [LS; LC 4 (NonmatchingList [])] []); [assumption|constructor]).
  assert (HO : ForallOrdPairs (okp to_ranges (fun _ _ => False)) [LS; LC 4 (NonmatchingList [])]) by (repeat constructor).
  exists (fun s => s = 0 \/ s = 4). split; [now left|]. intros s Hs. exists [LS; LC 4 (NonmatchingList [])].
  split; [destruct Hs as [->| ->]; assumption|]. split; [assumption|]. intros t a [E|[E|[]]]; [discriminate|]. injection E as <- <-. split; [now right|reflexivity].
Qed.

Lemma clean_start_first {A} (b b1 : nfa A) k : clean_start_anchors b = Ok b1 -> get b 0 = mkState [] [(1, ESC k)] -> get b1 0 = mkState [] [(1, ESC k)].
Proof.
  unfold clean_start_anchors. destruct (reach_from _ _ _) as [r| | |]; try discriminate. cbn [bind]. intros E Hg. injection E as <-.
  rewrite (get_enum_map b (fun i s => mkState (trans s) (filter (fun e => not_start (snd e) || nth i r false) (eps s)))) by reflexivity.
  now rewrite Hg.
Qed.
Lemma clean_end_first {A} (b b1 : nfa A) k : clean_end_anchors b = Ok b1 -> get b 0 = mkState [] [(1, ESC k)] -> get b1 0 = mkState [] [(1, ESC k)].
Proof.
  unfold clean_end_anchors. destruct (reach_from _ _ _) as [r| | |]; try discriminate. cbn [bind]. intros E Hg. injection E as <-.
  rewrite (get_map b (fun s => mkState (trans s) (filter (fun e => not_end (snd e) || nth (fst e) r false) (eps s)))) by reflexivity.
  now rewrite Hg.
Qed.

Lemma ranges_eqb_eq a b : ranges_eqb a b = true -> a = b.
Proof.
  revert b; induction a as [|x a IH]; intros [|y b] H; cbn in H; try discriminate; [reflexivity|].
  apply andb_true_iff in H as [H1 H2]. f_equal; [now apply range_eqb_eq|auto].
Qed.
Theorem working_lazy t n : tree_labels atom_ok (fun _ => True) (TCapture t 0) -> tree_ok (TCapture t 0) ->
  working_new (TCapture t 0) = Ok n -> n <> [] -> lazy_char n.
Proof.
  intros Hat Ht. unfold working_new, working_new_loop_opt. assert (Hok := build_ok _ Ht).
  assert (Hl : 2 <= length (build (TCapture t 0))).
  { cbn [build]. unfold nfa_capture. rewrite modify_length, !app_length. cbn. lia. }
  assert (Hg : get (build (TCapture t 0)) 0 = mkState [] [(1, ESC 0)]).
  { cbn [build]. unfold nfa_capture, get. rewrite nth_modify. destruct (Nat.eqb_spec 0 (2 + length (build t) - 2)) as [E|_]; [|reflexivity].
    exfalso. assert (Hf : fin (build t)) by (inversion Ht; subst; now apply build_ok). destruct Hf as [m Em]. rewrite Em, app_length in E. cbn in E. lia. }
  set (b := build (TCapture t 0)) in *. rewrite wfb_guard by (try apply Hok; lia). cbn [guard bind].
  destruct (clean_start_spec acheck b) as (b1 & E1 & T1 & V1); [apply Hok|lia|]. rewrite E1. cbn [bind].
  assert (O1 : ok b1) by (eapply thin_ok; eauto).
  destruct (clean_end_spec acheck b1) as (b2 & E2 & T2 & V2); [apply O1|rewrite (proj1 T1); lia|]. rewrite E2. cbn [bind].
  assert (O2 : ok b2) by (eapply thin_ok; eauto).
  assert (Hg2 := clean_end_first _ _ _ E2 (clean_start_first _ _ _ E1 Hg)).
  assert (L2 : 2 <= length b2) by (rewrite (proj1 T2), (proj1 T1); assumption).
  assert (OF := loop_front_ok true b2 O2). assert (OB := loop_back_ok true _ OF). unfold loop_back, loop_front in OB, OF.
  assert (Q := front_lazy b2 O2 L2 Hg2).
  set (f := nfa_concat [any_loop; b2]) in *. set (N := nfa_concat [f; any_loop]) in *.
  intros E Hne. eapply (finalize_lazy to_ranges _ _ acheck atom_eqb atom_ok); [apply reading_acheck| | |exact OB| |exact E|exact Hne|exact Q].
  - intros x y Hxy. now apply ranges_eqb_eq.
  - assert (GA : Forall (lab atom_ok (fun _ => True)) any_loop) by (apply (build_labels _ _ any_tree); [exact I|]; cbn; constructor).
    assert (G0 : Forall (lab atom_ok (fun _ => True)) b2).
    { apply (build_labels _ _ (TCapture t 0) I) in Hat. apply lab_iff in Hat as [L1 L3]. assert (TT : thin b2 b) by (eapply thin_trans; eauto). apply lab_iff. split.
      - eapply thin_syms; eauto.
      - eapply thin_marks; eauto. }
    assert (GN : Forall (lab atom_ok (fun _ => True)) N) by (apply lab_concat; [exact I|]; constructor; [apply lab_concat; [exact I|]; constructor; [exact GA|constructor; [exact G0|constructor]]|constructor; [exact GA|constructor]]).
    apply lab_iff in GN as [GN _]. intros s u a Ha. eauto.
  - unfold N. rewrite nfa_concat_length; [lia|]. two; [apply OF|apply any_loop_ok].
Qed.

(** ** Bytes *)
Definition bapart (a b : range) : Prop := forall c, byte_check a c = true -> byte_check b c = true -> False.
(** Before the match at most one way to read is open for each byte. *)
Definition lazy_byte (m : nfa range) : Prop := lazyq (fun r : range => r) bapart (fun _ => True) m.
Definition apartb (a b : range) : bool := (snd a <? fst b)%N || (snd b <? fst a)%N.
Lemma apartb_iff a b : apartb a b = true -> bapart a b.
Proof. unfold apartb, bapart, byte_check, in_range. destruct a, b; cbn. intros H c H1 H2. lia. Qed.
Fixpoint all_apart (l : list range) : bool := match l with [] => true | x :: r => forallb (apartb x) r && all_apart r end.
Lemma any_symbol_apart : match u8_symbol (NonmatchingList []) with Ok sym => forallb (fun s => all_apart (map snd (trans s))) sym | _ => false end = true.
Proof. vm_compute. reflexivity. Qed.
Lemma u8_symbol_ranges a b : to_ranges a = to_ranges b -> u8_symbol a = u8_symbol b.
Proof. unfold u8_symbol, symbol_trie. now intros ->. Qed.
Lemma any_node a sym i : to_ranges a = any_ranges -> u8_symbol a = Ok sym -> all_apart (map snd (trans (get sym i))) = true.
Proof.
  intros Ha Es. assert (H := any_symbol_apart). rewrite (u8_symbol_ranges a (NonmatchingList [])) in Es by assumption. rewrite Es in H.
  destruct (Nat.lt_ge_cases i (length sym)) as [Hi|Hi].
  - rewrite forallb_forall in H. apply H. now apply get_In.
  - unfold get. rewrite nth_overflow by assumption. reflexivity.
Qed.

Section Byte.
  Variable n : nfa atom.
  Hypothesis Hn : ok n.
  Hypothesis Hat : forall s t a, In (t, a) (trans (get n s)) -> atom_ok a.
  Notation L := (length n).
  Variables (B : nfa range) (subs : list (state range)).
  Hypothesis HB : built n B subs.

  Definition csym (x : nat * range) : lev range := LC (fst x) (snd x).
  Lemma apart_fop t z off l : all_apart (map snd l) = true -> ForallOrdPairs (okp (fun r : range => r) bapart) (map csym (map (mp t z off) l)).
  Proof.
    induction l as [|[y r] l IH]; cbn [map all_apart snd]; intros H; [constructor|]. apply andb_true_iff in H as [H1 H2]. constructor; [|auto].
    rewrite forallb_forall in H1. apply Forall_forall. intros x Hx. apply in_map_iff in Hx as (w & <- & Hx). apply in_map_iff in Hx as ([y' r'] & <- & Hx).
    assert (S1 : snd (mp t z off (y, r)) = r) by (unfold mp; cbn; destruct (y =? z); reflexivity).
    assert (S2 : snd (mp t z off (y', r')) = r') by (unfold mp; cbn; destruct (y' =? z); reflexivity).
    cbn [okp csym]. rewrite S1, S2. apply apartb_iff, H1, in_map_iff. exists (y', r'). auto.
  Qed.
  Definition exp1 (x : lev atom) (l : list (lev range)) : Prop :=
    match x with
    | LS => l = [LS]
    | LC t a => exists es, covers L subs (t, a) es /\ l = map csym es /\ exists s, In (t, a) (trans (get n s))
    end.
  Definition exp (r : list (lev atom)) (r' : list (lev range)) : Prop := exists rs, Forall2 exp1 r rs /\ r' = concat rs.
  Lemma exp_app r1 r2 r1' r2' : exp r1 r1' -> exp r2 r2' -> exp (r1 ++ r2) (r1' ++ r2').
  Proof. intros (x & H1 & ->) (y & H2 & ->). exists (x ++ y). split; [now apply Forall2_app|now rewrite concat_app]. Qed.
  Lemma fl_syms es : fl B (map asym es) (map csym es).
  Proof. induction es as [|x es IH]; cbn; [constructor|]. now apply fl_sym. Qed.
  Lemma fl_byte l r : fl n l r -> forall l', followl n B subs l l' -> exists r', fl B l' r' /\ exp r r'.
  Proof using Hn Hat HB.
    assert (LB := bu_len _ _ _ HB).
    induction 1 as [|t a l r H IH|t l r H IH|t l r1 r H1 IH1 H IH]; intros l' (ls & Hl & ->); inversion Hl as [|? y ? ls' F1 F2]; subst; cbn [concat].
    - exists []. split; [constructor|]. exists []. split; [constructor|reflexivity].
    - destruct (IH (concat ls')) as (r' & Fr & Er); [exists ls'; auto|]. destruct F1 as (es & C1 & -> & C2). exists (map csym es ++ r'). split; [apply fl_app; [apply fl_syms|assumption]|].
      apply (exp_app [LC t a] r); [|assumption]. exists [map csym es]. split; [|cbn; now rewrite app_nil_r]. constructor; [|constructor]. exists es. auto.
    - destruct (IH (concat ls')) as (r' & Fr & Er); [exists ls'; auto|]. destruct F1 as [-> _]. exists (LS :: r'). split; [now apply fl_start|].
      apply (exp_app [LS] r [LS]); [|assumption]. exists [[LS]]. split; [repeat constructor|reflexivity].
    - destruct (IH (concat ls')) as (r' & Fr & Er); [exists ls'; auto|]. destruct F1 as [-> (s & Hs)]. assert (Ht : t < L) by (eapply wf_eps; eauto; apply Hn).
      assert (X : exists r1', fl B (edges (get B t)) r1' /\ exp r1 r1').
      { destruct (Nat.eq_dec t (L - 1)) as [->|Hne].
        - destruct (fin_last n) as [Hlast _]; [apply Hn|]. rewrite Hlast in H1. inversion H1; subst. exists [].
          split; [|exists []; split; [constructor|reflexivity]]. destruct (bu_img _ _ _ HB (L - 1) Ht) as (ess & X1 & X2). rewrite Hlast in X2. inversion X2; subst. 
          unfold edges. rewrite X1, (bu_eps_eq _ _ _ HB (L - 1) Ht), Hlast, Nat.eqb_refl. cbn. apply (fl_none B (length B - 1) [] [] []); [|constructor].
          rewrite (bu_last _ _ _ HB). constructor.
        - apply IH1. assert (HF := follow_state n Hn B subs HB t Ht). unfold alts in HF. destruct (Nat.eqb_spec t (L - 1)); [congruence|].
          destruct (Nat.eqb_spec t (length B - 1)); [lia|]. exact HF. }
      destruct X as (r1' & Fr1 & Er1). exists (r1' ++ r'). split; [cbn [app]; now constructor|now apply exp_app].
  Qed.
  Lemma exp_fop r r' : exp r r' -> ForallOrdPairs (okp to_ranges (fun _ _ => False)) r -> (forall t a, In (LC t a) r -> to_ranges a = any_ranges) ->
    ForallOrdPairs (okp (fun r : range => r) bapart) r'.
  Proof.
    intros (rs & H & ->). induction H as [|x y r rs Hx H IH]; intros HO HP; [constructor|]. inversion HO as [|? ? H1 H2]; subst. cbn [concat].
    destruct x as [|t a].
    - cbn in Hx. subst y. cbn. constructor; [apply Forall_forall; intros [|] _; exact I|]. apply IH; [assumption|]. intros; eapply HP; right; eassumption.
    - destruct r as [|z r]; [|exfalso; inversion H1; subst; destruct z; assumption]. inversion H; subst. cbn. rewrite app_nil_r.
      destruct Hx as (es & (sym & off & Hb & ->) & -> & _). cbn [fst snd] in *. apply apart_fop. eapply any_node; [|exact (bl_sym _ _ _ _ _ _ Hb)]. apply (HP t a). now left.
  Qed.
  Lemma build_lazy : lazy_char n -> lazy_byte B.
  Proof using Hn Hat HB.
    intros (E & E0 & HE). assert (LB := bu_len _ _ _ HB).
    destruct (fin_last n) as [Hlast Hlen]; [apply Hn|].
    set (blk := fun s => exists t a sym off i, block L subs t a sym off /\ PTrie.symbol_ok a sym /\ to_ranges a = any_ranges /\ E t /\ t < L /\ 1 <= i < length sym - 1 /\ s = off + i).
    exists (fun s => (s < L /\ E s) \/ blk s). split; [left; split; [lia|assumption]|].
    assert (Tgt : forall t a sym off i, block L subs t a sym off -> PTrie.symbol_ok a sym -> to_ranges a = any_ranges -> E t -> t < L ->
      forall u c, In (LC u c) (map csym (map (mp t (length sym - 1) off) (trans (get sym i)))) -> (u < L /\ E u) \/ blk u).
    { intros t a sym off i Hb Hs Ha Et Ht u c Hin. apply in_map_iff in Hin as (x & Ex & Hin). apply in_map_iff in Hin as ([y rg] & <- & Hin).
      unfold csym in Ex. injection Ex as <- _. destruct (so_tgt _ _ Hs _ _ _ Hin) as (Hy & _ & _). unfold mp. cbn [fst snd].
      destruct (Nat.eqb_spec y (length sym - 1)) as [->|Hne]; cbn [fst]; [now left|]. right. exists t, a, sym, off, y.
      split; [assumption|]. split; [assumption|]. split; [assumption|]. split; [assumption|]. split; [assumption|]. split; lia. }
    intros s [[Hs Es]|(t & a & sym & off & i & Hb & Hs & Ha & Et & Ht & Hi & ->)].
    - destruct (HE s Es) as (r & F & O & C). destruct (Nat.eq_dec s (L - 1)) as [->|Hne].
      + exists []. split; [|split; [constructor|intros ? ? []]]. destruct (bu_img _ _ _ HB (L - 1) Hs) as (ess & X1 & X2). rewrite Hlast in X2. inversion X2; subst.
        unfold edges. rewrite X1, (bu_eps_eq _ _ _ HB (L - 1) Hs), Hlast, Nat.eqb_refl. cbn. apply (fl_none B (length B - 1) [] [] []); [|constructor].
        rewrite (bu_last _ _ _ HB). constructor.
      + destruct (fl_byte _ _ F (edges (get B s))) as (r' & F' & X).
        { assert (HF := follow_state n Hn B subs HB s Hs). unfold alts in HF. destruct (Nat.eqb_spec s (L - 1)); [congruence|].
          destruct (Nat.eqb_spec s (length B - 1)); [lia|]. exact HF. }
        exists r'. split; [assumption|]. split; [eapply exp_fop; eauto; intros; eapply C; eauto|]. intros u c Hin. split; [|exact I].
        destruct X as (rs & X & ->). apply in_concat in Hin as (y & Hy & Hin). apply in_split in Hy as (l1 & l2 & ->). apply Forall2_app_inv_r in X as (r1 & r2 & _ & X & ->).
        inversion X as [|x ? r3 ? Hx _]; subst. destruct x as [|t a]; cbn in Hx; [subst y; destruct Hin as [Hin|[]]; discriminate|].
        destruct Hx as (es & Hc & -> & Hex). destruct (covers_symbol n Hn Hat subs t a es Hc Hex) as (sym & off & Hb & -> & Hs' & HtL).
        destruct (C t a) as [C1 C2]; [apply in_or_app; right; now left|]. eapply Tgt; eauto.
    - destruct (block_state n Hn Hat B subs HB t a sym off i Hb Hi) as [X Y].
      exists (map csym (map (mp t (length sym - 1) off) (trans (get sym i)))). rewrite X. unfold edges, mps. cbn [trans eps map]. rewrite app_nil_r.
      split; [apply fl_syms|]. split.
      + apply apart_fop. eapply any_node; [exact Ha|exact (bl_sym _ _ _ _ _ _ Hb)].
      + intros u c Hin. split; [|exact I]. eapply Tgt; eauto.
  Qed.
End Byte.

Theorem u8_lazy n m : ok n -> (forall s t a, In (t, a) (trans (get n s)) -> atom_ok a) -> u8_new n = Ok m -> m <> [] -> lazy_char n -> lazy_byte m.
Proof.
  intros Hn Hat Em Hm Q. destruct (build_spec n Hn Hat) as (B & subs & E & HB). unfold u8_new, u8_new_loop_opt in Em. rewrite E in Em. cbn [bind] in Em.
  assert (QB := build_lazy n Hn Hat B subs HB Q).
  eapply (finalize_lazy (fun r : range => r) _ _ byte_check range_eqb (fun _ => True)); [| | | | |exact Em|exact Hm|exact QB].
  - intros a b _ _ H. apply range_eqb_eq in H. now subst.
  - intros a b H. now apply range_eqb_eq.
  - intros ? ? ? ?. exact I.
  - eapply built_ok; eauto.
  - assert (LB := bu_len _ _ _ HB). assert (Hl := fin_last n (ok_fin _ Hn)). lia.
Qed.
