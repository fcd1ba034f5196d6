(** The DFA engine reports the match that starts first. *)
From Verif Require Export PLazyOne.
From Coq Require Import ZifyBool ZifyNat ZifyN.
Open Scope nat_scope.
Open Scope list_scope.
Set Default Proof Using "Type".

Lemma sym_app {A} (check : A -> N -> bool) (n : nfa A) l m c : flat_sym_exec check n (l ++ m) c = flat_sym_exec check n l c ++ flat_sym_exec check n m c.
Proof. unfold flat_sym_exec. apply flat_map_app. Qed.
Lemma find_app {X} (f : X -> bool) l m : find f (l ++ m) = match find f l with Some x => Some x | None => find f m end.
Proof. induction l as [|x l IH]; cbn; [reflexivity|]. now destruct (f x). Qed.

Section Cands.
  Variable n : nfa range.
  Variable g : nat.
  Lemma cands_raw_one keep i tags j ps c :
    map (thr g j tags) (byte_cands (cands_of n keep i ps) c) = flat_sym_exec byte_check n (map (adv j (nth i tags (no_bounds g))) (filter keep (filter (retained n) ps))) c.
  Proof.
    unfold cands_of. induction ps as [|p ps IH]; [reflexivity|]. cbn [filter]. unfold retained at 1. destruct (trans (get n (ep_state p))) as [|t0 ts] eqn:Et.
    - assert (X : forall q, map (thr g j tags) (byte_cands (map (fun t => (snd t, mkCand i (ep_tags p) (fst t))) (trans (get n (ep_state p))) ++ q) c) = map (thr g j tags) (byte_cands q c)) by (intros q; rewrite Et; reflexivity).
      assert (Y : forall l, flat_sym_exec byte_check n (map (adv j (nth i tags (no_bounds g))) (p :: l)) c = flat_sym_exec byte_check n (map (adv j (nth i tags (no_bounds g))) l) c).
      { intros l. unfold flat_sym_exec. cbn [map flat_map adv fst]. rewrite Et. reflexivity. }
      destruct (ep_state p + 1 =? length n); cbn [filter]; destruct (keep p); cbn [flat_map]; rewrite ?X, ?Y; exact IH.
    - cbn [filter]. destruct (keep p); [|exact IH]. cbn [flat_map map]. rewrite byte_cands_app, map_app, IH, prop_cands. rewrite <- sym_app. reflexivity.
  Qed.
  Lemma cands_raw keep nfas tags j c : length tags = length nfas ->
    map (thr g j tags) (byte_cands (all_cands n keep nfas) c) = flat_sym_exec byte_check n (raw n (filter keep) j (combine nfas tags)) c.
  Proof.
    intros Hl. unfold all_cands, enumerate.
    assert (G : forall xs ts pre, length ts = length xs -> tags = pre ++ ts ->
      map (thr g j tags) (byte_cands (flat_map (fun x : nat * nat => cands_of n keep (fst x) (props n (snd x))) (combine (seq (length pre) (length xs)) xs)) c)
      = flat_sym_exec byte_check n (raw n (filter keep) j (combine xs ts)) c).
    { induction xs as [|k xs IH]; intros ts pre Hts Et; destruct ts as [|b ts]; try discriminate; [reflexivity|].
      cbn [combine length seq flat_map raw]. rewrite byte_cands_app, map_app, sym_app. cbn [fst snd]. f_equal.
      - rewrite cands_raw_one. rewrite Et, app_nth2, Nat.sub_diag by lia. reflexivity.
      - replace (S (length pre)) with (length (pre ++ [b])) by (rewrite app_length; cbn; lia). apply IH; [cbn in Hts; lia|now rewrite <- app_assoc]. }
    apply (G nfas tags []); auto.
  Qed.
  Lemma acc_raw nfas tags j : 1 <= length n -> length tags = length nfas ->
    option_map (fun a => acc_apply j g a tags) (acc_pick (all_acc n nfas)) = option_map snd (find (fun x : nat * bounds => fst x + 1 =? length n) (raw n (fun l => l) j (combine nfas tags))).
  Proof.
    intros Hlen Hl. unfold all_acc, enumerate.
    assert (F : forall i ps b, nth i tags (no_bounds g) = b -> option_map (fun a => acc_apply j g a tags) (acc_pick (acc_from_props i ps (length n - 1)))
      = option_map snd (find (fun x : nat * bounds => fst x + 1 =? length n) (map (adv j b) (filter (retained n) ps)))).
    { intros i ps b Eb. rewrite acc_pick_props. induction ps as [|p ps IH]; [reflexivity|]. cbn [filter].
      destruct (Nat.eqb_spec (ep_state p) (length n - 1)) as [E|E].
      - assert (Er : retained n p = true) by (unfold retained; destruct (trans _); [lia|reflexivity]). rewrite Er. cbn [map find adv fst]. destruct (ep_state p + 1 =? length n) eqn:E2; [|lia].
        cbn [hd_error option_map snd]. unfold acc_apply. cbn. now rewrite Eb.
      - rewrite IH. destruct (retained n p); [|reflexivity]. cbn [map find adv fst]. destruct (ep_state p + 1 =? length n) eqn:E2; [lia|reflexivity]. }
    assert (G : forall xs ts pre a0, length ts = length xs -> tags = pre ++ ts ->
      option_map (fun a => acc_apply j g a tags) (acc_pick (fold_left (fun a (x : nat * nat) => acc_update a (acc_from_props (fst x) (props n (snd x)) (length n - 1))) (combine (seq (length pre) (length xs)) xs) a0))
      = orelse (option_map (fun a => acc_apply j g a tags) (acc_pick a0)) (option_map snd (find (fun x : nat * bounds => fst x + 1 =? length n) (raw n (fun l => l) j (combine xs ts))))).
    { induction xs as [|k xs IH]; intros ts pre a0 Hts Et; destruct ts as [|b ts]; try discriminate.
      - cbn. now destruct (acc_pick a0).
      - cbn [combine length seq fold_left raw flat_map]. replace (S (length pre)) with (length (pre ++ [b])) by (rewrite app_length; cbn; lia).
        rewrite IH with (ts := ts); [|cbn in Hts; lia|now rewrite <- app_assoc]. cbn [fst snd]. rewrite acc_pick_update, find_app.
        assert (X := F (length pre) (props n k) b ltac:(rewrite Et, app_nth2, Nat.sub_diag by lia; reflexivity)). change (gprops n k) with (props n k).
        destruct (acc_pick a0); [reflexivity|]. cbn [orelse option_map]. rewrite X. destruct (find _ (map _ _)); reflexivity. }
    exact (G nfas tags [] ANone Hl eq_refl).
  Qed.
End Cands.

Section Dfa.
  Variable n : nfa range.
  Hypothesis Hwf : wf n.
  Hypothesis Hlen : 1 <= length n.
  Variable max : nat.
  Variable d : tdfa.
  Hypothesis Hb : built n max d.
  Variable T : list N.
  Hypothesis HT : Forall (fun b => (b <= 255)%N) T.
  Notation g := (tdfa_groups d).
  Hypothesis Hg : 1 <= g.
  Hypothesis Hone : forall W, lang byte_check n W -> opens0 W = 1.
  Hypothesis Hmost : forall u s, s < length n -> path byte_check n 0 u s -> opens0 u <= 1.
  Variable E : nat -> Prop.
  Hypothesis HE : forall s, E s -> lazy_at (fun r : range => r) bapart (fun _ => True) n E s.
  Notation one := (fun _ : N => 1).
  Notation HD := (fun (a c : range) x (F : bapart a c) X Y => F x X Y).
  Notation pre := (pre_inv byte_check one n g E).
  Notation post := (post_inv (fun r : range => r) bapart byte_check one n g E).
  Notation predom := (pre_dom byte_check one T n g).
  Notation postdom := (post_dom byte_check one T n g).
  Notation threads s tags := (combine (ts_nfa (td_get d s)) tags).
  Notation use L := (L range range (fun r : range => r) bapart (fun _ : range => True) byte_check HD one T n Hwf Hlen g Hg Hone Hmost E HE).

  Lemma dfa_step s j c tags : lab_ok d s j -> nth_error T j = Some c -> length tags = length (ts_nfa (td_get d s)) -> pre j (threads s tags) -> predom j (threads s tags) ->
    match find (fun t => in_range c (tt_sym t)) (ts_trans (td_get d s)) with
    | Some t => lab_ok d (Some (tt_to t)) (S j) /\ length (tt_apply j g t tags) = length (ts_nfa (td_get d (Some (tt_to t)))) /\
        pre (S j) (threads (Some (tt_to t)) (tt_apply j g t tags)) /\ predom (S j) (threads (Some (tt_to t)) (tt_apply j g t tags))
    | None => True
    end.
  Proof using Hwf Hlen Hb HT Hg Hone Hmost HE.
    intros Hs Hc Hl I1 I2. destruct (lab_expanded n Hlen max d Hb s j Hs) as [H1 [_ Hex]].
    set (cs := all_cands n (keep_of s) (ts_nfa (td_get d s))) in *. destruct (cand_ranges_ok cs) as [O1 O2 O3 O4].
    assert (Hj : j < length T) by (apply nth_error_Some; congruence). assert (Pj : pos one T j = j) by (apply pos_one; lia).
    destruct (find _ (ts_trans (td_get d s))) as [t|] eqn:Ef; [|exact I].
    apply find_some in Ef as [Hti Htr]. destruct (Forall2_In_r _ _ _ _ Hex Hti) as ([rr cl] & Hr & (E1 & E3 & E4 & E2)). cbn [fst snd] in *.
    rewrite E1 in Htr. assert (Ecl := O3 rr cl c Hr Htr).
    assert (Hlt : tt_to t < length (td_states d)).
    { assert (X : tt_to t < length (names (td_states d))) by (apply nth_error_Some; congruence). unfold names in X. now rewrite map_length in X. }
    assert (Enf : ts_nfa (td_get d (Some (tt_to t))) = map c_to cl).
    { cbn [td_get]. unfold names in E2. rewrite (nth_error_nth' (map ts_nfa (td_states d)) (ts_nfa (stub []))) in E2 by (now rewrite map_length). rewrite map_nth in E2. congruence. }
    split; [cbn; lia|]. rewrite Enf, (tt_apply_eq g j t tags cl E3 E4). split; [now rewrite !map_length|].
    replace (combine (map c_to cl) (map (fun c0 => apply_tags j (c_tags c0) (nth (c_from c0) tags (no_bounds g))) cl)) with (map (thr g j tags) cl) by (clear; induction cl as [|x cl IH]; [reflexivity|]; cbn; now rewrite IH).
    assert (X : map (thr g j tags) cl = dedup_by same_st [] (flat_sym_exec byte_check n (raw n (filter (keep_of s)) j (threads s tags)) c)).
    { rewrite <- (cands_raw n g) by assumption. rewrite Ecl. unfold dedup_cands. symmetry. apply (dedup_map same_st (thr g j tags) (byte_cands cs c) []). }
    rewrite X. assert (R1 : post j (raw n (filter (keep_of s)) j (threads s tags))) by (apply (use (@raw_inv)); [apply (use (@sel_filter))|exact I1]).
    assert (R2 : postdom j (raw n (filter (keep_of s)) j (threads s tags))).
    { rewrite <- Pj at 2. apply (use (@raw_dom)); auto; [apply (use (@sel_filter))| |lia|now rewrite Pj].
      intros l p Hp Hlv. apply filter_In. split; [assumption|]. apply (keep_live d T s j p Hs Hj). exact Hlv. }
    assert (S1 : pre (S j) (flat_sym_exec byte_check n (raw n (filter (keep_of s)) j (threads s tags)) c)) by (rewrite <- (Nat.add_1_r j); exact (use (@sym_inv) j _ c R1)).
    assert (S2 : predom (S j) (flat_sym_exec byte_check n (raw n (filter (keep_of s)) j (threads s tags)) c)) by (apply (use (@sym_dom)); assumption).
    split; [apply (use (@dedup_pre)); exact S1|]. apply (use (@dedup_dom_pre) (S j)); [exact S1|exact S2].
  Qed.
  Lemma dfa_loop bytes : forall s j tags b, j <= length T -> skipn j T = bytes -> lab_ok d s j -> length tags = length (ts_nfa (td_get d s)) -> pre j (threads s tags) -> predom j (threads s tags) ->
    tdfa_exec_loop d g s j tags bytes = Some b -> forall W, lang byte_check n W -> reads T 0 W (length T) -> kle (key0 b) (keyw one g W).
  Proof using Hwf Hlen Hb HT Hg Hone Hmost HE.
    induction bytes as [|c bytes IH]; intros s j tags b Hj Hsk Hs Hl I1 I2 Hx.
    - apply skipn_end in Hsk; [|assumption]. subst j. destruct (lab_expanded n Hlen max d Hb s _ Hs) as [_ [Hacc _]]. cbn [tdfa_exec_loop] in Hx.
      assert (Eq : match ts_acc (td_get d s) with ANone => None | AAnch a | ABoth a _ | AUnan a => Some (acc_apply (length T) g a tags) end =
        option_map (fun a => acc_apply (length T) g a tags) (acc_pick (ts_acc (td_get d s)))) by now destruct (ts_acc (td_get d s)).
      rewrite Eq, Hacc, (acc_raw n g) in Hx by assumption.
      assert (PT : pos one T (length T) = length T) by (apply pos_one; lia).
      assert (R1 : post (length T) (raw n (fun l => l) (length T) (threads s tags))) by (apply (use (@raw_inv)); [apply (use (@sel_id))|exact I1]).
      apply (use (@end_dom) (length T) _ b R1); [|exact Hx]. rewrite <- PT at 2. apply (use (@raw_dom)); auto; [apply (use (@sel_id))|now rewrite PT].
    - destruct (skipn_step T c bytes j Hsk) as (Hc & Hsk' & Hj'). assert (Hstep := dfa_step s j c tags Hs Hc Hl I1 I2). cbn [tdfa_exec_loop] in Hx.
      destruct (find _ (ts_trans (td_get d s))) as [t|]; [|discriminate]. destruct Hstep as (S1 & S2 & S3 & S4). exact (IH _ _ _ _ Hj' Hsk' S1 S2 S3 S4 Hx).
  Qed.
  Theorem dfa_lead b : E 0 -> tdfa_run_exec d T = Some b -> forall W, lang byte_check n W -> reads T 0 W (length T) -> kle (key0 b) (keyw one g W).
  Proof using Hwf Hlen Hb HT Hg Hone Hmost HE.
    intros E0 Hx. unfold tdfa_run_exec in Hx. cbn zeta in Hx. destruct (use (@init_inv) E0) as [I1 I2].
    assert (En : ts_nfa (td_get d None) = [0]) by (cbn [td_get]; apply (b_start _ _ _ Hb)).
    apply (dfa_loop T None 0 [no_bounds g] b); rewrite ?En; auto; try lia; reflexivity.
  Qed.
End Dfa.

Lemma dfa_leads s e n m max d : parse_str s = ROk e -> Forall scalar s -> working_new (tree_of e) = Ok n -> u8_new n = Ok m -> m <> [] -> tdfa_from_nfa m max = Ok (Some d) -> leads e (EDfa d).
Proof.
  intros Hp Hs En Em Hn Ed T cs x y i j L HT Hx Hc Hm. cbn [engine_exec] in Hx.
  assert (Hb := parsed_u8_ne s e Hp Hs n m En Em Hn). assert (Hb' := Hb). destruct Hb' as (M1 & M2 & M3 & M4 & M5 & M6 & M7).
  destruct (tdfa_from_nfa_spec m (ok_wf _ M1) ltac:(lia) max) as (o & Eo & Ho). rewrite Ed in Eo. injection Eo as <-.
  destruct (dfa_engine_late m max d (utf8 T) (ok_wf _ M1) ltac:(lia) Ed (utf8_bytes T HT)) as [(m' & Em' & _) _].
  unfold dfa_exec in Hx. rewrite Em' in Hx. cbn [bind] in Hx. destruct (tdfa_run_exec d (utf8 T)) as [b|] eqn:Er; [|discriminate].
  assert (G1 : 1 <= tdfa_groups d) by (unfold tdfa_groups; lia). destruct (byte_opens e m Hb) as [O1 O2].
  destruct (u8_lazy_parsed s e n m Hp Hs En Em Hn) as (E & E0 & HE).
  refine (byte_leads T e m (tdfa_groups d) b Hb HT G1 _ cs x y i j L Hx Hc Hm).
  exact (dfa_lead m (ok_wf _ M1) ltac:(lia) max d Ho (utf8 T) (utf8_bytes T HT) G1 O1 O2 E HE b E0 Er).
Qed.
