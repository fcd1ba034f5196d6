(** The DFA engine returns the preferred match. *)
From Verif Require Export PPrioLock PDfaRun.
From Verif Require Export PPrio.
From Coq Require Import ZifyBool ZifyNat ZifyN.
Open Scope nat_scope.
Open Scope list_scope.
Set Default Proof Using "Type".

(** Leaving out elements that lead to the same as an earlier one. *)
Section Dedup.
  Context {X B : Type}.
  Variable V : X -> option B -> Prop.
  Variable g : X -> nat.
  Variable f : X -> X -> bool.
  Hypothesis Hf : forall x y, f x y = true <-> g x = g y.
  Hypothesis HV : forall x y rx ry, g x = g y -> V x rx -> V y ry -> rx <> None -> ry <> None.
  Lemma first_dedup l r : first V l r -> forall seen ro, (forall y, In y seen -> exists ry, V y ry /\ (ry <> None -> ro <> None)) ->
    exists r', first V (dedup_by f seen l) r' /\ orelse ro r' = orelse ro r.
  Proof using Hf HV.
    induction 1 as [|x l r r' Hx Hl IH]; intros seen ro Hs; cbn [dedup_by]; [exists None; split; [constructor|reflexivity]|].
    destruct (existsb (f x) seen) eqn:E.
    - destruct (IH seen ro Hs) as (r2 & F & E2). exists r2. split; [assumption|]. rewrite E2. destruct ro as [b|]; [reflexivity|]. cbn [orelse].
      destruct r as [b|]; [|reflexivity]. exfalso. apply existsb_exists in E as (y & Hy & E). apply Hf in E. destruct (Hs y Hy) as (ry & H1 & H2). apply H2; [|reflexivity].
      eapply HV; [exact E|exact Hx|exact H1|discriminate].
    - destruct (IH (x :: seen) (orelse ro r)) as (r2 & F & E2).
      + intros y [<-|Hy]; [exists r; split; [assumption|]; destruct ro; [discriminate|auto]|]. destruct (Hs y Hy) as (ry & H1 & H2). exists ry. split; [assumption|]. intros H. apply H2 in H. now destruct ro.
      + exists (orelse r r2). split; [now constructor|]. rewrite <- !orelse_assoc. exact E2.
  Qed.
End Dedup.
Lemma first_map {X Y B} (h : X -> Y) (V : Y -> option B -> Prop) l r : first V (map h l) r <-> first (fun x => V (h x)) l r.
Proof.
  split; revert r; induction l as [|x l IH]; intros r H; cbn in *; inversion H; subst; constructor; auto.
Qed.
Lemma pos_one T j : j <= length T -> pos (fun _ => 1) T j = j.
Proof.
  intros Hj. unfold pos. assert (E : forall l : list N, total_width (fun _ => 1) l = length l) by (induction l as [|x l IH]; [reflexivity|unfold total_width in *; cbn; f_equal; exact IH]).
  rewrite E, firstn_length. lia.
Qed.

(** ** The accepting propagation that is taken at the end *)
Definition acc_pick (a : tacc) : option acc_tr := match a with AAnch a | ABoth a _ | AUnan a => Some a | ANone => None end.
Lemma acc_pick_update x y : acc_pick (acc_update x y) = orelse (acc_pick x) (acc_pick y).
Proof. now destruct x, y. Qed.
Lemma index_of_first {A} (q : A -> bool) d l i : index_of q l = Some i -> q (nth i l d) = true /\ forall k, k < i -> q (nth k l d) = false.
Proof.
  revert i; induction l as [|x l IH]; intros i E; cbn in E; [discriminate|]. destruct (q x) eqn:Ex.
  - injection E as <-. split; [exact Ex|]. intros; lia.
  - destruct (index_of q l) as [i'|]; cbn in E; [|discriminate]. injection E as <-. destruct (IH i' eq_refl) as [H1 H2]. split; [exact H1|]. intros [|k] Hk; [exact Ex|]. apply H2. lia.
Qed.
Lemma acc_pick_props local ps accept : acc_pick (acc_from_props local ps accept) =
  option_map (fun p => mkAcc local (ep_tags p)) (hd_error (filter (fun p => ep_state p =? accept) ps)).
Proof.
  unfold acc_from_props. set (l := filter _ ps). set (d := mkEp 0 [] false false).
  destruct l as [|p l'] eqn:El; [reflexivity|]. rewrite <- El. assert (E0 : nth 0 l d = p) by now rewrite El.
  assert (Hh : hd_error l = Some p) by now rewrite El. 
  destruct (index_of ep_end l) as [a|] eqn:Ea, (index_of (fun p => negb (ep_end p)) l) as [u|] eqn:Eu.
  - destruct (index_of_first _ d _ _ Ea) as [A1 A2], (index_of_first _ d _ _ Eu) as [U1 U2]. destruct (Nat.ltb_spec a u) as [H|H].
    + assert (a = 0) as ->.
      { destruct a; [reflexivity|exfalso]. assert (X := A2 0 ltac:(lia)). assert (Y := U2 0 ltac:(lia)). cbv beta in Y. rewrite X in Y. discriminate. }
      cbn [acc_pick]. rewrite Hh, E0. reflexivity.
    + assert (u = 0) as ->.
      { destruct u; [reflexivity|exfalso]. assert (X := A2 0 ltac:(lia)). assert (Y := U2 0 ltac:(lia)). cbv beta in Y. rewrite X in Y. discriminate. }
      cbn [acc_pick]. rewrite Hh, E0. reflexivity.
  - destruct (index_of_first _ d _ _ Ea) as [A1 A2]. assert (a = 0) as ->.
    { destruct a; [reflexivity|exfalso]. assert (X := A2 0 ltac:(lia)). rewrite index_of_none in Eu. specialize (Eu p ltac:(rewrite El; now left)). rewrite E0 in X. cbv beta in Eu. rewrite X in Eu. discriminate. }
    cbn [acc_pick]. rewrite Hh, E0. reflexivity.
  - destruct (index_of_first _ d _ _ Eu) as [A1 A2]. assert (u = 0) as ->.
    { destruct u; [reflexivity|exfalso]. assert (X := A2 0 ltac:(lia)). rewrite index_of_none in Ea. specialize (Ea p ltac:(rewrite El; now left)). rewrite E0 in X. cbv beta in X. rewrite Ea in X. discriminate. }
    cbn [acc_pick]. rewrite Hh, E0. reflexivity.
  - exfalso. rewrite index_of_none in Ea, Eu. specialize (Ea p ltac:(rewrite El; now left)). specialize (Eu p ltac:(rewrite El; now left)). cbv beta in Eu. rewrite Ea in Eu. discriminate.
Qed.

Section Sim.
  Variable n : nfa range.
  Hypothesis Hwf : wf n.
  Hypothesis Hlen : 1 <= length n.
  Variable max : nat.
  Variable d : tdfa.
  Hypothesis Hb : built n max d.
  Variable T : list N.
  Hypothesis HT : Forall (fun b => (b <= 255)%N) T.
  Variable g : nat.
  Notation K := (K0 T).
  Notation ev_ := (ev byte_check T n K).
  Notation one := (fun _ : N => 1).
  Notation tv_ := (tv byte_check one T n).
  Notation nv_ := (nv byte_check one T n).
  Notation go_ := (go byte_check one T n).
  Let Kdet : kdet K := K0_det T.
  Notation threads s tags := (combine (ts_nfa (td_get d s)) tags).
  Definition thr (j : nat) (tags : list bounds) (x : cand) : nat * bounds := (c_to x, apply_tags j (c_tags x) (nth (c_from x) tags (no_bounds g))).

  Lemma keep_live s j p : lab_ok d s j -> j < length T -> keep_of s p = true <-> PFlat.live T j p.
  Proof.
    clear Hlen. intros Hs Hj. unfold PFlat.live. destruct s as [i|]; cbn [lab_ok keep_of] in *; unfold keep_start, keep_later;
      destruct (ep_start p), (ep_end p); cbn; intuition (try discriminate; try lia).
  Qed.
  Lemma byte_cands_app l m c : byte_cands (l ++ m) c = byte_cands l c ++ byte_cands m c.
  Proof. unfold byte_cands. now rewrite filter_app, map_app. Qed.
  (** The candidates of one propagation. *)
  Lemma prop_cands i tags j p c : map (thr j tags) (byte_cands (map (fun t => (snd t, mkCand i (ep_tags p) (fst t))) (trans (get n (ep_state p)))) c)
    = flat_sym_exec byte_check n [(ep_state p, apply_tags j (ep_tags p) (nth i tags (no_bounds g)))] c.
  Proof.
    unfold byte_cands, flat_sym_exec. cbn [flat_map]. rewrite app_nil_r. cbn [fst snd]. induction (trans (get n (ep_state p))) as [|[t a] l IH]; [reflexivity|].
    cbn [map filter fst snd]. unfold byte_check at 1. destruct (in_range c a); cbn [map fst snd]; rewrite IH; reflexivity.
  Qed.
  Lemma eprops_props k : k < length n -> eprops n k = props n k.
  Proof using Hwf. intros Hk. unfold eprops. now rewrite (props_ok n Hwf k Hk). Qed.
  Lemma thread_cands s j c i tags k : lab_ok d s j -> nth_error T j = Some c -> k < length n ->
    first (tv_ (S j)) (map (thr j tags) (byte_cands (cands_of n (keep_of s) i (props n k)) c)) (go_ (skipn j T) j k (nth i tags (no_bounds g))).
  Proof using Hwf Hlen.
    intros Hs Hc Hk. assert (Hj : j < length T) by (apply nth_error_Some; congruence). set (b := nth i tags (no_bounds g)).
    rewrite go_eq, (eprops_props k Hk).
    assert (HF : first (pv_ byte_check one T n j b) (props n k) (firstr (goprop byte_check one T n (skipn j T) j b) (props n k))) by now apply first_fun.
    apply (first_filter _ (pv_det byte_check one T n j b) (keep_of s)) in HF.
    2:{ intros p Hp Hkp. apply pv_dead. intros Hl. apply (keep_live s j p Hs Hj) in Hl. congruence. }
    revert HF. generalize (firstr (goprop byte_check one T n (skipn j T) j b) (props n k)) as r. unfold cands_of.
    assert (Hlv : forall p, In p (filter (keep_of s) (props n k)) -> PFlat.live T j p) by (intros p Hp; apply filter_In in Hp as [_ Hp]; now apply (keep_live s j p Hs Hj)).
    revert Hlv. generalize (filter (keep_of s) (props n k)) as l. induction l as [|p l IH]; intros Hlv r HF; inversion HF as [|? ? r1 r2 H1 H2]; subst; cbn [flat_map]; [constructor|].
    rewrite byte_cands_app, map_app. apply first_app; [|apply IH; [intros; apply Hlv; now right|assumption]].
    rewrite prop_cands. fold b. apply (sym_first byte_check one T n j c); [assumption|]. apply first_one.
    apply (pv_live _ _ _ _ _ _ _ _ (Hlv p (or_introl eq_refl))) in H1. now rewrite (pos_one T j) in H1 by lia.
  Qed.
  Lemma all_cands_first s j c tags r : lab_ok d s j -> nth_error T j = Some c -> length tags = length (ts_nfa (td_get d s)) -> in_n n (ts_nfa (td_get d s)) ->
    first (tv_ j) (threads s tags) r ->
    first (tv_ (S j)) (map (thr j tags) (byte_cands (all_cands n (keep_of s) (ts_nfa (td_get d s))) c)) r.
  Proof using Hwf Hlen.
    intros Hs Hc Hl [Hin _]. unfold all_cands. revert Hl Hin. generalize (ts_nfa (td_get d s)) as nfas. intros nfas Hl Hin.
    assert (G : forall xs ts off pre, length pre = off -> length ts = length xs -> tags = pre ++ ts -> Forall (fun k => k < length n) xs -> forall r, first (tv_ j) (combine xs ts) r ->
      first (tv_ (S j)) (map (thr j tags) (byte_cands (flat_map (fun x : nat * nat => cands_of n (keep_of s) (fst x) (props n (snd x))) (combine (seq off (length xs)) xs)) c)) r).
    { induction xs as [|k xs IH]; intros ts off pre Hp Hts Et Hxs r0 HF; destruct ts as [|b ts]; try discriminate; cbn [combine length seq flat_map] in *; inversion HF as [|? ? r1 r2 H1 H2]; subst; [constructor|]. unfold tv in H1. subst r1.
      inversion Hxs; subst. rewrite byte_cands_app, map_app. apply first_app.
      - cbn [fst snd] in *. assert (En : nth (length pre) (pre ++ b :: ts) (no_bounds g) = b) by (rewrite app_nth2 by lia; now rewrite Nat.sub_diag).
        assert (X := thread_cands s j c (length pre) (pre ++ b :: ts) k Hs Hc ltac:(assumption)). rewrite En in X. exact X.
      - apply (IH ts (S (length pre)) (pre ++ [b])); auto; [rewrite app_length; cbn; lia|now rewrite <- app_assoc]. }
    intros HF. apply (G nfas tags 0 []); auto.
  Qed.
  Lemma byte_step s j c tags r : lab_ok d s j -> nth_error T j = Some c -> length tags = length (ts_nfa (td_get d s)) -> first (tv_ j) (threads s tags) r ->
    match find (fun t => in_range c (tt_sym t)) (ts_trans (td_get d s)) with
    | Some t => lab_ok d (Some (tt_to t)) (S j) /\ length (tt_apply j g t tags) = length (ts_nfa (td_get d (Some (tt_to t)))) /\
        first (tv_ (S j)) (threads (Some (tt_to t)) (tt_apply j g t tags)) r
    | None => r = None
    end.
  Proof using Hwf Hlen Hb HT.
    intros Hs Hc Hl HF. destruct (lab_expanded n Hlen max d Hb s j Hs) as [H1 H2]. assert (HA := all_cands_first s j c tags r Hs Hc Hl H1 HF).
    destruct H2 as [_ Hex]. set (cs := all_cands n (keep_of s) (ts_nfa (td_get d s))) in *. destruct (cand_ranges_ok cs) as [O1 O2 O3 O4].
    assert (Hc255 : (c <= 255)%N) by (rewrite Forall_forall in HT; apply HT; eapply nth_error_In; eauto).
    apply (proj1 (first_map (thr j tags) _ _ _)) in HA.
    destruct (first_dedup (fun x => tv_ (S j) (thr j tags x)) c_to (fun a b => c_to a =? c_to b) ceqb_iff) with (l := byte_cands cs c) (r := r) (seen := @nil cand) (ro := @None bounds) as (r' & HD & E); [|exact HA|intros y []|].
    { intros x y rx ry E -> -> Hne. cbn [thr fst snd] in *. rewrite E in Hne. intros Z. apply Hne. eapply go_bounds; eauto. }
    cbn [orelse] in E. subst r'. fold (dedup_cands (byte_cands cs c)) in HD.
    destruct (find _ (ts_trans (td_get d s))) as [t|] eqn:Ef.
    - apply find_some in Ef as [Hti Htr]. destruct (Forall2_In_r _ _ _ _ Hex Hti) as ([rr cl] & Hr & (E1 & E3 & E4 & E2)). cbn [fst snd] in *.
      rewrite E1 in Htr. assert (Ecl := O3 rr cl c Hr Htr). rewrite <- Ecl in HD.
      assert (Hlt : tt_to t < length (td_states d)).
      { assert (X : tt_to t < length (names (td_states d))) by (apply nth_error_Some; congruence). unfold names in X. now rewrite map_length in X. }
      assert (En : ts_nfa (td_get d (Some (tt_to t))) = map c_to cl).
      { cbn [td_get]. unfold names in E2. rewrite (nth_error_nth' (map ts_nfa (td_states d)) (ts_nfa (stub []))) in E2 by (now rewrite map_length). rewrite map_nth in E2. congruence. }
      split; [cbn; lia|]. rewrite En, (tt_apply_eq g j t tags cl E3 E4). split; [now rewrite !map_length|].
      replace (combine (map c_to cl) (map (fun c0 => apply_tags j (c_tags c0) (nth (c_from c0) tags (no_bounds g))) cl)) with (map (thr j tags) cl); [now apply (proj2 (first_map (thr j tags) _ _ _))|].
      clear. induction cl as [|x cl IH]; [reflexivity|]. cbn. now rewrite IH.
    - assert (Ec : byte_cands cs c = []).
      { destruct (byte_cands cs c) as [|x xs] eqn:Ex; [reflexivity|exfalso]. destruct (O4 c Hc255) as (rr & cl & Hr & Hrc); [congruence|].
        destruct (Forall2_In_l _ _ _ _ Hex Hr) as (t & Ht & (E1 & _)). cbn [fst] in E1. apply find_none with (x := t) in Ef; [|assumption]. rewrite E1 in Ef. congruence. }
      rewrite Ec in HA. now inversion HA.
  Qed.

  (** *** The end of the text *)
  Notation acc_st := (length n - 1).
  Hypothesis Hlast : get n acc_st = empty_state.
  Lemma thread_end k b : k < length n -> (forall p, In p (props n k) -> ep_state p = acc_st -> PFlat.live T (length T) p) ->
    go_ [] (length T) k b = option_map (fun p => apply_tags (length T) (ep_tags p) b) (hd_error (filter (fun p => ep_state p =? acc_st) (props n k))).
  Proof using Hwf Hlen.
    intros Hk Hlv. rewrite go_eq, (eprops_props k Hk). revert Hlv. generalize (props n k) as l.
    induction l as [|p l IH]; intros Hlv; [reflexivity|]. cbn [filter firstr]. rewrite (IH (fun q Hq => Hlv q (or_intror Hq))). unfold goprop. cbn [gonow]. rewrite (pos_one T) by lia.
    destruct (Nat.eqb_spec (ep_state p) acc_st) as [E|E].
    - assert (X : liveb T (length T) p = true) by (apply liveb_iff, Hlv; [now left|assumption]). rewrite X. assert (Y : (ep_state p + 1 =? length n) = true) by lia. now rewrite Y.
    - assert (Y : (ep_state p + 1 =? length n) = false) by lia. rewrite Y. now destruct (liveb T (length T) p).
  Qed.
  Lemma end_step s tags r : lab_ok d s (length T) -> length tags = length (ts_nfa (td_get d s)) ->
    (forall k p, In k (ts_nfa (td_get d s)) -> In p (props n k) -> ep_state p = acc_st -> PFlat.live T (length T) p) ->
    first (tv_ (length T)) (threads s tags) r -> tdfa_exec_loop d g s (length T) tags [] = r.
  Proof using Hwf Hlen Hb Hlast.
    intros Hs Hl Hlv HF. destruct (lab_expanded n Hlen max d Hb s _ Hs) as [[Hin _] [Hacc _]]. cbn [tdfa_exec_loop].
    assert (E : match ts_acc (td_get d s) with ANone => None | AAnch a | ABoth a _ | AUnan a => Some (acc_apply (length T) g a tags) end =
      option_map (fun a => acc_apply (length T) g a tags) (acc_pick (ts_acc (td_get d s)))) by now destruct (ts_acc (td_get d s)).
    rewrite E, Hacc. clear E Hacc. unfold all_acc. revert Hl Hin Hlv HF. generalize (ts_nfa (td_get d s)) as nfas. intros nfas Hl Hin Hlv HF.
    assert (G : forall xs ts pre a0, length ts = length xs -> tags = pre ++ ts -> Forall (fun k => k < length n) xs ->
      (forall k p, In k xs -> In p (props n k) -> ep_state p = acc_st -> PFlat.live T (length T) p) -> forall r, first (tv_ (length T)) (combine xs ts) r ->
      option_map (fun a => acc_apply (length T) g a tags) (acc_pick (fold_left (fun a (x : nat * nat) => acc_update a (acc_from_props (fst x) (props n (snd x)) acc_st)) (combine (seq (length pre) (length xs)) xs) a0))
      = orelse (option_map (fun a => acc_apply (length T) g a tags) (acc_pick a0)) r).
    { induction xs as [|k xs IH]; intros ts pre a0 Hts Et Hxs Hlx r0 HR; destruct ts as [|b ts]; try discriminate; cbn [combine length seq fold_left] in *; inversion HR as [|? ? r1 r2 H1 H2]; subst r0; try subst.
      - now rewrite orelse_none.
      - inversion Hxs; subst. replace (S (length pre)) with (length (pre ++ [b])) by (rewrite app_length; cbn; lia).
        rewrite (IH ts (pre ++ [b]) _ ltac:(cbn in Hts; lia) ltac:(now rewrite <- app_assoc) ltac:(assumption) ltac:(intros; eapply Hlx; eauto; now right) r2 H2).
        rewrite acc_pick_update, <- orelse_assoc. f_equal. cbn [fst snd] in *. rewrite acc_pick_props.
        unfold tv in H1. cbn [fst snd] in H1. rewrite skipn_all in H1. rewrite (thread_end k b ltac:(assumption) (fun p Hp => Hlx k p (or_introl eq_refl) Hp)) in H1. rewrite H1. clear.
        destruct (acc_pick a0); [reflexivity|]. cbn [orelse option_map]. destruct (hd_error _) as [p|]; [|reflexivity]. cbn [option_map]. unfold acc_apply. cbn [at_tags at_state].
        rewrite app_nth2 by lia. now rewrite Nat.sub_diag. }
    exact (G nfas tags [] ANone Hl eq_refl Hin Hlv r HF).
  Qed.

  (** *** The whole run *)
  Hypothesis Hset : all_settled n.
  Lemma accept_live j k p u : path byte_check n 0 u k -> reads T 0 u j -> (j = 0 \/ chars u <> []) -> j = length T -> k < length n -> In p (props n k) -> ep_state p = acc_st -> PFlat.live T j p.
  Proof using Hwf Hset.
    intros Hu Hr Hj -> Hk Hp Hs. apply (props_spec n Hwf k p Hk) in Hp as (t & w & Hz & ->). cbn in Hs. subst t. split; cbn [ep_start ep_end ep_of]; [|auto].
    intros Hst. destruct Hj as [Hj|Hj]; [assumption|exfalso]. assert (HW : lang byte_check n (u ++ w)) by (eapply path_app; [exact Hu|apply zpath_path; exact Hz]).
    apply has_iff in Hst. apply in_split in Hst as (w1 & w2 & ->). assert (Hc := zpath_chars _ _ _ _ Hz). rewrite chars_app in Hc. apply app_eq_nil in Hc as [_ Hc]. cbn in Hc.
    assert (X := Hset _ HW (u ++ w1) w2 ltac:(now rewrite <- app_assoc) Hc). rewrite chars_app in X. apply app_eq_nil in X as [X _]. contradiction.
  Qed.
  Lemma exec_loop_first bytes : forall s j tags r, j <= length T -> skipn j T = bytes -> lab_ok d s j -> length tags = length (ts_nfa (td_get d s)) ->
    Forall (fun k => exists u, path byte_check n 0 u k /\ reads T 0 u j) (ts_nfa (td_get d s)) ->
    first (tv_ j) (threads s tags) r -> tdfa_exec_loop d g s j tags bytes = r.
  Proof using Hwf Hlen Hb HT Hlast Hset.
    induction bytes as [|c bytes IH]; intros s j tags r Hj Hsk Hs Hl Harr HF.
    - apply skipn_end in Hsk; [|assumption]. subst j. apply end_step; auto. intros k p Hk Hp Hst. rewrite Forall_forall in Harr. destruct (Harr k Hk) as (u & Hu & Hr).
      destruct (lab_expanded n Hlen max d Hb s _ Hs) as [[Hin _] _]. rewrite Forall_forall in Hin.
      eapply accept_live; eauto. destruct (length T) as [|l] eqn:El; [now left|right]. intros E. apply reads_chars in Hr as [Hr _]. rewrite E in Hr. discriminate.
    - destruct (skipn_step T c bytes j Hsk) as (Hc & Hsk' & Hj'). assert (Hstep := byte_step s j c tags r Hs Hc Hl HF). assert (Hlab := lab_step n Hwf Hlen max d Hb T HT s j c Hs Hc).
      cbn [tdfa_exec_loop]. destruct (find _ (ts_trans (td_get d s))) as [t|]; [|now symmetry]. destruct Hstep as (S1 & S2 & S3). apply IH; auto.
      destruct Hlab as (_ & cl & E1 & _ & _ & L1 & _). rewrite E1. apply Forall_map, Forall_forall. intros x Hx. destruct (L1 x Hx) as (w & _ & (k & t' & rr & K1 & K2 & K3 & K4 & K5)).
      rewrite Forall_forall in Harr. destruct (Harr k (nth_error_In _ _ K1)) as (u & Hu & Hr). exists ((u ++ w) ++ [IC c]). split.
      + eapply path_app; [eapply path_app; [exact Hu|apply zpath_path; exact K2]|]. eapply path_sym1; [exact K4|exact K5].
      + apply reads_app. exists j. split; [apply reads_app; eauto|]. constructor; [assumption|]. now constructor.
  Qed.
  Theorem tdfa_go : g = tdfa_groups d -> tdfa_run_exec d T = go_ T 0 0 (no_bounds g).
  Proof using Hwf Hlen Hb HT Hlast Hset.
    intros Hg. unfold tdfa_run_exec. cbn zeta. rewrite <- Hg. apply exec_loop_first; auto; [lia|reflexivity|..]; cbn [td_get]; rewrite (b_start _ _ _ Hb).
    - reflexivity.
    - constructor; [|constructor]. exists []. split; [constructor|]. constructor. lia.
    - cbn [combine]. now apply first_one.
  Qed.
  Theorem tdfa_first r : g = tdfa_groups d -> ev_ (alts n 0) 0 r -> tdfa_run_exec d T = option_map (fun W => run_marks one 0 W (no_bounds g)) r.
  Proof using Hwf Hlen Hb HT Hlast Hset.
    intros Hg Hev. rewrite (tdfa_go Hg). rewrite (ev_go byte_check one (fun _ => le_n 1) T n Hwf Hlen T 0 0 _ r); auto; lia.
  Qed.
End Sim.

Lemma dfa_best s e n m max d T has : parse_str s = ROk e -> Forall scalar s -> loops_read e = true -> caret_ok e = true -> Forall scalar T ->
  (forall a c, has a c = true <-> atom_has a c) ->
  working_new (tree_of e) = Ok n -> u8_new n = Ok m -> m <> [] -> tdfa_from_nfa m max = Ok (Some d) ->
  dfa_exec d T = Ok (answer T (tdfa_groups d) (hd_error (all_matches has T e))).
Proof.
  intros Hp Hs Hlo Hca HT Hhas En Em Hm Ed. assert (Hb := parsed_u8_ne s e Hp Hs n m En Em Hm). destruct Hb as (M1 & M2 & M3 & M4 & M5 & M6 & M7).
  destruct (tdfa_from_nfa_spec m (ok_wf _ M1) ltac:(lia) max) as (o & E & Ho). rewrite Ed in E. injection E as <-.
  destruct (dfa_engine_late m max d (utf8 T) (ok_wf _ M1) ltac:(lia) Ed (utf8_bytes T HT)) as [(m' & Em' & _) _].
  unfold dfa_exec. rewrite Em'. cbn [bind].
  rewrite (tdfa_first m (ok_wf _ M1) ltac:(lia) max d Ho (utf8 T) (utf8_bytes T HT) (tdfa_groups d) (proj1 (fin_last _ (ok_fin _ M1))) (parsed_settled s e n m Hp Hs Hca En Em Hm) (option_map enc (best T (tways acheck T (tree_of e)))) eq_refl).
  - rewrite <- (best_finish e Hlo T HT has Hhas). f_equal. destruct (best T (tways acheck T (tree_of e))) as [W|]; [|reflexivity]. cbn [option_map]. now rewrite run_marks_enc.
  - eapply byte_best; eauto.
Qed.
