(** What the DFA computes about its automaton. *)
From Verif Require Export PDfa.
From Coq Require Import ZifyBool ZifyNat ZifyN Sorted.
Open Scope nat_scope.
Open Scope list_scope.
Set Default Proof Using "Type".

(** A word read up to [j], except that [^] may also hold after the last character read. *)
Definition late (T : list N) (j : nat) (W : word) : Prop :=
  exists u z, W = u ++ z /\ chars z = [] /\ reads T 0 u j /\ (has EEnd z = true -> j = length T).

Definition accs (a : tacc) : list (acc_tr * bool) :=
  match a with AAnch a => [(a, false)] | ABoth a u => [(a, false); (u, true)] | AUnan u => [(u, true)] | ANone => [] end.
Definition always (a : tacc) : bool := match a with ABoth _ _ | AUnan _ => true | _ => false end.
Lemma accs_update x y p : In p (accs (acc_update x y)) -> In p (accs x) \/ In p (accs y).
Proof. destruct x, y; cbn; intuition. Qed.
Lemma update_none x y : accs (acc_update x y) = [] <-> accs x = [] /\ accs y = [].
Proof. destruct x, y; cbn; intuition congruence. Qed.
Lemma update_always x y : always (acc_update x y) = always x || always y.
Proof. destruct x, y; reflexivity. Qed.
Lemma acc_from_props_spec local ps accept :
  (forall a u, In (a, u) (accs (acc_from_props local ps accept)) -> at_state a = local /\ exists p, In p ps /\ ep_state p = accept /\ at_tags a = ep_tags p /\ (u = true -> ep_end p = false)) /\
  (forall p, In p ps -> ep_state p = accept -> accs (acc_from_props local ps accept) <> [] /\ (ep_end p = false -> always (acc_from_props local ps accept) = true)).
Proof.
  unfold acc_from_props. set (l := filter (fun p => ep_state p =? accept) ps).
  assert (Hl : forall p, In p l <-> In p ps /\ ep_state p = accept) by (intros p; unfold l; rewrite filter_In, Nat.eqb_eq; reflexivity).
  assert (Hi : forall q i, index_of q l = Some i -> In (nth i l (mkEp 0 [] false false)) l /\ q (nth i l (mkEp 0 [] false false)) = true).
  { intros q i E. apply index_of_some in E as (x & Ex & Hx). rewrite (nth_error_nth _ _ _ Ex). split; [eapply nth_error_In; eauto|assumption]. }
  assert (Hm : forall i, In (nth i l (mkEp 0 [] false false)) l -> forall u, (u = true -> ep_end (nth i l (mkEp 0 [] false false)) = false) ->
     forall a u', (mkAcc local (ep_tags (nth i l (mkEp 0 [] false false))), u) = (a, u') -> at_state a = local /\ exists p, In p ps /\ ep_state p = accept /\ at_tags a = ep_tags p /\ (u' = true -> ep_end p = false)).
  { intros i Hin u Hu a u' E. injection E as <- <-. split; [reflexivity|]. apply Hl in Hin as [H1 H2]. eexists. split; [exact H1|]. auto. }
  destruct (index_of ep_end l) as [a|] eqn:Ea, (index_of (fun p => negb (ep_end p)) l) as [u|] eqn:Eu.
  - destruct (Hi _ _ Ea) as [A1 A2], (Hi _ _ Eu) as [U1 U2]. apply negb_true_iff in U2. split.
    + intros b x Hx. destruct (a <? u); cbn in Hx.
      * destruct Hx as [Hx|[Hx|[]]]; (eapply Hm; [| |exact Hx]); auto; discriminate.
      * destruct Hx as [Hx|[]]; (eapply Hm; [| |exact Hx]); auto.
    + intros p _ _. destruct (a <? u); cbn; split; auto; discriminate.
  - destruct (Hi _ _ Ea) as [A1 A2]. split.
    + intros b x [Hx|[]]. eapply Hm; [| |exact Hx]; auto; discriminate.
    + intros p H1 H2. split; [discriminate|]. intros H3. rewrite index_of_none in Eu. specialize (Eu p (proj2 (Hl p) (conj H1 H2))). rewrite H3 in Eu. discriminate.
  - destruct (Hi _ _ Eu) as [U1 U2]. apply negb_true_iff in U2. split.
    + intros b x [Hx|[]]. eapply Hm; [| |exact Hx]; auto.
    + intros p _ _. split; [discriminate|reflexivity].
  - split; [intros b x []|]. intros p H1 H2. exfalso. assert (Hp : In p l) by (apply Hl; auto). rewrite index_of_none in Ea, Eu. specialize (Ea p Hp). specialize (Eu p Hp). cbv beta in Eu. rewrite Ea in Eu. discriminate.
Qed.

Section Run.
  Variable n : nfa range.
  Hypothesis Hwf : wf n.
  Hypothesis Hlen : 1 <= length n.
  Notation acc_st := (length n - 1).
  Lemma all_acc_spec nfas : in_n n nfas ->
    (forall a u, In (a, u) (accs (all_acc n nfas)) -> exists k w, nth_error nfas (at_state a) = Some k /\ zpath n k w acc_st /\ at_tags a = tags_of w /\ (u = true -> has EEnd w = false)) /\
    (forall k w, In k nfas -> zpath n k w acc_st -> accs (all_acc n nfas) <> [] /\ (has EEnd w = false -> always (all_acc n nfas) = true)).
  Proof using Hwf.
    intros Hin. unfold all_acc. set (F := fun a (x : nat * nat) => acc_update a _).
    assert (G : forall xs a0, (forall x, In x xs -> In x (enumerate nfas)) ->
      (forall p, In p (accs (fold_left F xs a0)) -> In p (accs a0) \/ exists x, In x xs /\ In p (accs (acc_from_props (fst x) (props n (snd x)) acc_st))) /\
      (accs (fold_left F xs a0) = [] <-> accs a0 = [] /\ forall x, In x xs -> accs (acc_from_props (fst x) (props n (snd x)) acc_st) = []) /\
      (always (fold_left F xs a0) = true <-> always a0 = true \/ exists x, In x xs /\ always (acc_from_props (fst x) (props n (snd x)) acc_st) = true)).
    { induction xs as [|x xs IH]; intros a0 Hx; cbn [fold_left].
      - split; [auto|]. split; [split; [intros H; split; [assumption|intros x []]|intros [H _]; assumption]|]. split; [auto|]. intros [H|(x & [] & _)]; assumption.
      - destruct (IH (F a0 x)) as (I1 & I2 & I3); [intros; apply Hx; now right|]. split; [|split].
        + intros p Hp. apply I1 in Hp as [Hp|(y & Hy & Hp)]; [|right; exists y; split; [now right|assumption]].
          unfold F in Hp. apply accs_update in Hp as [Hp|Hp]; [now left|right; exists x; split; [now left|assumption]].
        + rewrite I2. unfold F. rewrite update_none. split.
          * intros [[H1 H2] H3]. split; [assumption|]. intros y [<-|Hy]; auto.
          * intros [H1 H2]. split; [split; [assumption|apply H2; now left]|]. intros y Hy. apply H2. now right.
        + rewrite I3. unfold F. rewrite update_always, orb_true_iff. split.
          * intros [[H|H]|(y & Hy & H)]; [now left|right; exists x; split; [now left|assumption]|right; exists y; split; [now right|assumption]].
          * intros [H|(y & [<-|Hy] & H)]; [left; now left|left; now right|right; eauto]. }
    destruct (G (enumerate nfas) ANone (fun x Hx => Hx)) as (G1 & G2 & G3). split.
    - intros a u Ha. apply G1 in Ha as [[]|([i k] & Hx & Ha)]. apply In_enumerate in Hx. cbn [fst snd] in Ha.
      assert (Hk : k < length n) by (destruct Hin as [Hin _]; rewrite Forall_forall in Hin; apply Hin; eapply nth_error_In; eauto).
      apply acc_from_props_spec in Ha as (E & p & Hp & Hs & Ht & Hu). apply (props_spec n Hwf k p Hk) in Hp as (t & w & Hz & ->). cbn in Hs. subst t.
      exists k, w. rewrite E. repeat split; auto.
    - intros k w Hk Hz. apply In_nth_error in Hk as (i & Hi). assert (Hkn : k < length n) by (destruct Hin as [Hin _]; rewrite Forall_forall in Hin; apply Hin; eapply nth_error_In; eauto).
      assert (Hx : In (i, k) (enumerate nfas)) by now apply In_enumerate.
      destruct (proj2 (acc_from_props_spec i (props n k) acc_st) (ep_of acc_st w)) as [P1 P2]; [apply props_spec; eauto|reflexivity|]. split.
      + intros E. apply G2 in E as [_ E]. apply P1. exact (E _ Hx).
      + intros He. apply G3. right. exists (i, k). split; [assumption|]. now apply P2.
  Qed.

  Variable T : list N.
  Hypothesis HT : Forall (fun b => (b <= 255)%N) T.
  (** The step on one byte. *)
  Definition steps (nfas : list nat) (j : nat) (c : N) (i : nat) (w : word) (to : nat) : Prop :=
    exists k t r, nth_error nfas i = Some k /\ zpath n k w t /\ reads T j w j /\ In (to, r) (trans (get n t)) /\ in_range c r = true.
  Lemma Forall2_In_l {A B} (R : A -> B -> Prop) l m x : Forall2 R l m -> In x l -> exists y, In y m /\ R x y.
  Proof. induction 1 as [|a b l m Hab H IH]; intros Hx; [destruct Hx|]. destruct Hx as [<-|Hx]; [exists b; split; [now left|assumption]|]. destruct (IH Hx) as (y & Hy & Hr). exists y. split; [now right|assumption]. Qed.
  Lemma Forall2_In_r {A B} (R : A -> B -> Prop) l m y : Forall2 R l m -> In y m -> exists x, In x l /\ R x y.
  Proof. induction 1 as [|a b l m Hab H IH]; intros Hy; [destruct Hy|]. destruct Hy as [<-|Hy]; [exists a; split; [now left|assumption]|]. destruct (IH Hy) as (x & Hx & Hr). exists x. split; [now right|assumption]. Qed.
  Lemma step_spec ns keep st j c : in_n n (ts_nfa st) -> expanded n ns keep st -> nth_error T j = Some c ->
    (forall t w, chars w = [] -> keep (ep_of t w) = true <-> reads T j w j) ->
    match find (fun t => in_range c (tt_sym t)) (ts_trans st) with
    | Some t => exists cl, nth_error ns (tt_to t) = Some (map c_to cl) /\ tt_copy t = map c_from cl /\ tt_add t = adds cl /\
        (forall x, In x cl -> exists w, c_tags x = tags_of w /\ steps (ts_nfa st) j c (c_from x) w (c_to x)) /\
        (forall i w to, steps (ts_nfa st) j c i w to -> In to (map c_to cl))
    | None => forall i w to, ~ steps (ts_nfa st) j c i w to
    end.
  Proof using Hwf HT.
    intros Hin [_ Hex] Hc Hkeep. set (cs := all_cands n keep (ts_nfa st)) in *. destruct (cand_ranges_ok cs) as [O1 O2 O3 O4].
    assert (Hc255 : (c <= 255)%N) by (rewrite Forall_forall in HT; apply HT; eapply nth_error_In; eauto).
    assert (Hb : forall i w to, steps (ts_nfa st) j c i w to -> exists x, In x (byte_cands cs c) /\ c_to x = to).
    { intros i w to (k & t & r & H1 & H2 & H3 & H4 & H5). exists (mkCand i (tags_of w) to). split; [|reflexivity]. apply byte_cands_In. exists r. split; [|assumption].
      apply all_cands_In; auto. exists k, t, w. cbn [c_from c_tags c_to]. repeat split; auto. apply Hkeep; [eapply zpath_chars; eauto|assumption]. }
    assert (Hd : forall x, In x (byte_cands cs c) -> In (c_to x) (map c_to (dedup_cands (byte_cands cs c)))).
    { intros x Hx. destruct (dedup_complete c_to _ (byte_cands cs c) ceqb_iff [] x Hx) as [(y & Hy & E)|(y & [] & _)]. rewrite <- E. now apply in_map. }
    destruct (find _ (ts_trans st)) as [t|] eqn:Ef.
    - apply find_some in Ef as [Hti Htr]. destruct (Forall2_In_r _ _ _ _ Hex Hti) as ([r cl] & Hr & (E1 & E2 & E3 & E4)). cbn [fst snd] in *.
      rewrite E1 in Htr. assert (Ecl := O3 r cl c Hr Htr). exists cl. do 3 (split; [assumption|]). split.
      + intros x Hx. rewrite Ecl in Hx. apply dedup_In in Hx as [Hx _]. apply byte_cands_In in Hx as (r0 & Hx & Hr0). apply all_cands_In in Hx as (k & u & w & H1 & H2 & H3 & H4 & H5); [|assumption|assumption].
        exists w. split; [assumption|]. exists k, u, r0. repeat split; auto. apply Hkeep in H3; [assumption|]. eapply zpath_chars; eauto.
      + intros i w to Hs. destruct (Hb i w to Hs) as (x & Hx & <-). rewrite Ecl. auto.
    - intros i w to Hs. destruct (Hb i w to Hs) as (x & Hx & _). destruct (O4 c Hc255) as (r & cl & Hr & Hrc); [intros E; rewrite E in Hx; destruct Hx|].
      destruct (Forall2_In_l _ _ _ _ Hex Hr) as (t & Ht & (E1 & _)). cbn [fst] in E1. apply find_none with (x := t) in Ef; [|assumption]. rewrite E1 in Ef. congruence.
  Qed.

  (** The rest of a run. *)
  Variable fin : nat -> Prop.
  Definition lrest (j s : nat) (w : word) : Prop :=
    path byte_check n s w acc_st /\ exists u z j', w = u ++ z /\ chars z = [] /\ reads T j u j' /\ (has EEnd z = true -> j' = length T) /\ fin j'.
  Lemma chars_nil_dec w : chars w = [] \/ exists x c w', w = x ++ IC c :: w' /\ chars x = [].
  Proof.
    induction w as [|[c|e] w IH]; [now left|right; exists [], c, w; auto|]. destruct IH as [IH|(x & c & w' & -> & Hx)]; [now left|].
    right. exists (IM e :: x), c, w'. auto.
  Qed.
  Lemma app_char x c w' u z : x ++ IC c :: w' = u ++ z -> chars x = [] -> chars z = [] -> exists u', u = x ++ IC c :: u' /\ w' = u' ++ z.
  Proof.
    revert u. induction x as [|y x IH]; intros u E Hx Hz.
    - destruct u as [|a u]; cbn in E; [subst z; discriminate|]. injection E as <- ->. exists u. auto.
    - destruct u as [|a u]; cbn in E.
      + subst z. exfalso. destruct y; [discriminate|]. cbn in Hz. rewrite chars_app in Hz. apply app_eq_nil in Hz as [_ Hz]. discriminate.
      + injection E as <- E. destruct y; [discriminate|]. destruct (IH u E Hx Hz) as (u' & -> & ->). exists u'. auto.
  Qed.
  Lemma lrest_cases j s w : lrest j s w ->
    (zpath n s w acc_st /\ (has EEnd w = true -> j = length T) /\ fin j) \/
    (exists x t a c t' w', w = x ++ IC c :: w' /\ zpath n s x t /\ reads T j x j /\ nth_error T j = Some c /\ In (t', a) (trans (get n t)) /\ in_range c a = true /\ lrest (S j) t' w').
  Proof using Hlen.
    intros (Hp & u & z & j' & E & Hz & Hr & He & Hf). destruct (chars_nil_dec w) as [Hw|(x & c & w' & -> & Hx)].
    - left. split; [eapply path_zpath; eauto|]. assert (Hu : chars u = []) by (rewrite E, chars_app in Hw; now apply app_eq_nil in Hw).
      assert (Hj : j' = j) by (destruct (reads_chars _ _ _ _ Hr) as [Hj _]; rewrite Hu in Hj; cbn in Hj; lia). subst j'. split; [|assumption].
      intros H. rewrite E, has_app in H. apply orb_prop in H as [H|H]; [|auto]. assert (Hl := reads_le _ _ _ _ Hr). apply (zero_reads T j u Hu) in Hr; [|lia]. now apply Hr.
    - right. destruct (app_char x c w' u z E Hx Hz) as (u' & -> & ->). apply reads_app in Hr as (k & Hr1 & Hr2). apply reads_char_inv in Hr2 as [Hc Hr2].
      assert (Hk : k = j) by (destruct (reads_chars _ _ _ _ Hr1) as [Hj _]; rewrite Hx in Hj; cbn in Hj; lia). subst k.
      destruct (path_split _ _ _ _ _ Hp x (IC c :: u' ++ z) eq_refl) as (t & P1 & P2).
      assert (G : exists q a t', zpath n t [] q /\ In (t', a) (trans (get n q)) /\ in_range c a = true /\ path byte_check n t' (u' ++ z) acc_st).
      { clear - P2. remember (IC c :: u' ++ z) as v eqn:Ev. revert Ev. induction P2 as [s|s t e w q He Hp IH|s t a c' w q Ha Hca Hp IH]; intros Ev; [discriminate| |].
        - destruct e; cbn in Ev; try discriminate. destruct (IH Ev) as (q' & a & t' & H1 & H2). exists q', a, t'. split; [|assumption]. change ([] : word) with (mark ENone ++ []). eapply zpath_cons; eauto.
        - injection Ev as -> ->. exists s, a, t. split; [constructor|]. auto. }
      destruct G as (q & a & t' & G1 & G2 & G3 & G4). exists x, q, a, c, t', (u' ++ z). split; [reflexivity|].
      split; [rewrite <- (app_nil_r x); eapply zpath_app; [eapply path_zpath; eauto|exact G1]|]. split; [assumption|]. split; [assumption|]. split; [assumption|]. split; [assumption|].
      split; [assumption|]. exists u', z, j'. auto.
  Qed.
  Lemma lrest_cons j s x t a c t' w' : zpath n s x t -> reads T j x j -> nth_error T j = Some c -> In (t', a) (trans (get n t)) -> in_range c a = true -> lrest (S j) t' w' -> lrest j s (x ++ IC c :: w').
  Proof.
    intros Hz Hr Hc Ha Hca (Hp & u & z & j' & -> & Hcz & Hr' & He & Hf). split.
    - eapply path_app; [apply zpath_path; exact Hz|]. econstructor; eauto.
    - exists (x ++ IC c :: u), z, j'. split; [now rewrite <- app_assoc|]. split; [assumption|]. split; [|auto]. apply reads_app. exists j. split; [assumption|]. now constructor.
  Qed.
  Lemma lrest_here j s w : j <= length T -> zpath n s w acc_st -> (has EEnd w = true -> j = length T) -> fin j -> lrest j s w.
  Proof.
    intros Hj Hz He Hf. split; [now apply zpath_path|]. exists [], w, j. split; [reflexivity|]. split; [eapply zpath_chars; eauto|]. split; [now constructor|auto].
  Qed.
  Lemma lrest_le j s w : lrest j s w -> j <= length T.
  Proof using Hlen. intros (_ & u & z & j' & _ & _ & Hr & _). assert (H := reads_le _ _ _ _ Hr). lia. Qed.
  Lemma lrest_late s w : lrest 0 s w <-> path byte_check n s w acc_st /\ exists j, late T j w /\ fin j.
  Proof.
    unfold lrest, late. split.
    - intros (H & u & z & j & H1 & H2 & H3 & H4 & H5). split; [assumption|]. exists j. split; [|assumption]. exists u, z. auto.
    - intros (H & j & (u & z & H1 & H2 & H3 & H4) & H5). split; [assumption|]. exists u, z, j. auto.
  Qed.
End Run.

Section Sim.
  Variable n : nfa range.
  Hypothesis Hwf : wf n.
  Hypothesis Hlen : 1 <= length n.
  Variable max : nat.
  Variable d : tdfa.
  Hypothesis Hb : built n max d.
  Variable T : list N.
  Hypothesis HT : Forall (fun b => (b <= 255)%N) T.
  Notation acc_st := (length n - 1).
  Notation ns := (names (td_states d)).
  Definition lab_ok (s : option nat) (j : nat) : Prop := match s with None => j = 0 | Some i => 0 < j /\ i < length (td_states d) end.
  Definition keep_of (s : option nat) : eprop -> bool := match s with None => keep_start | Some _ => keep_later end.
  Lemma lab_expanded s j : lab_ok s j -> in_n n (ts_nfa (td_get d s)) /\ expanded n ns (keep_of s) (td_get d s).
  Proof using Hlen Hb.
    destruct s as [i|]; cbn [lab_ok td_get keep_of].
    - intros [_ Hi]. split.
      + assert (H := b_in _ _ _ Hb). rewrite Forall_forall in H. apply H. unfold names. apply in_map. now apply nth_In.
      + apply (b_states _ _ _ Hb). now apply nth_In.
    - intros _. split; [rewrite (b_start _ _ _ Hb); split; [constructor; [lia|constructor]|constructor; [intros []|constructor]]|]. apply (b_start_ex _ _ _ Hb).
  Qed.
  Lemma keep_reads s j t w : lab_ok s j -> j < length T -> chars w = [] -> keep_of s (ep_of t w) = true <-> reads T j w j.
  Proof.
    clear Hlen. intros Hs Hj Hw. rewrite (zero_reads T j w Hw) by lia. destruct s as [i|]; cbn [lab_ok keep_of] in *; unfold keep_start, keep_later, ep_of; cbn [ep_start ep_end].
    - destruct (has EStart w), (has EEnd w); cbn; intuition (try discriminate; try lia).
    - destruct (has EStart w), (has EEnd w); cbn; intuition (try discriminate; try lia).
  Qed.
  Lemma skipn_step c r j : skipn j T = c :: r -> nth_error T j = Some c /\ skipn (S j) T = r /\ S j <= length T.
  Proof.
    clear Hlen. intros H. assert (Hj : j < length T) by (destruct (Nat.lt_ge_cases j (length T)); [assumption|rewrite skipn_all2 in H by lia; discriminate]).
    assert (ET : T = firstn j T ++ c :: r) by (rewrite <- H; symmetry; apply firstn_skipn).
    assert (E : length (firstn j T) = j) by (rewrite firstn_length; lia). revert ET E. generalize (firstn j T). intros p ET E. rewrite ET. split; [|split; [|rewrite app_length; cbn; lia]].
    - rewrite nth_error_app2 by lia. now rewrite E, Nat.sub_diag.
    - rewrite skipn_app, skipn_all2 by lia. rewrite E. replace (S j - j) with 1 by lia. reflexivity.
  Qed.
  Lemma skipn_end j : j <= length T -> skipn j T = [] -> j = length T.
  Proof. clear Hlen. intros Hj H. assert (E := skipn_length j T). rewrite H in E. cbn in E. lia. Qed.
  (** The byte step for a label. *)
  Lemma lab_step s j c : lab_ok s j -> nth_error T j = Some c ->
    match find (fun t => in_range c (tt_sym t)) (ts_trans (td_get d s)) with
    | Some t => lab_ok (Some (tt_to t)) (S j) /\ exists cl, ts_nfa (td_get d (Some (tt_to t))) = map c_to cl /\ tt_copy t = map c_from cl /\ tt_add t = adds cl /\
        (forall x, In x cl -> exists w, c_tags x = tags_of w /\ steps n T (ts_nfa (td_get d s)) j c (c_from x) w (c_to x)) /\
        (forall i w to, steps n T (ts_nfa (td_get d s)) j c i w to -> In to (map c_to cl))
    | None => forall i w to, ~ steps n T (ts_nfa (td_get d s)) j c i w to
    end.
  Proof using Hwf Hlen Hb HT.
    intros Hs Hc. destruct (lab_expanded s j Hs) as [H1 H2]. assert (Hj : j < length T) by (apply nth_error_Some; congruence).
    assert (G := step_spec n Hwf T HT ns (keep_of s) (td_get d s) j c H1 H2 Hc (fun t w Hw => keep_reads s j t w Hs Hj Hw)).
    destruct (find _ (ts_trans (td_get d s))) as [t|]; [|exact G]. destruct G as (cl & G1 & G2). 
    assert (Hlt : tt_to t < length ns) by (apply nth_error_Some; congruence). unfold names in Hlt. rewrite map_length in Hlt.
    split; [cbn; lia|]. exists cl. split; [|exact G2]. cbn [td_get]. unfold names in G1. rewrite (nth_error_nth' (map ts_nfa (td_states d)) (ts_nfa (stub []))) in G1 by (now rewrite map_length).
    rewrite map_nth in G1. congruence.
  Qed.
  (** *** test *)
  Definition base_dfa : dfa := mkDfa (dstate_of (td_start d)) (map dstate_of (td_states d)).
  Lemma trans_sorted s j : lab_ok s j -> StronglySorted (fun a b => (snd (tt_sym a) < fst (tt_sym b))%N) (ts_trans (td_get d s)) /\
    Forall (fun t => tt_to t < length (td_states d) /\ (fst (tt_sym t) <= snd (tt_sym t))%N) (ts_trans (td_get d s)).
  Proof using Hlen Hb.
    intros Hs. destruct (lab_expanded s j Hs) as [_ [_ H]]. set (cs := all_cands n (keep_of s) (ts_nfa (td_get d s))) in *.
    destruct (cand_ranges_ok cs) as [O1 O2 _ _]. revert O1 O2. induction H as [|x t l m (E1 & _ & _ & E4) H IH]; intros O1 O2; [split; constructor|].
    inversion O1 as [|? ? O1a O1b]; subst. inversion O2 as [|? ? O2a O2b]; subst. destruct (IH O1b O2a) as [I1 I2]. split; constructor; auto.
    - clear IH I1 I2 O1 O1b O2 O2a. induction H as [|x' t' l m (E1' & _) H IH]; [constructor|]. inversion O2b; subst. constructor; [unfold capart in H2; rewrite E1, E1'; exact H2|auto].
    - split; [|rewrite E1; apply O1a]. assert (X : tt_to t < length ns) by (apply nth_error_Some; congruence). unfold names in X. now rewrite map_length in X.
  Qed.
  Lemma dstate_trans s j : lab_ok s j -> ds_trans (dstate_of (td_get d s)) = map (fun t => (tt_to t, tt_sym t)) (ts_trans (td_get d s)).
  Proof using Hlen Hb.
    intros Hs. destruct (trans_sorted s j Hs) as [H1 H2]. cbn [dstate_of ds_trans]. apply sort_id. unfold sorted_by. apply SS_map. cbn [fst snd].
    revert H2. induction H1 as [|t l Hs' IH Hf]; intros H2; [constructor|]. inversion H2 as [|? ? [_ H2a] H2b]; subst. constructor; [auto|].
    eapply Forall_impl; [|exact Hf]. cbv beta. intros a Ha. lia.
  Qed.
  Lemma base_get s j : lab_ok s j -> d_get base_dfa s = dstate_of (td_get d s).
  Proof.
    destruct s as [i|]; [|reflexivity]. intros [_ Hi]. cbn [d_get td_get base_dfa d_states]. rewrite (nth_indep _ (mkDS DNone []) (dstate_of (stub []))) by (now rewrite map_length).
    now rewrite map_nth.
  Qed.
  Lemma base_valid : dfa_validate base_dfa = true.
  Proof using Hlen Hb.
    unfold dfa_validate. apply forallb_forall. intros x Hx.
    assert (G : exists s j, lab_ok s j /\ x = dstate_of (td_get d s)).
    { cbn [base_dfa d_start d_states] in Hx. destruct Hx as [<-|Hx]; [exists None, 0; split; reflexivity|]. apply in_map_iff in Hx as (st & <- & Hst).
      apply In_nth with (d := stub []) in Hst as (i & Hi & <-). exists (Some i), 1. split; [cbn; lia|reflexivity]. }
    destruct G as (s & j & Hs & ->). rewrite (dstate_trans s j Hs). destruct (trans_sorted s j Hs) as [H1 H2]. cbn [base_dfa d_states]. rewrite map_length.
    apply validate_trans_intro; [|apply SS_map; exact H1|exact I]. apply Forall_map. exact H2.
  Qed.
  Lemma base_sorted x : In x (d_start base_dfa :: d_states base_dfa) -> StronglySorted trans_apart (ds_trans x) /\ Forall (fun t => (fst (snd t) <= snd (snd t))%N) (ds_trans x).
  Proof using Hlen Hb.
    intros Hx. assert (G : exists s j, lab_ok s j /\ x = dstate_of (td_get d s)).
    { cbn [base_dfa d_start d_states] in Hx. destruct Hx as [<-|Hx]; [exists None, 0; split; reflexivity|]. apply in_map_iff in Hx as (st & <- & Hst).
      apply In_nth with (d := stub []) in Hst as (i & Hi & <-). exists (Some i), 1. split; [cbn; lia|reflexivity]. }
    destruct G as (s & j & Hs & ->). rewrite (dstate_trans s j Hs). destruct (trans_sorted s j Hs) as [H1 H2]. split; [apply SS_map; exact H1|]. apply Forall_map. eapply Forall_impl; [|exact H2]. cbv beta. cbn. tauto.
  Qed.
  Lemma find_trans c l : find (fun t : nat * range => in_range c (snd t)) (map (fun t => (tt_to t, tt_sym t)) l) = option_map (fun t => (tt_to t, tt_sym t)) (find (fun t => in_range c (tt_sym t)) l).
  Proof. induction l as [|t l IH]; [reflexivity|]. cbn [map find snd]. destruct (in_range c (tt_sym t)); [reflexivity|exact IH]. Qed.
  Lemma dfa_loop_spec bytes : forall s j, j <= length T -> skipn j T = bytes -> lab_ok s j ->
    dfa_test_loop base_dfa s bytes = true <-> exists k w, In k (ts_nfa (td_get d s)) /\ lrest n T (fun _ => True) j k w.
  Proof using Hwf Hlen Hb HT.
    induction bytes as [|c bytes IH]; intros s j Hj Hsk Hs; cbn [dfa_test_loop]; rewrite (base_get s j Hs).
    - apply skipn_end in Hsk; [|assumption]. destruct (lab_expanded s j Hs) as [H1 [H2 _]]. destruct (all_acc_spec n Hwf _ H1) as [A1 A2]. cbn [dstate_of ds_acc]. rewrite H2. split.
      + intros H. assert (E : exists a u, In (a, u) (accs (all_acc n (ts_nfa (td_get d s))))).
        { destruct (all_acc n _) as [a|a u|u|]; [exists a, false; now left|exists a, false; now left|exists u, true; now left|discriminate]. }
        destruct E as (a & u & E). destruct (A1 a u E) as (k & w & K1 & K2 & _). exists k, w. split; [eapply nth_error_In; eauto|]. apply lrest_here; auto.
      + intros (k & w & Hk & Hr). apply lrest_cases in Hr as [(Hz & _ & _)|(x & t & a & c & t' & w' & _ & _ & _ & Hc & _)]; [| |assumption].
        * destruct (A2 k w Hk Hz) as [N1 _]. destruct (all_acc n _); try reflexivity. cbn in N1. congruence.
        * assert (nth_error T j <> None) by congruence. apply nth_error_Some in H. lia.
    - destruct (skipn_step c bytes j Hsk) as (Hc & Hsk' & Hj'). destruct (lab_expanded s j Hs) as [H1 [H2 _]]. destruct (all_acc_spec n Hwf _ H1) as [A1 A2].
      rewrite (dstate_trans s j Hs), find_trans. cbn [dstate_of ds_acc].
      assert (Hstep := lab_step s j c Hs Hc).
      assert (Hgo : always (ts_acc (td_get d s)) = false -> match option_map (fun t => (tt_to t, tt_sym t)) (find (fun t => in_range c (tt_sym t)) (ts_trans (td_get d s))) with
               | Some (to, _) => dfa_test_loop base_dfa (Some to) bytes | None => false end = true <->
               exists k w, In k (ts_nfa (td_get d s)) /\ lrest n T (fun _ => True) j k w).
      { intros Hna. assert (Hcase : forall k w, In k (ts_nfa (td_get d s)) -> lrest n T (fun _ => True) j k w -> exists i x t' w', steps n T (ts_nfa (td_get d s)) j c i x t' /\ lrest n T (fun _ => True) (S j) t' w').
        { intros k w Hk Hr. apply lrest_cases in Hr as [(Hz & He & _)|(x & t & a & c' & t' & w' & -> & Hz & Hrx & Hc' & Ha & Hca & Hr)]; [| |assumption].
          - exfalso. destruct (A2 k w Hk Hz) as [_ N2]. rewrite H2 in Hna. destruct (has EEnd w); [specialize (He eq_refl); lia|]. rewrite N2 in Hna by reflexivity. discriminate.
          - assert (c' = c) by congruence. subst c'. apply In_nth_error in Hk as (i & Hi). exists i, x, t', w'. split; [|assumption]. exists k, t, a. auto. }
        destruct (find _ (ts_trans (td_get d s))) as [t|]; cbn [option_map].
        - destruct Hstep as (Hs' & cl & E1 & _ & _ & S1 & S2). rewrite (IH (Some (tt_to t)) (S j) Hj' Hsk' Hs'). rewrite E1. split.
          + intros (k & w & Hk & Hr). apply in_map_iff in Hk as (x & <- & Hx). destruct (S1 x Hx) as (v & _ & (k0 & u & r & K1 & K2 & K3 & K4 & K5)).
            exists k0, (v ++ IC c :: w). split; [eapply nth_error_In; eauto|]. eapply lrest_cons; eauto.
          + intros (k & w & Hk & Hr). destruct (Hcase k w Hk Hr) as (i & x & t' & w' & Hst & Hr'). exists t', w'. split; [eapply S2; eauto|assumption].
        - split; [discriminate|]. intros (k & w & Hk & Hr). destruct (Hcase k w Hk Hr) as (i & x & t' & w' & Hst & Hr'). exfalso. eapply Hstep; eauto. }
      destruct (ts_acc (td_get d s)) as [a|a u|u|] eqn:Eacc; try (apply Hgo; reflexivity).
      + split; [intros _|reflexivity]. rewrite <- H2 in A1. destruct (A1 u true) as (k & w & K1 & K2 & K3 & K4); [cbn; auto|].
        exists k, w. split; [eapply nth_error_In; eauto|]. apply lrest_here; auto. rewrite K4 by reflexivity. discriminate.
      + split; [intros _|reflexivity]. rewrite <- H2 in A1. destruct (A1 u true) as (k & w & K1 & K2 & K3 & K4); [cbn; auto|].
        exists k, w. split; [eapply nth_error_In; eauto|]. apply lrest_here; auto. rewrite K4 by reflexivity. discriminate.
  Qed.
  Lemma dfa_test_late : dfa_run_test base_dfa T = true <-> exists j W, lang byte_check n W /\ late T j W.
  Proof using Hwf Hlen Hb HT.
    assert (G := dfa_loop_spec T None 0 ltac:(lia) eq_refl eq_refl).
    assert (E : dfa_run_test base_dfa T = dfa_test_loop base_dfa None T).
    { unfold dfa_run_test. change (d_start base_dfa) with (d_get base_dfa None). destruct T as [|c r]; cbn [dfa_test_loop]; destruct (ds_acc (d_get base_dfa None)); reflexivity. }
    rewrite E, G. cbn [td_get]. rewrite (b_start _ _ _ Hb). split.
    - intros (k & w & [<-|[]] & Hr). apply lrest_late in Hr as (Hp & j & Hl & _). exists j, w. auto.
    - intros (j & W & Hp & Hl). exists 0, W. split; [now left|]. apply lrest_late. split; [exact Hp|]. eauto.
  Qed.
  (** *** exec *)
  Variable g : nat.
  Lemma modify_app {A} (f : A -> A) pre x post : modify (length pre) f (pre ++ x :: post) = pre ++ f x :: post.
  Proof. induction pre as [|y pre IH]; cbn; [reflexivity|]. now rewrite IH. Qed.
  Lemma apply_adds i cl : forall pre l, length l = length cl ->
    fold_left (fun bs x => modify (fst x) (fun b => apply_tag i b (snd x)) bs)
      (concat (map (fun '(i, c) => map (fun t => (i, t)) (c_tags c)) (combine (seq (length pre) (length cl)) cl))) (pre ++ l)
    = pre ++ map (fun p => apply_tags i (c_tags (fst p)) (snd p)) (combine cl l).
  Proof.
    clear Hlen. induction cl as [|c cl IH]; intros pre l Hl; destruct l as [|b l]; try discriminate; [reflexivity|].
    cbn [length seq combine map concat]. rewrite fold_left_app.
    assert (E : forall ts b, fold_left (fun bs x => modify (fst x) (fun b => apply_tag i b (snd x)) bs) (map (fun t => (length pre, t)) ts) (pre ++ b :: l) = pre ++ apply_tags i ts b :: l).
    { induction ts as [|t ts IHt]; intros b0; [reflexivity|]. cbn [map fold_left fst snd]. rewrite modify_app. apply IHt. }
    rewrite E. specialize (IH (pre ++ [apply_tags i (c_tags c) b]) l). rewrite app_length in IH. cbn [length] in IH. rewrite Nat.add_1_r in IH. rewrite <- !app_assoc in IH. cbn [app] in IH.
    apply IH. cbn in Hl. lia.
  Qed.
  Lemma tt_apply_eq i t old cl : tt_copy t = map c_from cl -> tt_add t = adds cl ->
    tt_apply i g t old = map (fun c => apply_tags i (c_tags c) (nth (c_from c) old (no_bounds g))) cl.
  Proof.
    intros E1 E2. unfold tt_apply. rewrite E1, E2, map_map. unfold adds, enumerate. assert (H := apply_adds i cl [] (map (fun c => nth (c_from c) old (no_bounds g)) cl) (map_length _ _)).
    cbn [length app] in H. rewrite H. clear. induction cl; cbn; congruence.
  Qed.
  (** The groups of the tags of a transition or of accepting are counted. *)
  Hypothesis Hgd : tdfa_groups d <= g.
  Definition room (w : word) : Prop := forall k, In (IM (ESC k)) w -> k < g.
  Lemma room_app u v : room u -> room v -> room (u ++ v).
  Proof. intros Hu Hv k Hk. apply in_app_or in Hk as [Hk|Hk]; auto. Qed.
  Lemma max_In l x : In x l -> x <= fold_right Nat.max 0 l.
  Proof. clear. induction l as [|y l IH]; cbn; [tauto|]. intros [->|H]; [lia|]. specialize (IH H). lia. Qed.
  Lemma lab_groups s j : lab_ok s j -> ts_groups (td_get d s) < g.
  Proof using Hgd.
    clear Hlen. intros Hs. unfold tdfa_groups in Hgd. enough (ts_groups (td_get d s) <= fold_right Nat.max 0 (map ts_groups (td_states d ++ [td_start d]))) by lia.
    apply max_In, in_map, in_or_app. destruct s as [i|]; [left; apply nth_In; apply Hs|right; now left].
  Qed.
  Lemma tags_room w : (forall t, In t (tags_of w) -> tag_group t < g) -> room w.
  Proof. intros H k Hk. apply (H (TagS k)). apply tags_of_In. right. exists (IM (ESC k)). split; [assumption|now left]. Qed.
  Lemma trans_room s j t cl x w : lab_ok s j -> In t (ts_trans (td_get d s)) -> tt_add t = adds cl -> In x cl -> c_tags x = tags_of w -> room w.
  Proof using Hgd.
    clear Hlen. intros Hs Ht Ea Hx Et. apply tags_room. intros y Hy. rewrite <- Et in Hy. assert (G := lab_groups s j Hs). unfold ts_groups in G.
    enough (tag_group y <= fold_right Nat.max 0 (flat_map (fun t => map (fun x => tag_group (snd x)) (tt_add t)) (ts_trans (td_get d s)))) by lia.
    apply max_In, in_flat_map. exists t. split; [assumption|]. rewrite Ea. unfold adds. apply In_nth_error in Hx as (i & Hx).
    apply in_map_iff. exists (i, y). split; [reflexivity|]. apply in_concat. exists (map (fun t => (i, t)) (c_tags x)). split; [|now apply in_map].
    apply in_map_iff. exists (i, x). split; [reflexivity|]. now apply In_enumerate.
  Qed.
  Lemma acc_room s j a u w : lab_ok s j -> In (a, u) (accs (ts_acc (td_get d s))) -> at_tags a = tags_of w -> room w.
  Proof using Hgd.
    clear Hlen. intros Hs Ha Et. apply tags_room. intros y Hy. rewrite <- Et in Hy. assert (G := lab_groups s j Hs). unfold ts_groups in G.
    assert (Y : tag_group y <= acc_groups a) by (apply max_In; now apply in_map).
    destruct (ts_acc (td_get d s)) as [b|b v|v|]; cbn [accs] in Ha; [| | |destruct Ha].
    - destruct Ha as [E|[]]. injection E as E _; subst. cbn [Nat.max] in *. lia.
    - destruct Ha as [E|[E|[]]]; injection E as E _; subst; lia.
    - destruct Ha as [E|[]]. injection E as E _; subst. cbn [Nat.max] in *. lia.
  Qed.
  Definition arr (j k : nat) (b : bounds) : Prop := exists u, path byte_check n 0 u k /\ reads T 0 u j /\ b = run_marks (fun _ => 1) 0 u (no_bounds g) /\ room u.
  Lemma wwidth_one u : wwidth (fun _ => 1) u = length (chars u).
  Proof. induction u as [|[c|e] u IH]; cbn in *; auto. Qed.
  Lemma arr_marks j u w : reads T 0 u j -> chars w = [] -> run_marks (fun _ => 1) 0 (u ++ w) (no_bounds g) = apply_tags j (tags_of w) (run_marks (fun _ => 1) 0 u (no_bounds g)).
  Proof.
    intros Hr Hw. rewrite run_marks_app, wwidth_one. destruct (reads_chars _ _ _ _ Hr) as [E _]. rewrite <- E. symmetry. now apply apply_tags_of.
  Qed.
  Lemma exec_loop_spec bytes : forall s j tags, j <= length T -> skipn j T = bytes -> lab_ok s j -> Forall2 (arr j) (ts_nfa (td_get d s)) tags ->
    match tdfa_exec_loop d g s j tags bytes with
    | Some b => exists W, lang byte_check n W /\ late T (length T) W /\ b = run_marks (fun _ => 1) 0 W (no_bounds g) /\ room W
    | None => forall k w, In k (ts_nfa (td_get d s)) -> ~ lrest n T (fun j' => j' = length T) j k w
    end.
  Proof using Hwf Hlen Hb HT Hgd.
    induction bytes as [|c bytes IH]; intros s j tags Hj Hsk Hs Htags; cbn [tdfa_exec_loop].
    - apply skipn_end in Hsk; [|assumption]. destruct (lab_expanded s j Hs) as [H1 [H2 _]]. destruct (all_acc_spec n Hwf _ H1) as [A1 A2]. rewrite H2.
      assert (Hok : forall a u, In (a, u) (accs (all_acc n (ts_nfa (td_get d s)))) ->
        exists W, lang byte_check n W /\ late T (length T) W /\ acc_apply j g a tags = run_marks (fun _ => 1) 0 W (no_bounds g) /\ room W).
      { intros a u Ha. destruct (A1 a u Ha) as (k & w & K1 & K2 & K3 & _). assert (Hlt : at_state a < length (ts_nfa (td_get d s))) by (apply nth_error_Some; congruence).
        assert (Harr := Forall2_nth (arr j) _ _ (at_state a) 0 (no_bounds g) Htags Hlt). rewrite (nth_error_nth _ _ _ K1) in Harr. destruct Harr as (v & V1 & V2 & V3 & V4).
        exists (v ++ w). split; [eapply path_app; [exact V1|apply zpath_path; exact K2]|]. split; [|split].
        - exists v, w. rewrite <- Hsk at 1. split; [reflexivity|]. split; [eapply zpath_chars; eauto|]. split; [assumption|reflexivity].
        - unfold acc_apply. rewrite (arr_marks j v w V2) by (eapply zpath_chars; eauto). rewrite K3, V3. reflexivity.
        - apply room_app; [exact V4|]. rewrite <- H2 in Ha. eapply acc_room; eauto. }
      destruct (all_acc n (ts_nfa (td_get d s))) as [a|a u|u|] eqn:Ea; try (eapply Hok; now left).
      intros k w Hk Hr. apply lrest_cases in Hr as [(Hz & _ & _)|(x & t & a & c & t' & w' & _ & _ & _ & Hc & _)]; [| |assumption].
      + destruct (A2 k w Hk Hz) as [N1 _]. now apply N1.
      + assert (nth_error T j <> None) by congruence. apply nth_error_Some in H. lia.
    - destruct (skipn_step c bytes j Hsk) as (Hc & Hsk' & Hj'). assert (Hstep := lab_step s j c Hs Hc).
      assert (Hcase : forall k w, In k (ts_nfa (td_get d s)) -> lrest n T (fun j' => j' = length T) j k w -> exists i x t' w', steps n T (ts_nfa (td_get d s)) j c i x t' /\ lrest n T (fun j' => j' = length T) (S j) t' w').
      { intros k w Hk Hr. apply lrest_cases in Hr as [(Hz & He & E)|(x & t & a & c' & t' & w' & -> & Hz & Hrx & Hc' & Ha & Hca & Hr)]; [lia| |assumption].
        assert (c' = c) by congruence. subst c'. apply In_nth_error in Hk as (i & Hi). exists i, x, t', w'. split; [|assumption]. exists k, t, a. auto. }
      destruct (find _ (ts_trans (td_get d s))) as [t|] eqn:Ef.
      + destruct Hstep as (Hs' & cl & E1 & E2 & E3 & S1 & S2). specialize (IH (Some (tt_to t)) (S j) (tt_apply j g t tags) Hj' Hsk' Hs').
        rewrite (tt_apply_eq j t tags cl E2 E3) in *. rewrite E1 in IH.
        assert (Harr : Forall2 (arr (S j)) (map c_to cl) (map (fun c => apply_tags j (c_tags c) (nth (c_from c) tags (no_bounds g))) cl)).
        { assert (G : forall l, incl l cl -> Forall2 (arr (S j)) (map c_to l) (map (fun c => apply_tags j (c_tags c) (nth (c_from c) tags (no_bounds g))) l)); [|apply G; apply incl_refl].
          induction l as [|x l IHl]; intros Hi; cbn [map]; [constructor|]. constructor; [|apply IHl; intros y Hy; apply Hi; now right].
          destruct (S1 x (Hi x (or_introl eq_refl))) as (v & V0 & (k & u & r & K1 & K2 & K3 & K4 & K5)).
          assert (Hlt : c_from x < length (ts_nfa (td_get d s))) by (apply nth_error_Some; congruence).
          assert (Harr := Forall2_nth (arr j) _ _ (c_from x) 0 (no_bounds g) Htags Hlt). rewrite (nth_error_nth _ _ _ K1) in Harr. destruct Harr as (p & P1 & P2 & P3 & P4).
          exists ((p ++ v) ++ [IC c]). split; [|split; [|split]].
          - eapply path_app; [eapply path_app; [exact P1|apply zpath_path; exact K2]|]. eapply path_sym1; [exact K4|exact K5].
          - apply reads_app. exists j. split; [apply reads_app; eauto|]. constructor; [assumption|]. now constructor.
          - rewrite run_marks_app. cbn [run_marks]. rewrite (arr_marks j p v P2) by (eapply zpath_chars; eauto). now rewrite V0, P3.
          - apply room_app; [apply room_app; [exact P4|]|intros q [Q|[]]; discriminate]. apply find_some in Ef as [Ef _]. exact (trans_room s j t cl x v Hs Ef E3 (Hi x (or_introl eq_refl)) V0). }
        specialize (IH Harr). destruct (tdfa_exec_loop d g (Some (tt_to t)) (S j) _ bytes) as [b|]; [exact IH|].
        intros k w Hk Hr. destruct (Hcase k w Hk Hr) as (i & x & t' & w' & Hst & Hr'). apply (IH t' w'); [eapply S2; eauto|assumption].
      + intros k w Hk Hr. destruct (Hcase k w Hk Hr) as (i & x & t' & w' & Hst & Hr'). eapply Hstep; eauto.
  Qed.
End Sim.
(** The whole DFA engine on its automaton. *)
Lemma dfa_engine_late n max d T : wf n -> 1 <= length n -> tdfa_from_nfa n max = Ok (Some d) -> Forall (fun b => (b <= 255)%N) T ->
  (exists m, dfa_from_tagged d = Ok m /\ (dfa_run_test m T = true <-> exists j W, lang byte_check n W /\ late T j W)) /\
  match tdfa_run_exec d T with
  | Some b => exists W, lang byte_check n W /\ late T (length T) W /\ b = run_marks (fun _ => 1) 0 W (no_bounds (tdfa_groups d))
  | None => forall W, lang byte_check n W -> ~ late T (length T) W
  end.
Proof.
  intros Hwf Hlen Hd HT. destruct (tdfa_from_nfa_spec n Hwf Hlen max) as (o & E & Ho). rewrite Hd in E. injection E as <-. split.
  - destruct (from_tagged_spec d (base_valid n Hlen max d Ho)) as (m0 & E1 & E2 & _). fold (base_dfa d) in E2.
    destruct (minimise_spec (length (d_states (base_dfa d))) (base_dfa d)) as (m & Em & _ & _ & _ & Hm); [apply validate_valid; eapply base_valid; eauto|apply le_n|].
    rewrite Em in E2. injection E2 as <-. exists m. split; [exact E1|]. rewrite Hm. eapply dfa_test_late; eauto.
  - unfold tdfa_run_exec. assert (G := exec_loop_spec n Hwf Hlen max d Ho T HT (tdfa_groups d) (le_n _) T None 0 [no_bounds (tdfa_groups d)] ltac:(lia) eq_refl eq_refl).
    cbn [td_get] in G. rewrite (b_start _ _ _ Ho) in G. specialize (G ltac:(constructor; [exists []; split; [constructor|split; [constructor; lia|split; [reflexivity|intros q []]]]|constructor])).
    destruct (tdfa_exec_loop d _ None 0 _ T); [destruct G as (W & G1 & G2 & G3 & _); eauto|]. intros W HW Hl. apply (G 0 W); [now left|]. apply lrest_late. split; [exact HW|]. eauto.
Qed.
(** There is room for every group the word it reports opens. *)
Lemma dfa_exec_room n max d T b : wf n -> 1 <= length n -> tdfa_from_nfa n max = Ok (Some d) -> Forall (fun b => (b <= 255)%N) T -> tdfa_run_exec d T = Some b ->
  exists W, lang byte_check n W /\ late T (length T) W /\ b = run_marks (fun _ => 1) 0 W (no_bounds (tdfa_groups d)) /\ forall k, In (IM (ESC k)) W -> k < tdfa_groups d.
Proof.
  intros Hwf Hlen Hd HT Hr. destruct (tdfa_from_nfa_spec n Hwf Hlen max) as (o & E & Ho). rewrite Hd in E. injection E as <-.
  unfold tdfa_run_exec in Hr. assert (G := exec_loop_spec n Hwf Hlen max d Ho T HT (tdfa_groups d) (le_n _) T None 0 [no_bounds (tdfa_groups d)] ltac:(lia) eq_refl eq_refl).
  cbn [td_get] in G. rewrite (b_start _ _ _ Ho) in G. specialize (G ltac:(constructor; [exists []; split; [constructor|split; [constructor; lia|split; [reflexivity|intros q []]]]|constructor])).
  cbn zeta in Hr. rewrite Hr in G. exact G.
Qed.
