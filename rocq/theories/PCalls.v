(** The generated functions do not call each other in a circle. *)
From Verif Require Export PRuns SpecCalls PEngines.
From Coq Require Import Permutation ZifyBool ZifyNat ZifyN.
Open Scope nat_scope.
Open Scope list_scope.
Set Default Proof Using "Type".

Section Calls.
  Variable n : nfa range.
  Hypothesis Hok : ok n.
  Hypothesis Hlen : 1 <= length n.
  Hypothesis Hgr : groups_ok n.
  Variable tab : op_tables.
  Hypothesis Htab : tables n tab.
  Variable rk : nat -> nat.
  Hypothesis Hrk : forall x, x < length n -> rk x < length n.
  Hypothesis Hrank : forall x y, x < length n -> arrow n x y -> rk x < rk y.
  Variable runs : list inclusion.
  Hypothesis Hruns : good_out n tab runs.

  Lemma zpath_rank s w t : s < length n -> zpath n s w t -> rk s <= rk t /\ t < length n.
  Proof using All.
    intros Hs. induction 1 as [|w t e u H IH He]; [lia|]. destruct IH as [H1 H2]. assert (rk t < rk u) by (apply Hrank; [exact H2|left; eauto]). split; [lia|]. eapply wf_eps; [apply Hok|exact He].
  Qed.
  Lemma call_rank s t : calls tab runs s t -> s < length n /\ t < length n /\ rk s < rk t.
  Proof using All.
    destruct Hruns as [Hl Hx]. intros H. unfold calls in H.
    assert (Row : forall r tu, In (r, tu) (nth s (op_syms tab) []) -> s < length n /\ tu_state tu < length n /\ rk s < rk (tu_state tu)).
    { intros r tu Hin. assert (Hs : s < length n) by (destruct (Nat.lt_ge_cases s (length n)) as [L|L]; [exact L|]; rewrite nth_overflow in Hin by (rewrite (t_syms_len _ _ Htab); exact L); destruct Hin).
      split; [exact Hs|]. apply (t_syms _ _ Htab) in Hin as (w & q & t' & Hz & Ht & Eq); [|exact Hs]. rewrite Eq. cbn [tu_of tu_state].
      destruct (zpath_rank s w q Hs Hz) as [R1 R2]. assert (rk q < rk t') by (apply Hrank; [exact R2|right; eauto]). split; [eapply wf_trans; [apply Hok|exact Ht]|lia]. }
    destruct (nth s runs RNone) as [r| | |] eqn:E; try (destruct H as (r & tu & Hin & ->); eapply Row; eauto).
    subst t. assert (Hs : s < length n) by (destruct (Nat.lt_ge_cases s (length n)) as [L|L]; [exact L|]; rewrite nth_overflow in E by lia; discriminate).
    split; [exact Hs|]. destruct (Hx s Hs) as [S _]. rewrite E in S. destruct S as [S _]. destruct (nplus_rank n Hok Hlen Hgr tab Htab rk Hrank s _ S Hs). auto.
  Qed.
  Lemma nested_rank l : nested (calls tab runs) l -> forall s, hd_error l = Some s -> s < length n -> NoDup l /\ Forall (fun x => rk s <= rk x < length n /\ x < length n) l /\ length l + rk s <= length n.
  Proof using All.
    induction 1 as [x|x t l H H' IH]; intros s [= <-] Hs; assert (Hr := Hrk x Hs).
    - split; [constructor; [intros []|constructor]|]. split; [constructor; [lia|constructor]|]. cbn. lia.
    - apply call_rank in H as (_ & H2 & H3). destruct (IH t eq_refl H2) as (I1 & I2 & I3). split; [|split].
      + constructor; [|exact I1]. intros Hin. rewrite Forall_forall in I2. specialize (I2 x Hin). lia.
      + constructor; [lia|]. eapply Forall_impl; [|exact I2]. cbv beta. intros y Hy. lia.
      + cbn [length] in *. lia.
  Qed.
  Lemma nested_spec l : nested (calls tab runs) l -> NoDup l /\ length l <= length n.
  Proof using All.
    intros H. destruct l as [|s l]; [inversion H|]. destruct (Nat.lt_ge_cases s (length n)) as [L|L].
    - destruct (nested_rank _ H s eq_refl L) as (H1 & _ & H3). split; [exact H1|lia].
    - inversion H as [|? t l' Hc Hn]; subst; [split; [constructor; [intros []|constructor]|cbn; lia]|]. apply call_rank in Hc as [Hc _]. lia.
  Qed.
  Lemma arm_call s st c tu : fun_arm tab s st c = Some tu -> (forall r, nth s runs RNone <> RStart r) -> calls tab runs s (tu_state tu).
  Proof.
    unfold fun_arm, calls. destruct (find _ _) as [[r tu']|] eqn:E; [|discriminate]. intros [= <-] H. apply find_some in E as [E _]. destruct (nth s runs RNone) as [r'| | |]; [now destruct (H r')|eauto..].
  Qed.
  Lemma test_depth f : forall s st bytes, s < length n -> length n - rk s <= f -> exists b, fun_test f tab runs s st bytes = Ok b /\ forall f', f <= f' -> fun_test f' tab runs s st bytes = Ok b.
  Proof using All.
    induction f as [|f IH]; intros s st bytes Hs Hf; assert (Hr := Hrk s Hs); [lia|].
    assert (STEP : forall t st bytes, calls tab runs s t -> exists b, fun_test f tab runs t st bytes = Ok b /\ forall f', f <= f' -> fun_test f' tab runs t st bytes = Ok b).
    { intros t st' bytes' Hc. apply call_rank in Hc as (_ & H2 & H3). apply IH; [exact H2|lia]. }
    assert (K : exists b, fun_test (S f) tab runs s st bytes = Ok b /\ forall f', f <= f' -> fun_test (S f') tab runs s st bytes = Ok b).
    2:{ destruct K as (b & K1 & K2). exists b. split; [exact K1|]. intros [|f'] Hle; [lia|]. apply K2. lia. }
    cbn [fun_test]. assert (CA := arm_call s st). unfold calls in STEP. destruct (nth s runs RNone) as [r| | |].
    - destruct (match_run (run_symbols r) bytes); [now apply STEP|eauto].
    - destruct bytes as [|c rest]; [eauto|]. destruct (fun_arm tab s st c) eqn:E; [|eauto]. apply STEP. unfold fun_arm in E. destruct (find _ _) as [[r0 tu0]|] eqn:Ef; [|discriminate]. injection E as <-. apply find_some in Ef as [Ef _]. eauto.
    - destruct bytes as [|c rest]; [eauto|]. destruct (fun_arm tab s st c) eqn:E; [|eauto]. apply STEP. unfold fun_arm in E. destruct (find _ _) as [[r0 tu0]|] eqn:Ef; [|discriminate]. injection E as <-. apply find_some in Ef as [Ef _]. eauto.
    - destruct bytes as [|c rest]; [eauto|]. destruct (fun_arm tab s st c) eqn:E; [|eauto]. apply STEP. unfold fun_arm in E. destruct (find _ _) as [[r0 tu0]|] eqn:Ef; [|discriminate]. injection E as <-. apply find_some in Ef as [Ef _]. eauto.
  Qed.
  Lemma exec_depth f : forall s st i bs bytes, s < length n -> length n - rk s <= f -> exists b, fun_exec f tab runs s st i bs bytes = Ok b /\ forall f', f <= f' -> fun_exec f' tab runs s st i bs bytes = Ok b.
  Proof using All.
    induction f as [|f IH]; intros s st i bs bytes Hs Hf; assert (Hr := Hrk s Hs); [lia|].
    assert (STEP : forall t st i bs bytes, calls tab runs s t -> exists b, fun_exec f tab runs t st i bs bytes = Ok b /\ forall f', f <= f' -> fun_exec f' tab runs t st i bs bytes = Ok b).
    { intros t st' i' bs' bytes' Hc. apply call_rank in Hc as (_ & H2 & H3). apply IH; [exact H2|lia]. }
    assert (K : exists b, fun_exec (S f) tab runs s st i bs bytes = Ok b /\ forall f', f <= f' -> fun_exec (S f') tab runs s st i bs bytes = Ok b).
    2:{ destruct K as (b & K1 & K2). exists b. split; [exact K1|]. intros [|f'] Hle; [lia|]. apply K2. lia. }
    cbn [fun_exec]. unfold calls in STEP. destruct (nth s runs RNone) as [r| | |].
    - destruct (match_run (run_symbols r) bytes); [cbv zeta; now apply STEP|eauto].
    - destruct bytes as [|c rest]; [eauto|]. destruct (fun_arm tab s st c) eqn:E; [|eauto]. apply STEP. unfold fun_arm in E. destruct (find _ _) as [[r0 tu0]|] eqn:Ef; [|discriminate]. injection E as <-. apply find_some in Ef as [Ef _]. eauto.
    - destruct bytes as [|c rest]; [eauto|]. destruct (fun_arm tab s st c) eqn:E; [|eauto]. apply STEP. unfold fun_arm in E. destruct (find _ _) as [[r0 tu0]|] eqn:Ef; [|discriminate]. injection E as <-. apply find_some in Ef as [Ef _]. eauto.
    - destruct bytes as [|c rest]; [eauto|]. destruct (fun_arm tab s st c) eqn:E; [|eauto]. apply STEP. unfold fun_arm in E. destruct (find _ _) as [[r0 tu0]|] eqn:Ef; [|discriminate]. injection E as <-. apply find_some in Ef as [Ef _]. eauto.
  Qed.
End Calls.

(** What is known of a generated engine. *)
Lemma op_made e m op : byte_automaton_of e m -> op_make m = Ok (Some op) ->
  (op_k op = OpVm /\ ~ exists l, topological_ordering m = Ok (Some l)) \/
  exists runs rk, op_k op = OpFun runs /\ (exists l, topological_ordering m = Ok (Some l)) /\ tables m (op_tab op) /\ (forall x, x < length m -> rk x < length m) /\ (forall x y, x < length m -> arrow m x y -> rk x < rk y) /\ good_out m (op_tab op) runs.
Proof.
  intros (M1 & M2 & M3 & M4 & M5 & M6 & M7) H. unfold op_make in H. rewrite (proj2 (wfb_iff m) (ok_wf _ M1)), (wfb_tags_ok m M5) in H. cbn [andb guard bind] in H.
  destruct (op_analyse_spec m (ok_wf _ M1) M6) as (o & Eo & Htab). rewrite Eo in H. cbn [bind] in H. destruct o as [tab|]; [|discriminate].
  destruct (topological_spec m) as (o & Et & Hto); [now apply closed_wf, ok_wf|lia|]. rewrite Et in H. cbn [bind] in H. destruct o as [ord|].
  - destruct Hto as (P & Hord & Hfrom & _). destruct (ranked m ord P Hord) as [K1 K2].
    destruct (runs_spec m M1 ltac:(lia) M5 tab Htab (fun x => idx x ord) K1 K2) as (runs & Er & Hg & _). rewrite Er in H. cbn [bind] in H.
    destruct (fun_compiles m tab runs); [|discriminate]. injection H as <-. right. exists runs, (fun x => idx x ord). cbn [op_k op_tab]. split; [reflexivity|]. split; [eauto|]. auto.
  - destruct (vm_compiles m tab); [|discriminate]. injection H as <-. left. split; [reflexivity|]. rewrite Et. intros (l & E). discriminate.
Qed.

Section More.
  Variable tab : op_tables.
  Variable runs : list inclusion.
  Lemma fun_test_more f : forall f' s st bytes b, fun_test f tab runs s st bytes = Ok b -> f <= f' -> fun_test f' tab runs s st bytes = Ok b.
  Proof.
    induction f as [|f IH]; intros [|f'] s st bytes b; cbn [fun_test]; try discriminate; [lia|]. intros H Hle. assert (Hle' : f <= f') by lia.
    destruct (nth s runs RNone) as [r| | |]; [destruct (match_run _ _); eauto| | |]; (destruct bytes as [|c rest]; [exact H|]; destruct (fun_arm tab s st c); eauto).
  Qed.
  Lemma fun_exec_more f : forall f' s st i bs bytes b, fun_exec f tab runs s st i bs bytes = Ok b -> f <= f' -> fun_exec f' tab runs s st i bs bytes = Ok b.
  Proof.
    induction f as [|f IH]; intros [|f'] s st i bs bytes b; cbn [fun_exec]; try discriminate; [lia|]. intros H Hle. assert (Hle' : f <= f') by lia. cbv zeta in *.
    destruct (nth s runs RNone) as [r| | |]; [destruct (match_run _ _); eauto| | |]; (destruct bytes as [|c rest]; [exact H|]; destruct (fun_arm tab s st c); eauto).
  Qed.
End More.

Lemma op_depth e m op runs T k : byte_automaton_of e m -> op_make m = Ok (Some op) -> op_k op = OpFun runs -> Forall scalar T -> length m <= k ->
  fun_test k (op_tab op) runs 0 true (utf8 T) = op_test op T /\ exists b, fun_exec k (op_tab op) runs 0 true 0 (no_bounds (op_groups op)) (utf8 T) = Ok b /\ op_exec op T = run_finish T b.
Proof.
  intros HM H Hk HT Hle. destruct (op_made e m op HM H) as [[E _]|(runs' & rk & E & _ & Htab & K1 & K2 & Hg)]; [congruence|]. assert (runs' = runs) as -> by congruence.
  assert (HM' := HM). destruct HM' as (M1 & M2 & M3 & M4 & M5 & M6 & M7). destruct (op_make_spec m M1 ltac:(lia) M5 M6 op H) as (_ & Hop). destruct (Hop (utf8 T)) as (o & Ho & _). clear Hop.
  destruct (one_pass_right e m op HM H) as [Hr _].
  split.
  - destruct (test_depth m M1 ltac:(lia) M5 (op_tab op) Htab rk K1 K2 runs Hg (length m) 0 true (utf8 T) ltac:(lia) ltac:(lia)) as (b & B1 & B2). rewrite (B2 k Hle).
    destruct (right_test e (EOnePass op) Hr T HT) as (b' & B3 & _). cbn [engine_test] in B3. rewrite B3. unfold op_test in B3. rewrite E in B3. apply (fun_test_more _ _ _ (Nat.max (S (length (utf8 T))) (length m))) in B3; [|lia]. rewrite (B2 (Nat.max (S (length (utf8 T))) (length m)) ltac:(lia)) in B3. exact B3.
  - rewrite E in Ho. exists o. unfold op_exec. rewrite E, Ho. split; [|reflexivity].
    destruct (exec_depth m M1 ltac:(lia) M5 (op_tab op) Htab rk K1 K2 runs Hg (length m) 0 true 0 (no_bounds (op_groups op)) (utf8 T) ltac:(lia) ltac:(lia)) as (b & B1 & B2). rewrite (B2 k Hle).
    apply (fun_exec_more _ _ _ (Nat.max (S (length (utf8 T))) (length m))) in Ho; [|lia]. rewrite (B2 (Nat.max (S (length (utf8 T))) (length m)) ltac:(lia)) in Ho. exact Ho.
Qed.
