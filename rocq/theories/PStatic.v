(** The static automaton computes what the compile-time one does. *)
From Verif Require Export PTest NfaStatic.
From Coq Require Import ZifyBool ZifyNat.
Open Scope nat_scope.
Open Scope list_scope.
Set Default Proof Using "Type".

Lemma static_atom_check a c : static_check (static_atom a) c = atom_check a c.
Proof. destruct a; reflexivity. Qed.
Lemma static_get n s : get (static_nfa n) s = static_state (get n s).
Proof. unfold get, static_nfa. change (@empty_state atom_static) with (static_state empty_state). apply map_nth. Qed.
Lemma static_length n : length (static_nfa n) = length n.
Proof. apply map_length. Qed.
Lemma static_wfb n : wfb (static_nfa n) = wfb n.
Proof.
  unfold wfb. rewrite static_length. set (k := length n). clearbody k. induction n as [|s n IH]; [reflexivity|]. cbn [static_nfa map forallb]. rewrite <- IH. f_equal.
  unfold static_state. cbn [trans eps]. f_equal. induction (trans s) as [|t l IHl]; [reflexivity|]. cbn [map forallb fst]. now rewrite IHl.
Qed.
Lemma sp_edges_visit idx len from : forall es l st, marked l from ->
  sp_edges es from idx len l st = fold_left visit (map fst (filter (fun e => eps_enabled idx len (snd e)) es)) (l, st) /\
  marked (fst (sp_edges es from idx len l st)) from /\
  (forall x, marked l x -> marked (fst (sp_edges es from idx len l st)) x) /\
  (Forall (fun x => marked l x) st -> Forall (fun x => marked (fst (sp_edges es from idx len l st)) x) (snd (sp_edges es from idx len l st))).
Proof.
  induction es as [|[to k] es IH]; intros l st Hm; [cbn; auto|]. cbn [sp_edges filter snd]. change (match k with EStart => idx =? 0 | EEnd => idx =? len | _ => true end) with (eps_enabled idx len k).
  rewrite Hm. cbn [andb]. destruct (eps_enabled idx len k); cbn [map fold_left fst]; rewrite ?andb_true_r, ?andb_false_r; [|apply IH; assumption].
  unfold visit at 2. destruct (nth to l true) eqn:Et; cbn [negb]; [apply IH; assumption|].
  assert (Hto : to < length l) by (destruct (Nat.lt_ge_cases to (length l)); [assumption|]; rewrite nth_overflow in Et by assumption; discriminate).
  assert (U : forall x, marked l x -> marked (upd to true l) x) by (intros x Hx; apply marked_upd; auto).
  destruct (IH (upd to true l) (to :: st) (U _ Hm)) as (I1 & I2 & I3 & I4). split; [assumption|]. split; [assumption|]. split; [auto|].
  intros Hst. apply I4. constructor; [apply marked_upd; auto|]. eapply Forall_impl; [|exact Hst]. auto.
Qed.
Lemma sp_loop_dfs n idx len : forall fuel l st, Forall (fun x => marked l x) st ->
  sp_loop fuel (static_nfa n) idx len l st = dfs fuel (succ_eps n (eps_enabled idx len)) l st.
Proof.
  induction fuel as [|f IH]; intros l [|from st] Hst; try reflexivity. inversion Hst as [|? ? Hm Hst']; subst. cbn [sp_loop dfs]. rewrite static_get. cbn [eps static_state].
  destruct (sp_edges_visit idx len from (eps (get n from)) l st Hm) as (E1 & _ & _ & E2). specialize (E2 Hst'). unfold succ_eps. rewrite <- E1.
  destruct (sp_edges (eps (get n from)) from idx len l st) as [l' st']. apply IH. exact E2.
Qed.
Lemma sp_propagate_eq n idx len l : sp_propagate (static_nfa n) idx len l = propagate n len l idx.
Proof.
  unfold sp_propagate, propagate. rewrite static_length. apply sp_loop_dfs. apply Forall_forall. intros x Hx. rewrite <- in_rev, in_map_iff in Hx. destruct Hx as ([i b] & <- & H).
  apply filter_In in H as [H Hb]. cbn in *. subst b. apply In_enumerate in H. now apply nth_error_nth.
Qed.
Lemma sp_symbols_eq n l c : sp_symbols (static_nfa n) l c = step_symbols atom_check n l c.
Proof.
  unfold sp_symbols, step_symbols. rewrite static_length. generalize (repeat false (length n)). unfold enumerate. rewrite static_length. generalize (seq 0 (length n)).
  induction n as [|s n IH]; intros ks new; [now destruct ks|]. destruct ks as [|k ks]; [reflexivity|]. cbn [static_nfa map combine fold_left fst snd]. fold (static_nfa n). rewrite IH. f_equal.
  destruct (nth k l false); [|reflexivity]. cbn [andb]. unfold static_state. cbn [trans]. revert new. induction (trans s) as [|t ts IHt]; intros new; [reflexivity|]. cbn [map fold_left fst snd]. rewrite IHt. f_equal. now rewrite static_atom_check.
Qed.
Lemma static_loop_eq n len text : forall idx l,
  (do l <- static_loop (static_nfa n) len l (char_indices idx text); do l <- sp_propagate (static_nfa n) (idx + total_width len_utf8 text) len l; Ok (last l false)) =
  test_loop atom_check len_utf8 n len l idx text.
Proof.
  induction text as [|c text IH]; intros idx l; cbn [char_indices static_loop test_loop].
  - cbn [bind total_width fold_right]. rewrite Nat.add_0_r, sp_propagate_eq. reflexivity.
  - rewrite sp_propagate_eq. destruct (propagate n len l idx) as [r| | |]; try reflexivity. cbn [bind]. rewrite <- IH, sp_symbols_eq. unfold total_width. cbn [fold_right]. now rewrite Nat.add_assoc.
Qed.
Lemma blen_width text : blen text = total_width len_utf8 text.
Proof. unfold blen, total_width. induction text; cbn; [reflexivity|]. lia. Qed.
Lemma static_test_eq n text : static_test (static_nfa n) text = working_test n text.
Proof.
  unfold static_test, working_test, nfa_test. rewrite static_wfb, static_length. destruct (guard (wfb n && (1 <=? length n))); try reflexivity. cbn [bind].
  rewrite blen_width, <- static_loop_eq. reflexivity.
Qed.
