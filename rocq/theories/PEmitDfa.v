(** The code generated for the DFA engine computes what the model of the engine computes. *)
From Verif Require Export PCheck PDfaRun PMin PEmitVm.
From Coq Require Import ZifyBool ZifyNat ZifyN.
Open Scope nat_scope.
Open Scope list_scope.
Set Default Proof Using "Type".

Local Notation block := Rust.block.
Definition lab (s : option nat) : label := match s with None => LStart | Some i => LNum i end.
Record dfa_fit (d : dfa) : Prop := {
  df_to : dvalid d;
  df_range : forall s t, In s (d_start d :: d_states d) -> In t (ds_trans s) -> (fst (snd t) <= snd (snd t))%N }.
Record tdfa_fit (d : tdfa) : Prop := {
  tf_start : length (ts_nfa (td_start d)) = 1;
  tf_to : forall s t, In s (td_start d :: td_states d) -> In t (ts_trans s) ->
    tt_to t < length (td_states d) /\ length (tt_copy t) = length (ts_nfa (nth (tt_to t) (td_states d) (stub []))) /\
    (fst (tt_sym t) <= snd (tt_sym t))%N /\ Forall (fun k => k < length (ts_nfa s)) (tt_copy t) /\
    Forall (fun x => fst x < length (tt_copy t) /\ tag_group (snd x) < tdfa_groups d) (tt_add t);
  tf_acc : forall s a u, In s (td_start d :: td_states d) -> In (a, u) (accs (ts_acc s)) ->
    at_state a < length (ts_nfa s) /\ Forall (fun t => tag_group t < tdfa_groups d) (at_tags a) }.

Lemma numbered_inv {X} (l : list X) s p : In p (numbered l s) -> In (snd p) (s :: l) /\ (fst p = LStart /\ snd p = s \/ exists i, fst p = LNum i /\ nth_error l i = Some (snd p)).
Proof.
  unfold numbered. intros H. apply in_app_or in H as [H|[<-|[]]]; [|split; [now left|left; auto]].
  apply in_map_iff in H as ([i x] & <- & H). apply In_enumerate in H. split; [right; eapply nth_error_In; eauto|right; exists i; auto].
Qed.

Section Test.
  Variables (d : dfa) (text : list N).
  Hypothesis HF : dfa_fit d.
  Notation L := (numbered (d_states d) (d_start d)).
  Lemma d_numbered s : dlabel d s -> In (lab s, d_get d s) L.
  Proof. destruct s as [i|]; cbn [lab d_get dlabel]; intros H; [now apply numbered_num|apply numbered_start]. Qed.
  Lemma dfa_arms_label p a : In a (dfa_arms p) -> p_label (fst (fst a)) = fst p.
  Proof. unfold dfa_arms. destruct (ds_acc (snd p)); intros H; try (apply in_map_iff in H as (t & <- & _); reflexivity). destruct H as [<-|[]]. reflexivity. Qed.
  Lemma dfa_tries call s c e other : dlabel d s ->
    tries text call (VCon (lab s) None) (Some (VByte c)) e (flat_map dfa_arms L) other
    = match ds_acc (d_get d s) with
      | DAlways => Ok (inr (VBool true))
      | _ => match find (fun t => in_range c (snd t)) (ds_trans (d_get d s)) with
             | Some t => leave e (block text call [SSet Xstate [] (ECon (LNum (fst t)) None)] e)
             | None => match other with Some l => leave e (block text call l e) | None => NoCompile end
             end
      end.
  Proof.
    intros Hs. rewrite tries_filter. assert (E := numbered_pick dfa_arms (d_states d) (d_start d) (lab s, d_get d s) (d_numbered s Hs) dfa_arms_label).
    cbn [fst] in E. rewrite E. clear E.
    unfold dfa_arms. cbn [fst snd].
    assert (G : tries text call (VCon (lab s) None) (Some (VByte c)) e
       (map (fun t : nat * range => (mkPat (lab s) None (Some (snd t)), None, [SSet Xstate [] (ECon (LNum (fst t)) None)])) (ds_trans (d_get d s))) other
      = match find (fun t => in_range c (snd t)) (ds_trans (d_get d s)) with
             | Some t => leave e (block text call [SSet Xstate [] (ECon (LNum (fst t)) None)] e)
             | None => match other with Some l => leave e (block text call l e) | None => NoCompile end
             end).
    { induction (ds_trans (d_get d s)) as [|[t r] l IH]; [reflexivity|]. cbn [map find fst snd]. rewrite tries_cons. unfold fit. cbn [p_label p_bind p_range]. rewrite label_refl. cbn [bind].
      destruct (in_range c r); cbn [bind app]; [reflexivity|exact IH]. }
    destruct (ds_acc (d_get d s)); try exact G. rewrite tries_cons. unfold fit. cbn [p_label p_bind p_range]. rewrite label_refl. reflexivity.
  Qed.
  Lemma numbered_finals {X} call (F : label * X -> list stmt) (l : list X) st p e (bnd : option var) o b :
    In p (numbered l st) -> match bnd, o with None, None => b = [] | Some x, Some u => b = [(x, u)] | _, _ => False end ->
    tries text call (VCon (fst p) o) None e (map (fun p => (mkPat (fst p) bnd None, None, F p)) (numbered l st)) None
    = leave e (block text call (F p) (b ++ e)).
  Proof.
    intros Hp Hb. rewrite tries_filter.
    assert (E : forall M, map (fun p : label * X => (mkPat (fst p) bnd None, @None rexp, F p)) M = flat_map (fun p => [(mkPat (fst p) bnd None, None, F p)] : list arm) M).
    { induction M as [|y M IH]; cbn; [reflexivity|]. now rewrite IH. }
    rewrite E. rewrite (numbered_pick (fun p => [(mkPat (fst p) bnd None, None, F p)] : list arm) l st p Hp).
    - rewrite tries_cons. unfold fit. cbn [p_label p_bind p_range]. rewrite label_refl. destruct bnd, o; cbn [bind]; try (now destruct Hb); now subst b.
    - intros y a [<-|[]]. reflexivity.
  Qed.
  Lemma dfa_loop_code call : forall bytes s, dlabel d s ->
    (do o <- loop (fun e => block text call [SMatch (EVar Xstate) (Some (EVar Xc)) (flat_map dfa_arms L) (Some [SRet (EBool false)])] e)
              (map (fun c => [(Xc, VByte c)]) bytes) [(Xstate, VCon (lab s) None)];
     match o with
     | inl e => block text call [SMatch (EVar Xstate) None
           (map (fun p => (mkPat (fst p) None None, None, [SRet (EBool (match ds_acc (snd p) with DNone => false | _ => true end))])) L) None] e
     | inr v => Ok (inr v)
     end) = Ok (inr (VBool (dfa_test_loop d s bytes))).
  Proof using HF.
    induction bytes as [|c bytes IH]; intros s Hs.
    - cbn [map loop bind dfa_test_loop]. rewrite block_one, exec_match. cbn [eval getv look var_eqb need bind].
      exact (numbered_finals call _ (d_states d) (d_start d) (lab s, d_get d s) [(Xstate, VCon (lab s) None)] None None [] (d_numbered s Hs) eq_refl).
    - cbn [map loop dfa_test_loop]. rewrite block_one, exec_match. cbn [eval getv look var_eqb need bind app]. rewrite dfa_tries by assumption.
      assert (Hv := df_to _ HF (d_get d s)). assert (Hi := d_get_In d s Hs).
      assert (G : forall t l, find (fun t : nat * range => in_range c (snd t)) l = Some t -> In t l) by (intros t l E; now apply find_some in E).
      destruct (ds_acc (d_get d s)); try reflexivity.
      all: destruct (find _ _) as [[t r]|] eqn:E; [|reflexivity].
      all: cbn [fst]; rewrite block_one; cbn [exec eval getv look var_eqb need bind mapM store assign]; drop; apply (IH (Some t)); cbn [dlabel]; apply (Hv (t, r) Hi); now apply G.
  Qed.
  Lemma dfa_test_code_run : run_func (dfa_test_code d) text [] = Ok (VBool (dfa_run_test d (utf8 text))).
  Proof using HF.
    assert (G := dfa_loop_code (call_proc text []) (utf8 text) None I).
    unfold run_func, dfa_test_code, dfa_run_test.
    destruct (ds_acc (d_start d)); cbn [f_args f_body f_procs bind_params length Nat.eqb bind map combine rev app]; try reflexivity.
    all: rewrite block_cons; cbn [exec eval bind]; rewrite block_cons, exec_for; cbn [rounds bind]; cbn [lab] in G; rewrite G; reflexivity.
  Qed.
  Notation enum := ((LStart, @None ty) :: map (fun p => (LNum (fst p), None)) (enumerate (d_states d))).
  Lemma enum_nodup {X Y} (f : nat * X -> Y) o (l : list X) : NoDup (map fst ((LStart, o) :: map (fun p => (LNum (fst p), f p)) (enumerate l))).
  Proof.
    cbn [map fst]. rewrite map_map. cbn [fst]. rewrite <- (map_map fst LNum), enumerate_fst. constructor; [|apply map_num_nodup, seq_NoDup].
    intros Hx. apply in_map_iff in Hx as (i & E & _). discriminate E.
  Qed.
  Lemma d_variant l x : In (l, x) L -> variant enum l = Some None.
  Proof.
    intros Hp. apply variant_In; [apply enum_nodup|]. apply numbered_inv in Hp as [_ [[E _]|(i & E & Hi)]]; cbn [fst] in E; subst l; [now left|].
    right. apply in_map_iff. exists (i, x). split; [reflexivity|]. now apply In_enumerate.
  Qed.
  Lemma d_variant_num i : i < length (d_states d) -> variant enum (LNum i) = Some None.
  Proof. intros Hi. eapply d_variant. exact (d_numbered (Some i) Hi). Qed.
  Lemma numbered_covered {X Y} (f : nat * X -> Y) o (F : label * X -> list stmt) (l : list X) st bnd (enum : list (label * option ty)) :
    map fst enum = map fst ((LStart, o) :: map (fun p => (LNum (fst p), f p)) (enumerate l)) ->
    Rust.covered enum (map (fun p => (mkPat (fst p) bnd None, None, F p)) (numbered l st)) = true.
  Proof.
    intros E. unfold Rust.covered. apply forallb_forall. intros [v w] Hv. apply (in_map fst) in Hv. rewrite E in Hv. cbn [fst] in Hv. apply existsb_exists.
    assert (H : exists x, In (v, x) (numbered l st)).
    { cbn [map fst] in Hv. destruct Hv as [<-|Hv]; [exists st; apply numbered_start|]. rewrite map_map in Hv. apply in_map_iff in Hv as ([i x] & <- & H). cbn [fst].
      exists x. unfold numbered. apply in_or_app. left. apply in_map_iff. exists (i, x). auto. }
    destruct H as (x & H). exists (mkPat v bnd None, None, F (v, x)). split; [apply in_map_iff; exists (v, x); auto|]. cbn. now rewrite label_refl.
  Qed.
  Lemma returns_map {X} (F : X -> list stmt) (P : X -> pat) a M : (forall x, existsb returns (F x) = true) -> returns (SMatch a None (map (fun p => (P p, None, F p)) M) None) = true.
  Proof.
    intros H. cbn [returns]. rewrite andb_true_r. induction M as [|y M IH]; [reflexivity|]. cbn [map]. rewrite IH, andb_true_r. apply H.
  Qed.
  Lemma dfa_test_accepts : accepts (dfa_test_code d) = true.
  Proof using HF.
    unfold accepts, dfa_test_code. destruct (ds_acc (d_start d)); try reflexivity.
    all: cbn [f_enum f_procs f_body f_result f_args rev forallb]; rewrite (proj2 (distinct_iff _)) by apply enum_nodup; cbn [andb].
    all: rewrite goods_cons, good_let by (cbn [Rust.has]; rewrite (d_variant LStart (d_start d)) by apply numbered_start; reflexivity).
    all: rewrite goods_cons, good_for; cbn [iter_ctx app]; rewrite goods_cons, good_match; cbn [Rust.has infer look var_eqb ty_eqb andb PCheck.paired].
    all: rewrite (goods_ret _ _ _ _ _ TBool) by reflexivity.
    all: match goal with |- context [forallb (arm_ok ?E ?R ?P ?G true) (flat_map dfa_arms ?L)] => assert (A : forallb (arm_ok E R P G true) (flat_map dfa_arms L) = true) end.
    1, 3: apply forallb_forall; intros a Ha; apply in_flat_map in Ha as ([l s] & Hp & Ha); assert (Hv := d_variant l s Hp); apply numbered_inv in Hp as [Hs _]; cbn [snd] in Hs;
      assert (Ht := df_to _ HF s); assert (Hr := df_range _ HF s); unfold dfa_arms in Ha; cbn [fst snd] in Ha; destruct (ds_acc s);
      (destruct Ha as [<-|[]] || (apply in_map_iff in Ha as (t & <- & Ha); specialize (Ht t Hs Ha); specialize (Hr t Hs Ha); apply N.leb_le in Hr));
      unfold arm_ok, pat_ctx; cbn [p_label p_bind p_range]; rewrite Hv; rewrite ?Hr; cbn [andb app]; rewrite goods_cons; cbn [Rust.good look var_eqb place Rust.has]; rewrite ?d_variant_num by assumption; reflexivity.
    all: rewrite A; clear A; cbn [andb Rust.goods]; rewrite good_match; cbn [Rust.has infer look var_eqb ty_eqb andb PCheck.paired].
    all: rewrite (numbered_covered (fun _ => @None ty) (@None ty)) by reflexivity; cbn [andb].
    all: match goal with |- context [forallb (arm_ok ?E ?R ?P ?G false) ?L] => assert (A : forallb (arm_ok E R P G false) L = true) end.
    1, 3: apply forallb_forall; intros a Ha; apply in_map_iff in Ha as ([l s] & <- & Hp); assert (Hv := d_variant l s Hp); unfold arm_ok, pat_ctx; cbn [p_label p_bind p_range fst]; rewrite Hv; reflexivity.
    all: rewrite A; clear A; cbn [andb existsb]; rewrite returns_map by reflexivity; reflexivity.
  Qed.
End Test.

Definition enc_tags (l : list bounds) : val := VArr (map enc_bounds l).
Lemma modify_nth_upd {A} i (f : A -> A) l x : nth_error l i = Some x -> upd i (f x) l = modify i f l.
Proof. revert i. induction l as [|y l IH]; intros [|i]; cbn; try discriminate; [intros E; injection E as ->; reflexivity|]. intros E. now rewrite IH. Qed.
Lemma store_tags bs k t i : k < length bs -> (forall b, In b bs -> tag_group t < length b) ->
  store (enc_tags bs) ([inl (VNum k)] ++ tag_path t) (VNum i) = Ok (enc_tags (modify k (fun b => apply_tag i b t) bs)).
Proof.
  intros Hk Hb. cbn [app]. destruct (nth_error bs k) as [b|] eqn:E; [|apply nth_error_None in E; lia].
  cbn [store enc_tags as_list bind index]. rewrite (map_nth_error enc_bounds _ _ E). cbn [bind].
  rewrite store_tag by (apply Hb; eapply nth_error_In; eauto). cbn [bind].
  rewrite upd_map. unfold enc_tags. do 3 f_equal. exact (modify_nth_upd k (fun b => apply_tag i b t) bs b E).
Qed.
Section Exec.
  Variables (d : tdfa) (text : list N).
  Hypothesis HF : tdfa_fit d.
  Notation L := (numbered (td_states d) (td_start d)).
  Notation g := (tdfa_groups d).
  Definition tlabel (s : option nat) : Prop := match s with None => True | Some i => i < length (td_states d) end.
  Lemma t_numbered s : tlabel s -> In (lab s, td_get d s) L.
  Proof. destruct s as [i|]; cbn [lab td_get tlabel]; intros H; [now apply numbered_num|apply numbered_start]. Qed.
  Lemma t_In s : tlabel s -> In (td_get d s) (td_start d :: td_states d).
  Proof. destruct s as [i|]; cbn [tlabel td_get]; intros H; [right; now apply nth_In|now left]. Qed.
  Lemma tdfa_tries call s c v e l : tlabel s ->
    tries text call (VCon (lab s) (Some v)) (Some (VByte c)) e (flat_map (fun p => map (tdfa_arm g (fst p)) (ts_trans (snd p))) L) (Some l)
    = match find (fun t => in_range c (tt_sym t)) (ts_trans (td_get d s)) with
      | Some t => leave e (block text call (snd (tdfa_arm g (lab s) t)) ((Xold_tags, v) :: e))
      | None => leave e (block text call l e)
      end.
  Proof.
    intros Hs. rewrite tries_filter.
    assert (E := numbered_pick (fun p => map (tdfa_arm g (fst p)) (ts_trans (snd p))) (td_states d) (td_start d) (lab s, td_get d s) (t_numbered s Hs)).
    cbn [fst snd] in E. rewrite E by (intros y a Ha; apply in_map_iff in Ha as (t & <- & _); reflexivity). clear E.
    induction (ts_trans (td_get d s)) as [|t r IH]; [reflexivity|]. cbn [map find]. unfold tdfa_arm at 1. rewrite tries_cons. unfold fit. cbn [p_label p_bind p_range]. rewrite label_refl. cbn [bind].
    destruct (in_range c (tt_sym t)); cbn [bind]; [reflexivity|exact IH].
  Qed.
  Lemma eval_copy e old ks : look Xold_tags e = Some (enc_tags old) -> Forall (fun k => k < length old) ks ->
    eval text e (EArr (map (fun k => EIdx (EVar Xold_tags) (ENum k)) ks)) = Ok (enc_tags (map (fun k => nth k old (no_bounds g)) ks)).
  Proof.
    intros Hl Hk. cbn [eval].
    match goal with |- (do vs <- ?X; _) = _ => assert (E : X = Ok (map enc_bounds (map (fun k => nth k old (no_bounds g)) ks))); [|rewrite E; reflexivity] end.
    induction Hk as [|k ks Hk Hks IH]; [reflexivity|]. cbn [map eval]. unfold getv. rewrite Hl. cbn [need bind enc_tags as_list index].
    rewrite (map_nth_error enc_bounds k old (nth_error_nth' old (no_bounds g) Hk)). cbn [bind]. rewrite IH. reflexivity.
  Qed.
  Lemma tt_apply_sizes i t old : (forall b, In b old -> length b = g) -> length (tt_apply i g t old) = length (tt_copy t) /\ forall b, In b (tt_apply i g t old) -> length b = g.
  Proof.
    intros Ho. unfold tt_apply. assert (G : forall xs bs, (forall b, In b bs -> length b = g) ->
      length (fold_left (fun bs x => modify (fst x) (fun b => apply_tag i b (snd x)) bs) xs bs) = length bs /\
      forall b, In b (fold_left (fun bs (x : nat * tag) => modify (fst x) (fun b => apply_tag i b (snd x)) bs) xs bs) -> length b = g).
    { induction xs as [|x xs IH]; intros bs Hb; [auto|]. cbn [fold_left]. destruct (IH (modify (fst x) (fun b => apply_tag i b (snd x)) bs)) as [I1 I2].
      - generalize (fst x). clear IH. induction bs as [|b0 bs IHb]; intros [|m]; cbn [modify]; intros b Hin.
        + destruct Hin.
        + destruct Hin.
        + destruct Hin as [<-|Hin]; [rewrite apply_tag_length|]; apply Hb; [now left|now right].
        + destruct Hin as [<-|Hin]; [apply Hb; now left|]. apply (IHb (fun b H => Hb b (or_intror H)) m b Hin).
      - split; [|exact I2]. rewrite I1. apply modify_length. }
    destruct (G (tt_add t) (map (fun k => nth k old (no_bounds g)) (tt_copy t))) as [G1 G2].
    - intros b Hb. apply in_map_iff in Hb as (k & <- & _). destruct (Nat.lt_ge_cases k (length old)) as [H|H]; [apply Ho; now apply nth_In|].
      rewrite nth_overflow by assumption. apply repeat_length.
    - split; [|exact G2]. etransitivity; [exact G1|apply map_length].
  Qed.
  Lemma tdfa_step call s t i e0 old : tlabel s -> In t (ts_trans (td_get d s)) -> length old = length (ts_nfa (td_get d s)) -> (forall b, In b old -> length b = g) ->
    let e := [(Xc, e0); (Xi, VNum i); (Xstate, VCon (lab s) (Some (enc_tags old)))] in
    leave e (block text call (snd (tdfa_arm g (lab s) t)) ((Xold_tags, enc_tags old) :: e))
    = Ok (inl [(Xc, e0); (Xi, VNum i); (Xstate, VCon (LNum (tt_to t)) (Some (enc_tags (tt_apply i g t old))))]).
  Proof using HF.
    intros Hs Ht Hl Ho e. destruct (tf_to _ HF _ t (t_In s Hs) Ht) as (H1 & H2 & H3 & H4 & H5).
    unfold tdfa_arm. cbn [snd app]. rewrite block_cons. cbn [exec].
    rewrite <- Hl in H4. rewrite (eval_copy _ old) by (exact H4 || reflexivity). cbn [bind]. rewrite block_app.
    set (bs0 := map (fun k => nth k old (no_bounds g)) (tt_copy t)).
    assert (Hbs : forall b, In b bs0 -> length b = g).
    { intros b Hb. apply in_map_iff in Hb as (k & <- & _). destruct (Nat.lt_ge_cases k (length old)) as [H|H]; [apply Ho; now apply nth_In|].
      rewrite nth_overflow by assumption. apply repeat_length. }
    rewrite (block_set_tags text call enc_tags (fun bs (x : nat * tag) => modify (fst x) (fun b => apply_tag i b (snd x)) bs) Xnew_tags (fun x => [AIdx (ENum (fst x))]) (EVar Xi) snd i
       (fun bs x => fst x < length bs /\ forall b, In b bs -> tag_group (snd x) < length b)) with (s := bs0).
    - cbn [bind assign var_eqb]. rewrite block_one. unfold e. cbn [exec eval getv look var_eqb need bind mapM store assign]. drop. reflexivity.
    - intros bs x [X1 X2] e' _ _. exists [inl (VNum (fst x))]. split; [reflexivity|]. now apply store_tags.
    - intros bs x y [X1 X2] [Y1 Y2]. rewrite modify_length. split; [assumption|]. intros b Hb.
      assert (E : exists b0, In b0 bs /\ length b = length b0).
      { revert Hb. generalize (fst x). clear - d. induction bs as [|b0 bs IH]; intros [|m]; cbn [modify]; intros Hin.
        - destruct Hin.
        - destruct Hin.
        - destruct Hin as [<-|Hin]; [exists b0; rewrite apply_tag_length; split; [now left|reflexivity]|exists b; split; [now right|reflexivity]].
        - destruct Hin as [<-|Hin]; [exists b0; split; [now left|reflexivity]|]. destruct (IH m Hin) as (b1 & B1 & B2). exists b1. split; [now right|assumption]. }
      destruct E as (b0 & B1 & ->). now apply Y2.
    - reflexivity.
    - reflexivity.
    - apply Forall_forall. intros x Hx. rewrite Forall_forall in H5. destruct (H5 x Hx) as [X1 X2]. unfold bs0 at 1. rewrite map_length. split; [assumption|]. intros b Hb. now rewrite (Hbs b Hb).
  Qed.
  Lemma tdfa_loop_code call : forall bytes i s old, tlabel s -> length old = length (ts_nfa (td_get d s)) -> (forall b, In b old -> length b = g) -> i + length bytes = blen text ->
    (do o <- loop (fun e => block text call [SMatch (EVar Xstate) (Some (EVar Xc)) (flat_map (fun p => map (tdfa_arm g (fst p)) (ts_trans (snd p))) L) (Some [SRet ENothing])] e)
              (map (fun '(i, c) => [(Xc, VByte c); (Xi, VNum i)]) (combine (seq i (length bytes)) bytes)) [(Xstate, VCon (lab s) (Some (enc_tags old)))];
     match o with
     | inl e => block text call [SMatch (EVar Xstate) None (map (tdfa_final g) L) None] e
     | inr v => Ok (inr v)
     end) = Ok (inr (VOpt (option_map enc_bounds (tdfa_exec_loop d g s i old bytes)))).
  Proof using HF.
    induction bytes as [|c bytes IH]; intros i s old Hs Hl Ho Hi.
    - cbn [length seq combine map loop bind tdfa_exec_loop]. rewrite block_one, exec_match. cbn [eval getv look var_eqb need bind].
      assert (F := numbered_finals text call (fun p => snd (tdfa_final g p)) (td_states d) (td_start d) (lab s, td_get d s) [(Xstate, VCon (lab s) (Some (enc_tags old)))] (Some Xold_tags) (Some (enc_tags old)) _ (t_numbered s Hs) eq_refl).
      cbn [fst] in F. match type of F with ?X = _ => match goal with |- ?Y = _ => change Y with X end end. rewrite F. clear F. unfold tdfa_final. cbn [snd].
      assert (E : i = blen text) by (cbn [length] in Hi; lia). subst i.
      assert (G : forall a u, In (a, u) (accs (ts_acc (td_get d s))) ->
        leave [(Xstate, VCon (lab s) (Some (enc_tags old)))]
          (block text call ([SLet Xnew_tags (t_bounds g) (EIdx (EVar Xold_tags) (ENum (at_state a)))] ++ map (set_tag Xnew_tags [] ELen) (at_tags a) ++ [SRet (ESome (EVar Xnew_tags))])
            ([(Xold_tags, enc_tags old)] ++ [(Xstate, VCon (lab s) (Some (enc_tags old)))]))
        = Ok (inr (VOpt (Some (enc_bounds (acc_apply (blen text) g a old)))))).
      { intros a u Ha. destruct (tf_acc _ HF _ a u (t_In s Hs) Ha) as [A1 A2]. rewrite <- Hl in A1.
        cbn [app]. rewrite block_cons. cbn [exec eval getv look var_eqb need bind enc_tags as_list index].
        rewrite (map_nth_error enc_bounds _ old (nth_error_nth' old (no_bounds g) A1)). cbn [bind]. rewrite block_app.
        rewrite (block_tags _ _ Xnew_tags ELen (blen text) _ (nth (at_state a) old (no_bounds g))) by (reflexivity || (rewrite Ho by (now apply nth_In); exact A2)).
        cbn [assign var_eqb bind]. rewrite block_one. reflexivity. }
      cbn [tdfa_exec_loop]. destruct (ts_acc (td_get d s)) as [a|a u|a|]; cbn [accs] in G; [exact (G a _ (or_introl eq_refl))..|reflexivity].
    - cbn [length seq combine map loop tdfa_exec_loop]. rewrite block_one, exec_match. cbn [eval getv look var_eqb need bind app]. rewrite tdfa_tries by assumption.
      assert (G : forall t l, find (fun t => in_range c (tt_sym t)) l = Some t -> In t l) by (intros t l E; now apply find_some in E).
      destruct (find _ _) as [t|] eqn:E; [|reflexivity]. apply G in E. clear G. rewrite tdfa_step by assumption. drop.
      destruct (tf_to _ HF _ t (t_In s Hs) E) as (H1 & H2 & _). destruct (tt_apply_sizes i t old Ho) as [Z1 Z2].
      apply (IH (S i) (Some (tt_to t))); [assumption| |assumption|cbn [length] in Hi; lia]. etransitivity; [exact Z1|exact H2].
  Qed.
  Lemma tdfa_exec_code_run : run_tdfa_code d text = do r <- run_finish text (tdfa_run_exec d (utf8 text)); Ok (enc_result r).
  Proof using HF.
    unfold run_tdfa_code. assert (G := tdfa_loop_code (call_proc text []) (utf8 text) 0 None [no_bounds g] I).
    unfold run_func at 1, tdfa_inner_code. cbn [f_args f_body f_procs bind_params length Nat.eqb bind map combine rev app].
    rewrite block_cons. cbn [exec eval bind e_bounds]. rewrite enc_no_bounds. rewrite block_cons, exec_for. cbn [rounds bind]. unfold enumerate.
    unfold enc_tags in G. cbn [lab map td_get length] in G. cbn [repeat]. rewrite G; [|now rewrite (tf_start _ HF)|intros b [<-|[]]; apply repeat_length|cbn [Nat.add]; apply utf8_length].
    cbn [bind]. unfold tdfa_run_exec. assert (Z : forall bytes s i old, (forall b, In b old -> length b = g) -> forall b, tdfa_exec_loop d g s i old bytes = Some b -> length b = g).
    { clear HF G. induction bytes as [|c bytes IH]; intros s i old Ho b; cbn [tdfa_exec_loop].
      - assert (A : forall a, length (acc_apply i g a old) = g).
        { intros a. unfold acc_apply. rewrite apply_tags_length. destruct (Nat.lt_ge_cases (at_state a) (length old)) as [H|H]; [apply Ho; now apply nth_In|]. rewrite nth_overflow by assumption. apply repeat_length. }
        destruct (ts_acc (td_get d s)); intros E; try discriminate E; injection E as <-; apply A.
      - destruct (find _ _) as [t|]; [|discriminate]. apply IH. apply tt_apply_sizes; assumption. }
    destruct (tdfa_exec_loop d g None 0 [no_bounds g] (utf8 text)) as [b|] eqn:E; [|reflexivity]. apply Z in E; [|intros b0 [<-|[]]; apply repeat_length].
    cbn [option_map]. unfold run_func, tdfa_outer_code. cbn [f_args f_body f_procs bind_params length Nat.eqb bind map combine rev app fst].
    rewrite (block_finish _ _ _ _ _ _ b) by (auto; reflexivity). cbn [run_finish]. destruct (finish text b); reflexivity.
  Qed.

  Notation enum := ((LStart, Some (t_tags g 1)) :: map (fun p => (LNum (fst p), Some (t_tags g (length (ts_nfa (snd p)))))) (enumerate (td_states d))).
  Lemma t_variant l x : In (l, x) L -> variant enum l = Some (Some (t_tags g (length (ts_nfa x)))).
  Proof using HF.
    intros Hp. apply variant_In; [apply enum_nodup|]. apply numbered_inv in Hp as [_ [[E Es]|(i & E & Hi)]]; cbn [fst snd] in *; subst l; [left; subst x; now rewrite (tf_start _ HF)|].
    right. apply in_map_iff. exists (i, x). split; [reflexivity|]. now apply In_enumerate.
  Qed.
  Lemma tdfa_inner_accepts : accepts (tdfa_inner_code d) = true.
  Proof using HF.
    unfold accepts, tdfa_inner_code. cbn [f_enum f_procs f_body f_result f_args rev forallb]. rewrite (proj2 (distinct_iff _)) by apply enum_nodup. cbn [andb].
    rewrite goods_cons, good_let.
    2: { cbn [Rust.has]. rewrite (t_variant LStart (td_start d)) by apply numbered_start. rewrite (tf_start _ HF). cbn [Rust.has e_bounds t_bounds t_tags t_pair infer ty_eqb Nat.eqb]. rewrite Nat.eqb_refl. reflexivity. }
    rewrite goods_cons, good_for. cbn [iter_ctx app]. rewrite goods_cons, good_match. cbn [Rust.has infer look var_eqb ty_eqb andb PCheck.paired].
    rewrite (goods_ret _ _ _ _ _ (TOpt (t_bounds g))) by reflexivity.
    match goal with |- context [forallb (arm_ok ?E ?R ?P ?G true) ?M] => assert (A : forallb (arm_ok E R P G true) M = true) end.
    { apply forallb_forall. intros a Ha. apply in_flat_map in Ha as ([l s] & Hp & Ha). assert (Hv := t_variant l s Hp). apply numbered_inv in Hp as [Hs _]. cbn [fst snd] in *.
      apply in_map_iff in Ha as (t & <- & Ht). destruct (tf_to _ HF s t Hs Ht) as (H1 & H2 & H3 & H4 & H5). apply N.leb_le in H3.
      unfold tdfa_arm, arm_ok, pat_ctx. cbn [p_label p_bind p_range]. rewrite Hv, H3. cbn [andb app].
      rewrite goods_cons, good_let.
      - rewrite goods_app.
        + rewrite goods_cons. cbn [Rust.good look var_eqb place Rust.has]. rewrite (t_variant (LNum (tt_to t)) (nth (tt_to t) (td_states d) (stub []))) by (now apply numbered_num).
          cbn [Rust.has infer look var_eqb]. rewrite <- H2, ty_refl. reflexivity.
        + apply Forall_forall. intros st Hst. apply in_map_iff in Hst as (x & <- & Hx). rewrite Forall_forall in H5. destruct (H5 x Hx) as [X1 X2]. apply Nat.ltb_lt in X1.
          eapply good_set_tag; [reflexivity| |exact X2|reflexivity|left; eexists; reflexivity]. cbn [place infer t_tags]. rewrite X1. reflexivity.
      - cbn [Rust.has t_tags]. rewrite map_length, Nat.eqb_refl. cbn [andb]. clear - H4.
        induction H4 as [|k ks Hk Hks IH]; [reflexivity|]. cbn [map Rust.has infer look var_eqb t_tags]. apply Nat.ltb_lt in Hk. rewrite Hk, ty_refl. exact IH. }
    rewrite A. clear A. cbn [andb Rust.goods]. rewrite good_match. cbn [Rust.has infer look var_eqb ty_eqb andb PCheck.paired].
    match goal with |- context [Rust.covered ?E ?M] => assert (C : Rust.covered E M = true) end.
    { apply (numbered_covered (fun p => Some (t_tags g (length (ts_nfa (snd p))))) (Some (t_tags g 1)) (fun p => snd (tdfa_final g p)) (td_states d) (td_start d) (Some Xold_tags)). reflexivity. }
    rewrite C. cbn [andb]. clear C.
    match goal with |- context [forallb (arm_ok ?E ?R ?P ?G false) ?M] => assert (A : forallb (arm_ok E R P G false) M = true) end.
    { apply forallb_forall. intros a Ha. apply in_map_iff in Ha as ([l s] & <- & Hp). assert (Hv := t_variant l s Hp). apply numbered_inv in Hp as [Hs _]. cbn [fst snd] in *.
      unfold tdfa_final, arm_ok, pat_ctx. cbn [p_label p_bind p_range fst snd]. rewrite Hv. cbn [andb app].
      assert (B : forall a u G, In (a, u) (accs (ts_acc s)) -> look Xold_tags G = Some (t_tags g (length (ts_nfa s))) ->
        Rust.goods enum (Some (TOpt (t_bounds g))) [] ([SLet Xnew_tags (t_bounds g) (EIdx (EVar Xold_tags) (ENum (at_state a)))] ++ map (set_tag Xnew_tags [] ELen) (at_tags a) ++ [SRet (ESome (EVar Xnew_tags))]) G = true).
      { intros a u G Hin HG. destruct (tf_acc _ HF s a u Hs Hin) as [A1 A2]. apply Nat.ltb_lt in A1. cbn [app]. rewrite goods_cons, good_let.
        - rewrite goods_app; [|eapply goods_tags; [reflexivity|reflexivity|exact A2|reflexivity|right; reflexivity]].
          rewrite goods_cons. cbn [Rust.good Rust.has infer look var_eqb]. rewrite ty_refl. reflexivity.
        - cbn [Rust.has infer]. rewrite HG. cbn [t_tags]. rewrite A1. apply ty_refl. }
      destruct (ts_acc s) as [a|a u|a|]; cbn [accs] in B; [apply (B a _ _ (or_introl eq_refl)); reflexivity..|reflexivity]. }
    rewrite A. clear A. cbn [andb existsb].
    assert (R := returns_map (fun p => snd (tdfa_final g p)) (fun p => mkPat (fst p) (Some Xold_tags) None) (EVar Xstate) L).
    assert (R' : returns (SMatch (EVar Xstate) None (map (tdfa_final g) L) None) = true).
    { apply R. intros p. unfold tdfa_final. cbn [snd]. destruct (ts_acc (snd p)); [rewrite !existsb_app; cbn [existsb returns orb]; now rewrite !orb_true_r..|reflexivity]. }
    rewrite R'. cbn [orb]. now rewrite !orb_true_r.
  Qed.
  Lemma tdfa_outer_accepts : accepts (tdfa_outer_code d) = true.
  Proof.
    unfold accepts, tdfa_outer_code. cbn [f_enum f_procs f_body f_result f_args rev map forallb distinct_labels andb app].
    rewrite good_finish; [reflexivity|reflexivity|now left|reflexivity].
  Qed.
End Exec.

(** ** Every constructed DFA qualifies *)
Lemma dfa_fit_tagged n max d m : 1 <= length n -> PDfa.built n max d -> dfa_from_tagged d = Ok m -> dfa_fit m.
Proof.
  intros Hl Hb Hm. assert (V := base_valid n Hl max d Hb). destruct (from_tagged_spec d V) as (m' & E1 & E2 & E3). rewrite Hm in E1. injection E1 as <-.
  constructor; [now apply validate_valid|]. intros s t Hs Ht.
  destruct (minimise_full (length (d_states (base_dfa d))) (base_dfa d) (validate_valid _ V) (le_n _)) as (m2 & F1 & _ & _ & _ & F2 & _).
  change (mkDfa (dstate_of (td_start d)) (map dstate_of (td_states d))) with (base_dfa d) in E2. rewrite E2 in F1. injection F1 as <-.
  destruct (F2 s Hs) as (s0 & H0 & Es). destruct (base_sorted n Hl max d Hb s0 H0) as [_ B]. rewrite Forall_forall in B.
  assert (Hr : In (snd t) (map snd (ds_trans s0))) by (rewrite <- Es; now apply in_map).
  apply in_map_iff in Hr as (t0 & <- & H1). exact (B t0 H1).
Qed.
Lemma adds_In cl x : In x (adds cl) -> fst x < length cl /\ exists c, In c cl /\ In (snd x) (c_tags c).
Proof.
  unfold adds. intros H. apply in_concat in H as (l & Hl & Hx). apply in_map_iff in Hl as ([i c] & <- & Hi). apply In_enumerate in Hi.
  apply in_map_iff in Hx as (t & <- & Ht). cbn [fst snd]. split; [apply nth_error_Some; congruence|]. exists c. split; [eapply nth_error_In; eauto|assumption].
Qed.
Lemma tdfa_fit_built n max d : wf n -> 1 <= length n -> PDfa.built n max d -> tdfa_fit d.
Proof.
  intros Hwf Hl Hb.
  assert (S : forall s, In s (td_start d :: td_states d) -> exists o j, lab_ok d o j /\ s = td_get d o).
  { intros s [<-|Hs]; [exists None, 0; split; reflexivity|]. apply In_nth with (d := stub []) in Hs as (i & Hi & <-). exists (Some i), 1. split; [cbn; lia|reflexivity]. }
  assert (M : forall l x, In x l -> x <= fold_right Nat.max 0 l) by (intros l x; apply max_In).
  constructor.
  - now rewrite (b_start _ _ _ Hb).
  - intros s t Hs Ht. destruct (S s Hs) as (o & j & Ho & ->). destruct (trans_sorted n Hl max d Hb o j Ho) as [_ T]. rewrite Forall_forall in T. destruct (T t Ht) as [T1 T2].
    destruct (lab_expanded n Hl max d Hb o j Ho) as [In_ [_ X]]. destruct (Forall2_In_r _ _ _ t X Ht) as ([r cl] & Hc & E1 & E2 & E3 & E4). cbn [fst snd] in *.
    split; [assumption|]. split; [|split; [assumption|split]].
    + rewrite E2, map_length. unfold names in E4. rewrite nth_error_map, (nth_error_nth' (td_states d) (stub [])) in E4 by assumption. injection E4 as ->. now rewrite map_length.
    + rewrite E2. apply Forall_map, Forall_forall. intros c Hc'.
      destruct (cand_ranges_ok (all_cands n (keep_of o) (ts_nfa (td_get d o)))) as [O1 _ O3 _]. rewrite Forall_forall in O1. specialize (O1 _ Hc). cbn [fst] in O1.
      assert (Hr : in_range (fst r) r = true) by (apply in_range_iff; lia). rewrite (O3 r cl (fst r) Hc Hr) in Hc'. apply PDfa.dedup_In in Hc' as [Hc' _].
      apply byte_cands_In in Hc' as (r0 & Hc' & _). apply all_cands_In in Hc' as (k & q & w & Hk & _); [|assumption|assumption]. apply nth_error_Some. congruence.
    + apply Forall_forall. intros x Hx. rewrite E2, map_length. assert (Hx' := Hx). rewrite E3 in Hx'. apply adds_In in Hx' as [X1 _]. split; [assumption|].
      assert (G := lab_groups d (tdfa_groups d) (le_n _) o j Ho). unfold ts_groups in G.
      enough (tag_group (snd x) <= fold_right Nat.max 0 (flat_map (fun t => map (fun x => tag_group (snd x)) (tt_add t)) (ts_trans (td_get d o)))) by lia.
      apply M, in_flat_map. exists t. split; [assumption|]. apply in_map_iff. now exists x.
  - intros s a u Hs Ha. destruct (S s Hs) as (o & j & Ho & ->). destruct (lab_expanded n Hl max d Hb o j Ho) as [In_ [X _]].
    assert (G := lab_groups d (tdfa_groups d) (le_n _) o j Ho). unfold ts_groups in G.
    split.
    + rewrite X in Ha. apply (proj1 (all_acc_spec n Hwf _ In_)) in Ha as (k & w & Hk & _). apply nth_error_Some. congruence.
    + apply Forall_forall. intros y Hy. assert (Y : tag_group y <= acc_groups a) by (apply M; now apply in_map).
      destruct (ts_acc (td_get d o)) as [b|b v|v|]; cbn [accs] in Ha; [| | |destruct Ha].
      * destruct Ha as [E|[]]. injection E as E _; subst. lia.
      * destruct Ha as [E|[E|[]]]; injection E as E _; subst; lia.
      * destruct Ha as [E|[]]. injection E as E _; subst. lia.
Qed.
