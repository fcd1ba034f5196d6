(** The code generated for the vm-like one-pass engine computes what the model of the engine computes. *)
From Verif Require Export PCheck POnePass.
From Coq Require Import ZifyBool ZifyNat ZifyN.
Open Scope nat_scope.
Open Scope list_scope.
Set Default Proof Using "Type".

Local Notation block := Rust.block.
(** What is needed of the tables *)
Record vm_fit (n : nfa range) (tab : op_tables) : Prop := {
  f_syms : length (op_syms tab) = length n;
  f_accs : length (op_accs tab) = length n;
  f_zero : 1 <= length n /\ nth 0 (op_excluded n) true = false;
  f_to : forall s r tu, In (r, tu) (nth s (op_syms tab) []) ->
    tu_state tu < length n /\ nth (tu_state tu) (op_excluded n) true = false /\ (fst r <= snd r)%N /\
    Forall (fun t => tag_group t < num_capture_groups n) (tu_tags tu);
  f_acc : forall s tu, In tu (nth s (op_accs tab) []) -> Forall (fun t => tag_group t < num_capture_groups n) (tu_tags tu) }.

Lemma op_excluded_length n : length (op_excluded n) = length n.
Proof.
  unfold op_excluded. rewrite fold_length; [now rewrite upd_length, repeat_length|].
  intros l x. apply fold_length. intros. now rewrite upd_length.
Qed.
Section Vm.
  Variables (n : nfa range) (tab : op_tables) (text : list N).
  Hypothesis HF : vm_fit n tab.
  Hypothesis Ho : vm_compiles n tab = true.
  Notation ex := (op_excluded n).
  Notation g := (num_capture_groups n).
  Notation here s := (s < length n /\ nth s ex true = false).

  Lemma final_open s tu : here s -> In tu (nth s (op_accs tab) []) -> tu_start tu = false.
  Proof using HF Ho.
    intros [Hs He] Ht. unfold vm_compiles in Ho. rewrite forallb_forall in Ho.
    assert (Hl := op_excluded_length n).
    specialize (Ho (false, nth s (op_accs tab) [])).
    assert (Hi : In (false, nth s (op_accs tab) []) (combine ex (op_accs tab))).
    { rewrite <- He, <- combine_nth by (rewrite Hl, (f_accs _ _ HF); reflexivity). apply nth_In. rewrite combine_length, Hl, (f_accs _ _ HF). lia. }
    specialize (Ho Hi). cbn in Ho. rewrite forallb_forall in Ho. specialize (Ho tu Ht). now destruct (tu_start tu).
  Qed.

  Section Arms.
    Variable call : nat -> list val -> list val -> res (list val).
    Variable updates : tupd -> list stmt.
    (** The match of the loop *)
    Lemma vm_tries s i c e other : here s -> look Xi e = Some (VNum i) ->
      tries text call (VCon (LNum s) None) (Some (VByte c)) e (flat_map (vm_arms updates ex) (kept ex (op_syms tab))) other
      = match vm_arm tab s i c with
        | Some tu => leave e (block text call (updates tu ++ [SSet Xstate [] (ECon (LNum (tu_state tu)) None)]) e)
        | None => match other with Some l => leave e (block text call l e) | None => NoCompile end
        end.
    Proof using HF Ho.
      intros [Hs He] Hi. rewrite tries_filter.
      rewrite (kept_pick (vm_arms updates ex) ex (op_syms tab) []); [|rewrite (f_syms _ _ HF); assumption|assumption|].
      2: { intros [q l] a Ha. unfold vm_arms in Ha. apply in_flat_map in Ha as ([r tu] & _ & Ha).
           destruct (nth (tu_state tu) ex true); [destruct Ha|]. destruct (tu_end tu); [destruct Ha|]. destruct Ha as [<-|[]]. reflexivity. }
      unfold vm_arm, vm_arms. cbn [fst snd].
      assert (Hto : forall r tu, In (r, tu) (nth s (op_syms tab) []) -> nth (tu_state tu) ex true = false) by (intros r tu Hx; apply (f_to _ _ HF s r tu Hx)).
      induction (nth s (op_syms tab) []) as [|[r tu] l IH]; [reflexivity|]. cbn [flat_map find fst snd].
      rewrite (Hto r tu) by now left. assert (IH' := IH (fun r tu H => Hto r tu (or_intror H))). clear IH Hto.
      destruct (tu_end tu); cbn [negb andb app]; [exact IH'|].
      rewrite tries_cons. unfold fit. cbn [p_label p_bind p_range]. rewrite label_refl. cbn [bind].
      destruct (in_range c r); cbn [bind andb]; [|exact IH']. unfold vm_guard. destruct (tu_start tu); cbn [negb orb bind app].
      - cbn [eval]. unfold getv. rewrite Hi. cbn [need bind num_eqb as_bool]. destruct (i =? 0); [reflexivity|exact IH'].
      - reflexivity.
    Qed.
    (** The final match *)
    Lemma vm_tries_final s e (body : tupd -> list stmt) other : here s ->
      tries text call (VCon (LNum s) None) None e (flat_map (vm_final body) (kept ex (op_accs tab))) other
      = match nth s (op_accs tab) [] with
        | tu :: _ => leave e (block text call (body tu) e)
        | [] => match other with Some l => leave e (block text call l e) | None => NoCompile end
        end.
    Proof using HF Ho.
      intros [Hs He]. rewrite tries_filter.
      rewrite (kept_pick (vm_final body) ex (op_accs tab) []); [|rewrite (f_accs _ _ HF); assumption|assumption|].
      2: { intros [q l] a Ha. unfold vm_final in Ha. apply in_map_iff in Ha as (tu & <- & _). reflexivity. }
      assert (Hf := final_open s). destruct (nth s (op_accs tab) []) as [|tu l]; [reflexivity|].
      unfold vm_final. cbn [fst snd map]. rewrite tries_cons. unfold fit. cbn [p_label p_bind p_range]. rewrite label_refl. cbn [bind].
      unfold vm_guard. rewrite (Hf tu); [reflexivity|auto|now left].
    Qed.
  End Arms.
  Lemma vm_arm_here s i c tu : here s -> vm_arm tab s i c = Some tu -> here (tu_state tu) /\ Forall (fun t => tag_group t < g) (tu_tags tu).
  Proof using HF Ho.
    intros _. unfold vm_arm. destruct (find _ _) as [[r u]|] eqn:E; [|discriminate]. intros H. injection H as <-. apply find_some in E as [E _].
    destruct (f_to _ _ HF s r u E) as (H1 & H2 & _ & H3). auto.
  Qed.

  Lemma vm_test_loop_code call : forall bytes i s, here s ->
    (do o <- loop (fun e => block text call [SMatch (EVar Xstate) (Some (EVar Xc))
                   (flat_map (vm_arms (fun _ => []) ex) (kept ex (op_syms tab))) (Some [SRet (EBool false)])] e)
              (map (fun '(i, c) => [(Xc, VByte c); (Xi, VNum i)]) (combine (seq i (length bytes)) bytes)) [(Xstate, VCon (LNum s) None)];
     match o with
     | inl e => block text call [SMatch (EVar Xstate) None (flat_map (vm_final (fun _ => [SRet (EBool true)])) (kept ex (op_accs tab)))
            (Some [SRet (EBool false)])] e
     | inr v => Ok (inr v)
     end) = Ok (inr (VBool (vm_test_loop tab s i bytes))).
  Proof using HF Ho.
    induction bytes as [|c bytes IH]; intros i s Hs.
    - cbn [length seq combine map loop bind vm_test_loop]. rewrite block_one, exec_match. cbn [eval getv look var_eqb need bind]. rewrite vm_tries_final by assumption.
      destruct (nth s (op_accs tab) []); reflexivity.
    - cbn [length seq combine map loop vm_test_loop]. rewrite block_one, exec_match. cbn [eval getv look var_eqb need bind app].
      rewrite (vm_tries call _ s i) by (auto; reflexivity). destruct (vm_arm tab s i c) as [tu|] eqn:E; [|reflexivity].
      cbn [app]. rewrite block_one. cbn [exec eval getv look var_eqb need bind mapM store assign]. drop. apply IH. now apply vm_arm_here in E.
  Qed.
  Lemma vm_test_code_run : run_func (vm_test_code n tab) text [] = Ok (VBool (vm_test_loop tab 0 0 (utf8 text))).
  Proof using HF Ho.
    unfold run_func, vm_test_code. cbn [f_args f_body f_procs bind_params length Nat.eqb bind map combine rev app].
    rewrite block_cons. cbn [exec eval bind]. rewrite block_cons, exec_for. cbn [rounds bind]. unfold enumerate.
    assert (G := vm_test_loop_code (call_proc text []) (utf8 text) 0 0 (f_zero _ _ HF)).
    rewrite G. reflexivity.
  Qed.

  Lemma vm_exec_loop_code call : forall bytes i s b, here s -> length b = g ->
    i + length bytes = blen text ->
    (do o <- loop (fun e => block text call [SMatch (EVar Xstate) (Some (EVar Xc))
                   (flat_map (vm_arms (fun tu => map (set_tag Xcaptures [] (EVar Xi)) (tu_tags tu)) ex) (kept ex (op_syms tab))) (Some [SRet ENothing])] e)
              (map (fun '(i, c) => [(Xc, VByte c); (Xi, VNum i)]) (combine (seq i (length bytes)) bytes))
              [(Xcaptures, enc_bounds b); (Xstate, VCon (LNum s) None)];
     match o with
     | inl e => block text call ([SMatch (EVar Xstate) None
             (flat_map (vm_final (fun tu => map (set_tag Xcaptures [] ELen) (tu_tags tu))) (kept ex (op_accs tab)))
             (Some [SRet ENothing])] ++ finish_code Xcapture_strs g (EVar Xcaptures)) e
     | inr v => Ok (inr v)
     end) = do r <- run_finish text (vm_exec_loop tab s i b bytes); Ok (inr (enc_result r)).
  Proof using HF Ho.
    induction bytes as [|c bytes IH]; intros i s b Hs Hb Hi.
    - cbn [length seq combine map loop bind vm_exec_loop app]. rewrite block_cons, exec_match. cbn [eval getv look var_eqb need bind]. rewrite vm_tries_final by assumption.
      assert (Ha := f_acc _ _ HF s). destruct (nth s (op_accs tab) []) as [|tu l]; [reflexivity|].
      rewrite (block_tags _ _ Xcaptures ELen (blen text) _ b) by (reflexivity || (rewrite Hb; apply Ha; now left)).
      cbn [assign var_eqb]. drop.
      assert (E : i = blen text) by (cbn [length] in Hi; lia). rewrite <- E. unfold apply_tu.
      rewrite (block_finish _ _ _ _ _ _ (apply_tags i (tu_tags tu) b)); [|now left|now rewrite apply_tags_length|reflexivity].
      cbn [run_finish]. destruct (finish text _); reflexivity.
    - cbn [length seq combine map loop vm_exec_loop]. rewrite block_one, exec_match. cbn [eval getv look var_eqb need bind app].
      rewrite (vm_tries call _ s i) by (auto; reflexivity). destruct (vm_arm tab s i c) as [tu|] eqn:E; [|reflexivity].
      apply vm_arm_here in E as [Hto Htags]; [|assumption].
      rewrite block_app, (block_tags _ _ Xcaptures (EVar Xi) i _ b) by (reflexivity || now rewrite Hb).
      cbn [assign var_eqb bind]. rewrite block_one. cbn [exec eval getv look var_eqb need bind mapM store assign]. drop.
      apply (IH (S i) (tu_state tu) (apply_tu i tu b)); [assumption| |cbn [length] in Hi; lia]. unfold apply_tu. now rewrite apply_tags_length.
  Qed.
  Lemma enc_no_bounds k : VArr (repeat (VPair VMax VMax) k) = enc_bounds (no_bounds k).
  Proof. unfold enc_bounds, no_bounds. f_equal. induction k; cbn; [reflexivity|]. now rewrite IHk. Qed.
  Lemma vm_exec_code_run : run_func (vm_exec_code n tab) text []
    = do r <- run_finish text (vm_exec_loop tab 0 0 (no_bounds g) (utf8 text)); Ok (enc_result r).
  Proof using HF Ho.
    unfold run_func, vm_exec_code. cbn [f_args f_body f_procs bind_params length Nat.eqb bind map combine rev app].
    rewrite block_cons. cbn [exec eval bind]. rewrite block_cons. cbn [exec eval bind e_bounds]. rewrite enc_no_bounds. rewrite block_cons, exec_for. cbn [rounds bind]. unfold enumerate.
    assert (G := vm_exec_loop_code (call_proc text []) (utf8 text) 0 0 (no_bounds g) (f_zero _ _ HF)).
    cbn [app] in G. rewrite G by (unfold no_bounds; try apply repeat_length; cbn [Nat.add]; apply utf8_length).
    destruct (run_finish _ _); reflexivity.
  Qed.
End Vm.

(** ** The checks *)
Lemma vm_fit_tables n tab : wf n -> 1 <= length n -> (forall s t r, In (t, r) (trans (get n s)) -> byte_ok r) -> tables n tab -> vm_fit n tab.
Proof.
  intros Hwf Hlen Hb HT. constructor.
  - apply (t_syms_len _ _ HT).
  - apply (t_accs_len _ _ HT).
  - split; [assumption|]. apply op_excluded_spec; [assumption|now left|lia].
  - intros s r tu Hin. assert (Hs : s < length n).
    { rewrite <- (t_syms_len _ _ HT). destruct (Nat.lt_ge_cases s (length (op_syms tab))) as [H|H]; [assumption|]. rewrite nth_overflow in Hin by assumption. destruct Hin. }
    apply (t_syms _ _ HT) in Hin as (w & q & t & _ & Ht & ->); [|assumption]. cbn [tu_of tu_state].
    assert (Htl : t < length n) by (eapply wf_trans; eauto).
    split; [assumption|]. split; [apply op_excluded_spec; [assumption|right; eauto|assumption]|]. split; [apply (Hb _ _ _ Ht)|].
    apply Forall_forall. intros x Hx. now apply tu_tags_In in Hx.
  - intros s tu Hin. assert (Hs : s < length n).
    { rewrite <- (t_accs_len _ _ HT). destruct (Nat.lt_ge_cases s (length (op_accs tab))) as [H|H]; [assumption|]. rewrite nth_overflow in Hin by assumption. destruct Hin. }
    apply (t_accs _ _ HT) in Hin as (w & _ & ->); [|assumption]. apply Forall_forall. intros x Hx. now apply tu_tags_In in Hx.
Qed.
Lemma nth_error_pairs {X Y} (l : list X) : forall (m : list Y) i, nth_error (combine l m) i = match nth_error l i, nth_error m i with Some x, Some y => Some (x, y) | _, _ => None end.
Proof. induction l as [|x l IH]; intros [|y m] [|i]; cbn; auto. now destruct (nth_error l i). Qed.
Section Check.
  Variables (n : nfa range) (tab : op_tables).
  Hypothesis HF : vm_fit n tab.
  Notation ex := (op_excluded n).
  Notation g := (num_capture_groups n).
  Notation enum := (vm_enum ex (op_syms tab)).
  Lemma vm_enum_nodup : NoDup (map fst enum).
  Proof. unfold vm_enum. rewrite map_map. cbn [fst]. apply kept_nodup. Qed.
  Lemma vm_variant s : s < length n -> nth s ex true = false -> variant enum (LNum s) = Some None.
  Proof using HF.
    intros Hs He. apply variant_In; [apply vm_enum_nodup|]. unfold vm_enum. apply in_map_iff. exists (s, nth s (op_syms tab) []). split; [reflexivity|].
    apply kept_In; [rewrite (f_syms _ _ HF)|]; assumption.
  Qed.
  Lemma kept_inv {X} (l : list X) i x : In (i, x) (kept ex l) -> nth_error l i = Some x /\ nth i ex true = false.
  Proof. unfold kept. intros H. apply filter_In in H as [H1 H2]. apply In_enumerate in H1. cbn [fst] in H2. destruct (nth i ex true); [discriminate H2|auto]. Qed.
  Lemma vm_arms_ok result procs (upds : tupd -> list stmt) G :
    (forall s r tu, In (r, tu) (nth s (op_syms tab) []) -> Forall (fun st => Rust.good enum result procs st G = Some G) (upds tu)) ->
    look Xi G = Some TNum -> look Xstate G = Some TEnum ->
    forallb (arm_ok enum result procs G true) (flat_map (vm_arms upds ex) (kept ex (op_syms tab))) = true.
  Proof using HF.
    intros Hu Hi Hst. apply forallb_forall. intros a Ha. apply in_flat_map in Ha as ([s l] & Hk & Ha). apply kept_inv in Hk as [Hs He].
    assert (Hsl : s < length n) by (rewrite <- (f_syms _ _ HF); apply nth_error_Some; congruence).
    apply (nth_error_nth _ _ []) in Hs. unfold vm_arms in Ha. apply in_flat_map in Ha as ([r tu] & Hin & Ha). cbn [fst snd] in *. subst l.
    destruct (f_to _ _ HF s r tu Hin) as (H1 & H2 & H3 & _). rewrite H2 in Ha. destruct (tu_end tu); [destruct Ha|]. destruct Ha as [<-|[]].
    unfold arm_ok, pat_ctx. cbn [p_label p_bind p_range]. rewrite vm_variant by assumption. apply N.leb_le in H3. rewrite H3. cbn [andb app].
    rewrite goods_app by (eapply Hu; eauto). rewrite goods_cons. cbn [Rust.good]. rewrite Hst. cbn [place Rust.has]. rewrite vm_variant by assumption.
    unfold vm_guard. destruct (tu_start tu); [|reflexivity]. cbn [Rust.has infer]. rewrite Hi. reflexivity.
  Qed.
  Lemma vm_final_ok result procs (body : tupd -> list stmt) G :
    (forall s tu, In tu (nth s (op_accs tab) []) -> Rust.goods enum result procs (body tu) G = true) ->
    look Xi G = None ->
    forallb (arm_ok enum result procs G false) (flat_map (vm_final body) (kept ex (op_accs tab))) = vm_compiles n tab.
  Proof using HF.
    intros Hb Hi. apply eq_true_iff_eq. unfold vm_compiles. rewrite !forallb_forall.
    assert (Hok : forall s tu, s < length n -> nth s ex true = false -> In tu (nth s (op_accs tab) []) ->
      arm_ok enum result procs G false (mkPat (LNum s) None None, vm_guard tu, body tu) = negb (tu_start tu)).
    { intros s tu Hs He Hin. unfold arm_ok, pat_ctx. cbn [p_label p_bind p_range]. rewrite vm_variant by assumption. cbn [app]. rewrite (Hb s tu Hin), andb_true_r.
      unfold vm_guard. destruct (tu_start tu); [|reflexivity]. cbn [Rust.has infer]. rewrite Hi. reflexivity. }
    split.
    - intros H [e l] Hin. destruct e; [reflexivity|]. cbn [orb]. apply forallb_forall. intros tu Htu.
      apply In_nth_error in Hin as (s & Hs). rewrite nth_error_pairs in Hs.
      destruct (nth_error ex s) as [e'|] eqn:Ee; [|discriminate Hs]. destruct (nth_error (op_accs tab) s) as [l'|] eqn:El; [|discriminate Hs]. injection Hs as -> ->.
      assert (Hsl : s < length n) by (rewrite <- (f_accs _ _ HF); apply nth_error_Some; congruence).
      apply (nth_error_nth _ _ true) in Ee. assert (El' := nth_error_nth _ _ [] El).
      rewrite <- (Hok s tu); [|assumption|assumption|now rewrite El']. apply H. apply in_flat_map. exists (s, l). split.
      + rewrite <- El'. apply kept_In; [now rewrite (f_accs _ _ HF)|assumption].
      + unfold vm_final. apply in_map_iff. exists tu. auto.
    - intros H a Ha. apply in_flat_map in Ha as ([s l] & Hk & Ha). apply kept_inv in Hk as [Hs He].
      assert (Hsl : s < length n) by (rewrite <- (f_accs _ _ HF); apply nth_error_Some; congruence).
      unfold vm_final in Ha. apply in_map_iff in Ha as (tu & <- & Htu). cbn [fst snd] in *. assert (El' := nth_error_nth _ _ [] Hs).
      rewrite (Hok s tu) by (try assumption; now rewrite El').
      assert (Hi' : In (false, l) (combine ex (op_accs tab))).
      { rewrite <- He, <- El', <- combine_nth by (rewrite op_excluded_length, (f_accs _ _ HF); reflexivity). apply nth_In. rewrite combine_length, op_excluded_length, (f_accs _ _ HF). lia. }
      specialize (H _ Hi'). cbn in H. rewrite forallb_forall in H. now apply H.
  Qed.
  Lemma vm_test_accepts : accepts (vm_test_code n tab) = vm_compiles n tab.
  Proof using HF.
    destruct (f_zero _ _ HF) as [Hl H0]. unfold accepts, vm_test_code. cbn [f_enum f_procs f_body f_result f_args rev map forallb].
    rewrite (proj2 (distinct_iff _) vm_enum_nodup). cbn [andb].
    rewrite goods_cons, good_let by (cbn [Rust.has]; rewrite (vm_variant 0) by (assumption || lia); reflexivity).
    rewrite goods_cons, good_for. cbn [iter_ctx app]. rewrite goods_cons, good_match. cbn [Rust.has infer look var_eqb ty_eqb andb paired].
    rewrite (goods_ret _ _ _ _ _ TBool) by reflexivity.
    rewrite vm_arms_ok by (reflexivity || (intros; constructor)). cbn [andb Rust.goods].
    rewrite good_match. cbn [Rust.has infer look var_eqb ty_eqb andb paired]. rewrite (goods_ret _ _ _ _ _ TBool) by reflexivity. cbn [andb].
    rewrite vm_final_ok by (reflexivity || (intros; reflexivity)).
    destruct (vm_compiles n tab); [|reflexivity]. cbn [andb existsb]. rewrite !orb_true_iff. right. right. left.
    cbn [returns]. rewrite andb_true_r. generalize (kept ex (op_accs tab)). induction l as [|[s l] r IH]; [reflexivity|]. cbn [flat_map].
    unfold vm_final at 1. cbn [snd]. induction l as [|tu l IHl]; [exact IH|]. exact IHl.
  Qed.
  Lemma vm_exec_accepts : accepts (vm_exec_code n tab) = vm_compiles n tab.
  Proof using HF.
    destruct (f_zero _ _ HF) as [Hl H0]. unfold accepts, vm_exec_code. cbn [f_enum f_procs f_body f_result f_args rev map forallb].
    rewrite (proj2 (distinct_iff _) vm_enum_nodup). cbn [andb app].
    rewrite goods_cons, good_let by (cbn [Rust.has]; rewrite (vm_variant 0) by (assumption || lia); reflexivity).
    rewrite goods_cons, good_let by (cbn [Rust.has e_bounds t_bounds t_pair infer ty_eqb]; rewrite Nat.eqb_refl; reflexivity).
    rewrite goods_cons, good_for. cbn [iter_ctx app]. rewrite goods_cons, good_match. cbn [Rust.has infer look var_eqb ty_eqb andb paired].
    rewrite (goods_ret _ _ _ _ _ (t_result g)) by reflexivity.
    rewrite vm_arms_ok; [|..|reflexivity|reflexivity].
    2: { intros s r tu Hin. destruct (f_to _ _ HF s r tu Hin) as (_ & _ & _ & Ht). eapply goods_tags; [reflexivity|reflexivity|exact Ht|reflexivity|left; eexists; reflexivity]. }
    cbn [andb Rust.goods]. rewrite good_match. cbn [Rust.has infer look var_eqb ty_eqb andb paired]. rewrite (goods_ret _ _ _ _ _ (t_result g)) by reflexivity. cbn [andb].
    rewrite vm_final_ok; [|..|reflexivity].
    2: { intros s tu Hin. apply goods_all. eapply goods_tags; [reflexivity|reflexivity|exact (f_acc _ _ HF s tu Hin)|reflexivity|right; reflexivity]. }
    destruct (vm_compiles n tab); [|reflexivity]. rewrite good_finish; [|reflexivity|now left|reflexivity].
    cbn [andb existsb]. rewrite !orb_true_iff. repeat right. cbn [finish_code existsb returns]. rewrite !orb_true_r. auto 10.
  Qed.
End Check.
