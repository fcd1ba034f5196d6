(** The counted functions compute the same results. *)
From Verif Require Export Cost PBound.
From Coq Require Import ZifyBool ZifyNat ZifyN.
Open Scope nat_scope.
Open Scope list_scope.
Set Default Proof Using "Type".

Lemma tfold_fst {S X} (f : S -> X -> ticks S) (g : S -> X -> S) : (forall s x, fst (f s x) = g s x) -> forall l s, fst (tfold f l s) = fold_left g l s.
Proof. intros H. induction l as [|x l IH]; intros s; cbn [tfold fold_left]; [reflexivity|]. cbn. now rewrite IH, H. Qed.
Lemma tfind_fst {X} (p : X -> bool) l : fst (tfind p l) = find p l.
Proof. induction l as [|x l IH]; cbn; [reflexivity|]. destruct (p x); [reflexivity|exact IH]. Qed.
Lemma fold_ext {S X} (f g : S -> X -> S) : (forall s x, f s x = g s x) -> forall l s, fold_left f l s = fold_left g l s.
Proof. intros H. induction l as [|x l IH]; intros s; cbn; [reflexivity|]. now rewrite H, IH. Qed.

Section Flat.
  Context {A C : Type}.
  Variable check : A -> C -> bool.
  Variable width : C -> nat.
  Variable price : A -> nat.

  Lemma eps_test_fst tbl idx len l : fst (flat_eps_test_t tbl idx len l) = flat_eps_test tbl idx len l.
  Proof.
    unfold flat_eps_test_t, flat_eps_test. apply tfold_fst. intros s [i ps]. cbn [spend fst snd]. destruct (nth i s false); [|reflexivity]. now apply tfold_fst.
  Qed.
  Lemma sym_test_fst n l c : fst (flat_sym_test_t check price n l c) = flat_sym_test check n l c.
  Proof.
    unfold flat_sym_test_t, flat_sym_test, step_symbols. cbn [spend fst]. apply tfold_fst. intros s [i st]. cbn [spend fst snd]. destruct (nth i l false); [|reflexivity].
    apply tfold_fst. intros new [to a]. cbn [fst snd]. now destruct (check a c).
  Qed.
  Lemma test_loop_fst n tbl len text : forall idx l, fst (flat_test_loop_t check width price n tbl len idx l text) = flat_test_loop check width n tbl len idx l text.
  Proof.
    induction text as [|c text IH]; intros idx l; cbn [flat_test_loop_t flat_test_loop]; [reflexivity|]. unfold tbind, spend. cbn [fst]. rewrite sym_test_fst.
    destruct (forallb negb _); [reflexivity|]. cbn [fst]. now rewrite eps_test_fst, IH.
  Qed.
  Lemma run_test_fst n tbl text : fst (flat_run_test_t check width price n tbl text) = flat_run_test check width n tbl text.
  Proof. unfold flat_run_test_t, flat_run_test, spend, tbind. cbn [fst]. now rewrite test_loop_fst, eps_test_fst. Qed.

  Lemma push_fst idx b acc p : fst (flat_push_t idx b acc p) = flat_push idx b acc p.
  Proof. destruct acc as [occ out]. unfold flat_push_t, flat_push. now destruct (nth _ occ false). Qed.
  Lemma eps_exec_fst (n : nfa A) tbl idx len ths : fst (flat_eps_exec_t n tbl idx len ths) = flat_eps_exec n tbl idx len ths.
  Proof.
    unfold flat_eps_exec_t, flat_eps_exec, spend, tmap. cbn [fst]. f_equal. apply tfold_fst. intros acc th. cbn [fst]. apply tfold_fst. intros. apply push_fst.
  Qed.
  Lemma sym_exec_fst n ths c : fst (flat_sym_exec_t check price n ths c) = flat_sym_exec check n ths c.
  Proof.
    unfold flat_sym_exec_t, flat_sym_exec. erewrite tfold_fst.
    2:{ intros out th. unfold spend. cbn [fst]. apply (tfold_fst _ (fun out t => if check (snd t) c then out ++ [(fst t, snd th)] else out)). intros o t. now destruct (check (snd t) c). }
    assert (G : forall (th : thread) l (o : list thread), fold_left (fun out t => if check (snd t) c then out ++ [(fst t, snd th)] else out) l o = o ++ map (fun t => (fst t, snd th)) (filter (fun t => check (snd t) c) l)).
    { intros th. induction l as [|t l IH]; intros o; cbn [fold_left filter map]; [now rewrite app_nil_r|]. rewrite IH. destruct (check (snd t) c); [|reflexivity]. cbn [map]. now rewrite <- app_assoc. }
    assert (K : forall l (o : list thread), fold_left (fun out (th : thread) => fold_left (fun out t => if check (snd t) c then out ++ [(fst t, snd th)] else out) (trans (get n (fst th))) out) l o
      = o ++ flat_map (fun th : thread => map (fun t => (fst t, snd th)) (filter (fun t => check (snd t) c) (trans (get n (fst th))))) l).
    { induction l as [|th l IH]; intros o; cbn [fold_left flat_map]; [now rewrite app_nil_r|]. rewrite IH, G. now rewrite <- app_assoc. }
    apply K.
  Qed.
  Lemma exec_loop_fst n tbl len text : forall idx ths, fst (flat_exec_loop_t check width price n tbl len idx ths text) = flat_exec_loop check width n tbl len idx ths text.
  Proof.
    induction text as [|c text IH]; intros idx ths; cbn [flat_exec_loop_t flat_exec_loop]; [reflexivity|]. unfold tbind, spend. cbn [fst]. rewrite eps_exec_fst, sym_exec_fst.
    destruct (flat_eps_exec _ _ _ _ _); [reflexivity|]. apply IH.
  Qed.
  Lemma run_exec_fst n tbl text : fst (flat_run_exec_t check width price n tbl text) = flat_run_exec check width n tbl text.
  Proof. unfold flat_run_exec_t, flat_run_exec, spend, tbind, tmap. cbn [fst]. now rewrite tfind_fst, exec_loop_fst, eps_exec_fst. Qed.
End Flat.

Lemma u8_test_fst n T : fst (flat_u8_test_t n T) = flat_u8_test n T.
Proof. unfold flat_u8_test_t, flat_u8_test. destruct (flat_make n); try reflexivity. cbn [tmap fst bind]. now rewrite run_test_fst. Qed.
Lemma u8_exec_fst n T : fst (flat_u8_exec_t n T) = flat_u8_exec n T.
Proof. unfold flat_u8_exec_t, flat_u8_exec. destruct (flat_make n); try reflexivity. cbn [run_finish_t fst bind]. now rewrite run_exec_fst. Qed.
Lemma char_test_fst n T : fst (flat_char_test_t n T) = flat_char_test n T.
Proof. unfold flat_char_test_t, flat_char_test. destruct (flat_make n); try reflexivity. cbn [tmap fst bind]. now rewrite run_test_fst. Qed.
Lemma char_exec_fst n T : fst (flat_char_exec_t n T) = flat_char_exec n T.
Proof. unfold flat_char_exec_t, flat_char_exec. destruct (flat_make n); try reflexivity. cbn [run_finish_t fst bind]. now rewrite run_exec_fst. Qed.

Lemma vm_arm_fst tab s i c : fst (vm_arm_t tab s i c) = vm_arm tab s i c.
Proof. unfold vm_arm_t, vm_arm, tmap. cbn [fst]. rewrite tfind_fst. now destruct (find _ _) as [[]|]. Qed.
Lemma vm_test_fst tab bytes : forall s i, fst (vm_test_loop_t tab s i bytes) = vm_test_loop tab s i bytes.
Proof. induction bytes as [|c r IH]; intros s i; cbn [vm_test_loop_t vm_test_loop]; [reflexivity|]. unfold spend, tbind. cbn [fst]. rewrite vm_arm_fst. destruct (vm_arm _ _ _ _); [apply IH|reflexivity]. Qed.
Lemma vm_exec_fst tab bytes : forall s i b, fst (vm_exec_loop_t tab s i b bytes) = vm_exec_loop tab s i b bytes.
Proof.
  induction bytes as [|c r IH]; intros s i b; cbn [vm_exec_loop_t vm_exec_loop]; unfold spend, tbind; cbn [fst]; [now destruct (nth s (op_accs tab) [])|].
  rewrite vm_arm_fst. destruct (vm_arm _ _ _ _); [apply IH|reflexivity].
Qed.
Lemma fun_arm_fst tab s st c : fst (fun_arm_t tab s st c) = fun_arm tab s st c.
Proof. unfold fun_arm_t, fun_arm, tmap. cbn [fst]. rewrite tfind_fst. now destruct (find _ _) as [[]|]. Qed.
Lemma match_run_fst rs : forall bytes, fst (match_run_t rs bytes) = match_run rs bytes.
Proof. induction rs as [|r rs IH]; intros [|c bytes]; cbn; try reflexivity. destruct (in_range c r); [apply IH|reflexivity]. Qed.
Lemma end_exec_fst s st i b accs : fst (fun_end_exec_t s st i b accs) = fun_end_exec s st i b accs.
Proof. unfold fun_end_exec_t, fun_end_exec, spend. cbn [fst]. destruct accs as [|tu accs]; [reflexivity|]. destruct (tu_start tu), (s =? 0), st; reflexivity. Qed.
Lemma fun_test_fst tab runs fuel : forall s st bytes, fst (fun_test_t fuel tab runs s st bytes) = fun_test fuel tab runs s st bytes.
Proof.
  induction fuel as [|f IH]; intros s st bytes; cbn [fun_test_t fun_test]; [reflexivity|]. unfold spend, tbind. cbn [fst].
  destruct (nth s runs RNone); cbn [fst]; try rewrite match_run_fst;
    try (destruct bytes as [|c rest]; cbn [fst tmap]; [reflexivity|rewrite fun_arm_fst; destruct (fun_arm _ _ _ _); [apply IH|reflexivity]]).
  destruct (match_run _ _); [apply IH|reflexivity].
Qed.
Lemma fun_exec_fst tab runs fuel : forall s st i b bytes, fst (fun_exec_t fuel tab runs s st i b bytes) = fun_exec fuel tab runs s st i b bytes.
Proof.
  induction fuel as [|f IH]; intros s st i b bytes; cbn [fun_exec_t fun_exec]; [reflexivity|]. unfold spend, tbind. cbn [fst].
  destruct (nth s runs RNone); cbn [fst]; try rewrite match_run_fst;
    try (destruct bytes as [|c rest]; cbn [fst tmap]; [now rewrite end_exec_fst|rewrite fun_arm_fst; destruct (fun_arm _ _ _ _); [apply IH|reflexivity]]).
  destruct (match_run _ _); [apply IH|reflexivity].
Qed.
Lemma op_test_fst e T : fst (op_test_t e T) = op_test e T.
Proof. unfold op_test_t, op_test. destruct (op_k e); [cbn [tmap fst]; now rewrite vm_test_fst|apply fun_test_fst]. Qed.
Lemma op_exec_fst e T : fst (op_exec_t e T) = op_exec e T.
Proof.
  unfold op_exec_t, op_exec, spend, tbind. cbn [fst]. destruct (op_k e); cbn [tmap fst].
  - rewrite vm_exec_fst. reflexivity.
  - rewrite fun_exec_fst. destruct (fun_exec _ _ _ _ _ _ _ _); reflexivity.
Qed.

Lemma dfa_loop_fst d bytes : forall s, fst (dfa_test_loop_t d s bytes) = dfa_test_loop d s bytes.
Proof.
  induction bytes as [|c r IH]; intros s; cbn [dfa_test_loop_t dfa_test_loop]; [reflexivity|]. unfold spend, tbind. cbn [fst].
  destruct (ds_acc (d_get d s)); cbn [fst]; try reflexivity; rewrite tfind_fst; destruct (find _ _) as [[to t]|]; try reflexivity; apply IH.
Qed.
Lemma dfa_run_fst d bytes : fst (dfa_run_test_t d bytes) = dfa_run_test d bytes.
Proof. unfold dfa_run_test_t, dfa_run_test. destruct (ds_acc _); try apply dfa_loop_fst. reflexivity. Qed.
Lemma tdfa_loop_fst d g bytes : forall s i tags, fst (tdfa_exec_loop_t d g s i tags bytes) = tdfa_exec_loop d g s i tags bytes.
Proof.
  induction bytes as [|c r IH]; intros s i tags; cbn [tdfa_exec_loop_t tdfa_exec_loop]; unfold spend, tbind; cbn [fst]; [now destruct (ts_acc _)|].
  rewrite tfind_fst. destruct (find _ _); [apply IH|reflexivity].
Qed.
Lemma dfa_test_fst d T : fst (dfa_test_t d T) = dfa_test d T.
Proof. unfold dfa_test_t, dfa_test. destruct (dfa_from_tagged d); try reflexivity. cbn [tmap fst bind]. now rewrite dfa_run_fst. Qed.
Lemma dfa_exec_fst d T : fst (dfa_exec_t d T) = dfa_exec d T.
Proof. unfold dfa_exec_t, dfa_exec. destruct (dfa_from_tagged d); try reflexivity. cbn [run_finish_t fst bind]. unfold tdfa_run_exec_t, tdfa_run_exec, spend. cbn [fst]. now rewrite tdfa_loop_fst. Qed.

Lemma engine_test_fst en T : fst (engine_test_t en T) = engine_test en T.
Proof. induction en; cbn [engine_test_t engine_test]; auto using op_test_fst, dfa_test_fst, u8_test_fst, char_test_fst. Qed.
Lemma engine_exec_fst en T : fst (engine_exec_t en T) = engine_exec en T.
Proof.
  destruct en; cbn [engine_exec_t engine_exec]; auto using op_exec_fst, dfa_exec_fst, u8_exec_fst, char_exec_fst. unfold tbind. cbn [fst]. rewrite engine_test_fst.
  destruct (engine_test en T); reflexivity.
Qed.
