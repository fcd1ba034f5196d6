(** How many steps the counted functions take. *)
From Verif Require Export PCost SpecTime PFixedAll.
From Coq Require Import ZifyBool ZifyNat ZifyN.
Open Scope nat_scope.
Open Scope list_scope.
Set Default Proof Using "Type".

Lemma sum_cons {X} (f : X -> nat) x l : sum_of f (x :: l) = f x + sum_of f l.
Proof. reflexivity. Qed.
Lemma sum_app {X} (f : X -> nat) l l' : sum_of f (l ++ l') = sum_of f l + sum_of f l'.
Proof. unfold sum_of. now rewrite map_app, list_sum_app. Qed.
Lemma sum_In {X} (f : X -> nat) x l : In x l -> f x <= sum_of f l.
Proof. induction l as [|y l IH]; [intros []|]. rewrite sum_cons. intros [->|H]; [lia|]. specialize (IH H). lia. Qed.
Lemma sum_le {X} (f g : X -> nat) l : (forall x, In x l -> f x <= g x) -> sum_of f l <= sum_of g l.
Proof. induction l as [|y l IH]; intros H; [reflexivity|]. rewrite !sum_cons. assert (A := H y (or_introl eq_refl)). assert (B := IH (fun x Hx => H x (or_intror Hx))). lia. Qed.
Lemma sum_const {X} k (l : list X) : sum_of (fun _ => k) l = k * length l.
Proof. induction l as [|x l IH]; [cbn; lia|]. rewrite sum_cons, IH. cbn [length]. lia. Qed.
Lemma sum_plus {X} (f g : X -> nat) l : sum_of (fun x => f x + g x) l = sum_of f l + sum_of g l.
Proof. induction l as [|x l IH]; [reflexivity|]. rewrite !sum_cons, IH. lia. Qed.
Lemma sum_nth {X} (f : list X -> nat) i (l : list (list X)) : f [] = 0 -> f (nth i l []) <= sum_of f l.
Proof. intros H. destruct (Nat.lt_ge_cases i (length l)) as [Hi|Hi]; [apply sum_In, nth_In, Hi|]. rewrite nth_overflow by assumption. lia. Qed.
Lemma sum_enumerate {X} (f : X -> nat) l : sum_of (fun x : nat * X => f (snd x)) (enumerate l) = sum_of f l.
Proof.
  unfold enumerate. generalize 0 as k. induction l as [|x l IH]; intros k; [reflexivity|]. cbn [length seq combine]. rewrite !sum_cons. cbn [snd]. f_equal. apply IH.
Qed.
Lemma sum_states {A} (f : state A -> nat) (n : nfa A) : sum_of (fun s => f (get n s)) (seq 0 (length n)) = sum_of f n.
Proof.
  unfold get. induction n as [|s l IH] using rev_ind; [reflexivity|]. rewrite app_length, seq_app, !sum_app. cbn [length seq plus]. f_equal.
  - rewrite <- IH. unfold sum_of. f_equal. apply map_ext_in. intros i Hi. apply in_seq in Hi. now rewrite app_nth1 by lia.
  - unfold sum_of. cbn [map]. now rewrite app_nth2, Nat.sub_diag by lia.
Qed.
Lemma sum_sub {X} (f : X -> nat) (a b : list X) : NoDup a -> incl a b -> sum_of f a <= sum_of f b.
Proof. apply sum_incl. Qed.
Lemma sum_map {X Y} (f : Y -> nat) (h : X -> Y) l : sum_of f (map h l) = sum_of (fun x => f (h x)) l.
Proof. unfold sum_of. now rewrite map_map. Qed.

Lemma tfold_snd {S X} (f : S -> X -> ticks S) (k : X -> nat) l : (forall s x, In x l -> snd (f s x) <= k x) -> forall s, snd (tfold f l s) <= sum_of k l.
Proof.
  induction l as [|x l IH]; intros H s; [cbn; lia|]. rewrite sum_cons. cbn [tfold]. unfold tbind. cbn [snd]. assert (A := H s x (or_introl eq_refl)).
  assert (B := IH (fun s y Hy => H s y (or_intror Hy)) (fst (f s x))). lia.
Qed.
Lemma tfind_snd {X} (p : X -> bool) l : snd (tfind p l) <= length l.
Proof. induction l as [|x l IH]; cbn; [lia|]. destruct (p x); cbn; lia. Qed.
Lemma ordered_le a b l : length (ordered a b l) <= length l.
Proof.
  unfold ordered. rewrite !app_length. induction l as [|p l IH]; [now destruct a, b|]. cbn [filter length]. destruct a, b, (ep_start p), (ep_end p); cbn [andb negb length] in *; lia.
Qed.
Lemma ordered_sum f a b l : sum_of f (ordered a b l) <= sum_of f l.
Proof.
  unfold ordered. rewrite !sum_app. induction l as [|p l IH]; [now destruct a, b|]. cbn [filter]. rewrite (sum_cons f p l).
  destruct a, b, (ep_start p), (ep_end p); cbn [andb negb] in *; rewrite ?sum_cons in *; try change (sum_of f []) with 0 in *; lia.
Qed.

Section Flat.
  Context {A C : Type}.
  Variable check : A -> C -> bool.
  Variable width : C -> nat.
  Variable price : A -> nat.

  Lemma eps_test_snd tbl idx len l : snd (flat_eps_test_t tbl idx len l) <= length tbl + jumps tbl.
  Proof.
    unfold flat_eps_test_t. etransitivity; [apply (tfold_snd _ (fun x : nat * list eprop => 1 + length (snd x)))|].
    - intros s [i row] _. unfold spend. cbn [fst snd]. destruct (nth i s false); cbn [snd]; [|lia]. apply le_n_S. etransitivity; [apply (tfold_snd _ (fun _ => 1)); intros; cbn; lia|].
      rewrite sum_const. assert (X := ordered_le (idx =? 0) (idx =? len) row). lia.
    - rewrite (sum_enumerate (fun row : list eprop => 1 + length row)). unfold jumps. rewrite (sum_plus (fun _ => 1) (fun row : list eprop => length row)), sum_const, Nat.mul_1_l. apply Nat.le_refl.
  Qed.
  Lemma sym_test_snd n l c : snd (flat_sym_test_t check price n l c) <= 2 * length n + evaluation price n.
  Proof.
    clear width. unfold flat_sym_test_t, spend. cbn [snd].
    assert (X : forall l0, snd (tfold (fun new (x : nat * state A) => spend 1 (if nth (fst x) l false
       then tfold (fun new t => if check (snd t) c then (upd (fst t) true new, 1 + price (snd t)) else (new, price (snd t))) (trans (snd x)) new else (new, 0))) (enumerate n) l0)
       <= sum_of (fun x : nat * state A => 1 + sum_of (fun t => 1 + price (snd t)) (trans (snd x))) (enumerate n)).
    { apply tfold_snd. intros s [i st] _. unfold spend. cbn [fst snd]. destruct (nth i l false); cbn [snd]; [|lia]. apply le_n_S. apply tfold_snd. intros new t _. destruct (check (snd t) c); cbn [snd]; lia. }
    specialize (X (repeat false (length n))). rewrite (sum_enumerate (fun st : state A => 1 + sum_of (fun t => 1 + price (snd t)) (trans st))) in X.
    rewrite (sum_plus (fun _ => 1)), sum_const in X. unfold evaluation. unfold spend in X. lia.
  Qed.
  Lemma test_loop_snd n tbl len text : length tbl = length n -> forall idx l,
    snd (flat_test_loop_t check width price n tbl len idx l text) <= 1 + length text * (1 + 4 * length n + evaluation price n + jumps tbl).
  Proof.
    intros Hl. induction text as [|c text IH]; intros idx l; cbn [flat_test_loop_t]; [cbn; lia|]. unfold tbind, spend. cbn [fst snd]. assert (X := sym_test_snd n l c).
    destruct (forallb negb _); cbn [snd length]; [lia|]. assert (Y := eps_test_snd tbl (idx + width c) len (fst (flat_sym_test_t check price n l c))).
    specialize (IH (idx + width c) (fst (flat_eps_test_t tbl (idx + width c) len (fst (flat_sym_test_t check price n l c))))). cbn [Nat.mul]. lia.
  Qed.
  Lemma run_test_snd n tbl text : length tbl = length n ->
    snd (flat_run_test_t check width price n tbl text) <= (1 + length text) * (1 + 4 * length n + evaluation price n + jumps tbl).
  Proof.
    intros Hl. unfold flat_run_test_t, spend, tbind. cbn [snd]. match goal with |- _ + (snd ?u + snd ?v) <= _ => assert (X : snd u <= length tbl + jumps tbl) by apply eps_test_snd;
      assert (Y : snd v <= 1 + length text * (1 + 4 * length n + evaluation price n + jumps tbl)) by (apply test_loop_snd, Hl) end. cbn [Nat.add Nat.mul] in *. lia.
  Qed.

  Variable n : nfa A.
  Variable tbl : list (list eprop).
  Hypothesis Hm : flat_make n = Ok tbl.
  Let g := num_capture_groups n.
  Let sized (ths : list thread) : Prop := Forall (fun th : thread => length (snd th) = g) ths.
  Let separate (ths : list thread) : Prop := NoDup (map fst ths) /\ forall s, In s (map fst ths) -> s < length n.

  Lemma eps_exec_snd idx len ths : sized ths -> snd (flat_eps_exec_t n tbl idx len ths) <= length n + length ths * (1 + copying g tbl).
  Proof.
    intros Hs. unfold flat_eps_exec_t, spend, tmap. cbn [snd]. apply Nat.add_le_mono_l. etransitivity; [apply (tfold_snd _ (fun _ => 1 + copying g tbl))|rewrite sum_const, Nat.mul_comm; apply Nat.le_refl].
    intros acc th Hth. cbn [snd]. apply le_n_S. assert (Eg : length (snd th) = g) by (unfold sized in Hs; rewrite Forall_forall in Hs; now apply Hs).
    etransitivity; [apply (tfold_snd _ (fun p => 2 + g + length (ep_tags p)))|].
    - intros [occ out] p _. unfold flat_push_t. destruct (nth (ep_state p) occ false); cbn [snd]; [lia|]. rewrite <- Eg. apply Nat.le_refl.
    - etransitivity; [apply ordered_sum|]. unfold copying. apply (sum_nth (fun row => sum_of (fun p => 2 + g + length (ep_tags p)) row)). reflexivity.
  Qed.
  Lemma sym_exec_snd ths c : sized ths -> separate ths -> snd (flat_sym_exec_t check price n ths c) <= length n + evaluation price n + g * arrows n.
  Proof.
    clear width. intros Hs [H1 H2]. unfold flat_sym_exec_t.
    etransitivity; [apply (tfold_snd _ (fun th : thread => 1 + sum_of (fun t => (1 + price (snd t)) + g) (trans (get n (fst th)))))|].
    - intros out th Hth. unfold spend. cbn [snd]. apply le_n_S. assert (Eg : length (snd th) = g) by (unfold sized in Hs; rewrite Forall_forall in Hs; now apply Hs).
      apply tfold_snd. intros o t _. destruct (check (snd t) c); cbn [snd]; [|lia]. rewrite <- Eg. apply Nat.le_refl.
    - etransitivity; [apply Nat.eq_le_incl, eq_sym, (sum_map (fun s => 1 + sum_of (fun t => (1 + price (snd t)) + g) (trans (get n s))) (@fst nat bounds) ths)|].
      etransitivity; [apply (sum_sub _ _ (seq 0 (length n)) H1); intros s Hi; apply in_seq; specialize (H2 s Hi); lia|].
      rewrite (sum_states (fun st => 1 + sum_of (fun t => (1 + price (snd t)) + g) (trans st))), (sum_plus (fun _ => 1)), sum_const.
      assert (X : sum_of (fun x : state A => sum_of (fun t : nat * A => 1 + price (snd t) + g) (trans x)) n = evaluation price n + g * arrows n); [|lia].
      unfold evaluation, arrows. clearbody g. clear. induction n as [|st l IH]; [cbn; lia|]. rewrite !sum_cons, IH, (sum_plus (fun t : nat * A => 1 + price (snd t))), sum_const. nia.
  Qed.
  Lemma exec_loop_snd len text : forall idx ths, sized ths -> separate ths ->
    snd (flat_exec_loop_t check width price n tbl len idx ths text) <= length text * (1 + 2 * length n + evaluation price n + arrows n * (1 + g + copying g tbl)).
  Proof using Hm.
    induction text as [|c text IH]; intros idx ths Hs Hp; cbn [flat_exec_loop_t]; [cbn; lia|]. unfold tbind, spend. cbn [fst snd]. rewrite sym_exec_fst, eps_exec_fst.
    assert (X := sym_exec_snd ths c Hs Hp). assert (F : length (flat_sym_exec check n ths c) <= arrows n) by (destruct Hp; exact (sym_few check n ths c ltac:(assumption) ltac:(assumption))).
    assert (Ss : sized (flat_sym_exec check n ths c)).
    { apply Forall_forall. intros x Hx. unfold flat_sym_exec in Hx. apply in_flat_map in Hx as (th & Hth & Hx). apply in_map_iff in Hx as (t & <- & _). cbn. unfold sized in Hs. rewrite Forall_forall in Hs. now apply Hs. }
    assert (Y := eps_exec_snd (idx + width c) len _ Ss). assert (Se := eps_same n tbl g (idx + width c) len _ Ss). assert (Pe := eps_apart n tbl Hm (idx + width c) len (flat_sym_exec check n ths c)).
    assert (L : snd (match flat_eps_exec n tbl (idx + width c) len (flat_sym_exec check n ths c) with [] => ([], 0) | _ => flat_exec_loop_t check width price n tbl len (idx + width c) (flat_eps_exec n tbl (idx + width c) len (flat_sym_exec check n ths c)) text end)
      <= length text * (1 + 2 * length n + evaluation price n + arrows n * (1 + g + copying g tbl))).
    { destruct (flat_eps_exec n tbl (idx + width c) len (flat_sym_exec check n ths c)) eqn:E; [apply Nat.le_0_l|]. rewrite <- E in *. apply IH; assumption. }
    assert (M := Nat.mul_le_mono_r _ _ (1 + copying g tbl) F). cbn [length Nat.mul].
    destruct (flat_eps_exec n tbl (idx + width c) len (flat_sym_exec check n ths c)); nia.
  Qed.
  Lemma run_exec_snd text : snd (flat_run_exec_t check width price n tbl text)
    <= 1 + g + 2 * length n + copying g tbl + length text * (1 + 2 * length n + evaluation price n + arrows n * (1 + g + copying g tbl)).
  Proof using Hm.
    unfold flat_run_exec_t, spend, tbind, tmap. cbn [fst snd]. rewrite eps_exec_fst, exec_loop_fst. set (len := total_width width text).
    assert (S0 : sized [(0, no_bounds (num_capture_groups n))]) by (constructor; [apply repeat_length|constructor]).
    assert (X := eps_exec_snd 0 len _ S0). assert (Se := eps_same n tbl g 0 len _ S0). assert (Pe := eps_apart n tbl Hm 0 len [(0, no_bounds (num_capture_groups n))]).
    assert (Y := exec_loop_snd len text 0 _ Se Pe). destruct (loop_few check width n tbl Hm len text (no_bounds (num_capture_groups n))) as [_ L].
    match goal with |- context [tfind ?p ?l] => assert (Z := tfind_snd p l) end. cbn [length] in X. change (num_capture_groups n) with g. change (num_capture_groups n) with g in X, Y, L, Z. assert (Q := Nat.le_trans _ _ _ Z L). clear - X Y Q. lia.
  Qed.
  Lemma run_exec_groups text b : flat_run_exec check width n tbl text = Some b -> length b = g.
  Proof.
    unfold flat_run_exec. intros Hb. match type of Hb with context [find ?p ?l] => destruct (find p l) as [th|] eqn:E; [|discriminate Hb]; assert (F : sized l) end.
    { apply loop_same, eps_same. constructor; [apply repeat_length|constructor]. }
    apply find_some in E as [E _]. unfold sized in F. rewrite Forall_forall in F. apply F in E. cbn in Hb. injection Hb as <-. exact E.
  Qed.
End Flat.

Lemma make_rows {A} (n : nfa A) tbl : flat_make n = Ok tbl -> length tbl = length n.
Proof.
  unfold flat_make. intros Hm. destruct (wfb n && (1 <=? length n)) eqn:E; [|discriminate Hm]. cbn [guard bind] in Hm. apply andb_prop in E as [E1 E2]. apply Nat.leb_le in E2.
  destruct (flat_table_spec n (proj1 (wfb_iff n) E1) E2) as (t & Et & Hl & _). rewrite Et in Hm. cbn [bind] in Hm. destruct (forallb _ t); [|discriminate Hm]. injection Hm as <-. exact Hl.
Qed.
Lemma finish_snd T (m : ticks (option bounds)) g : (forall b : bounds, fst m = Some b -> length b = g) -> snd (run_finish_t T m) <= snd m + 2 * g.
Proof. unfold run_finish_t. intros H. cbn [snd]. destruct (fst m) as [b|]; [|lia]. rewrite <- (H b eq_refl). apply Nat.le_refl. Qed.

(** Linear. *)
Lemma linear_le f h : (forall T, f T <= h T) -> linear h -> linear f.
Proof. intros H (K & HK). exists K. intros T. etransitivity; eauto. Qed.
Lemma linear_const k : linear (fun _ => k).
Proof. exists k. intros T. nia. Qed.
Lemma linear_plus f h : linear f -> linear h -> linear (fun T => f T + h T).
Proof. intros (K & HK) (L & HL). exists (K + L). intros T. specialize (HK T). specialize (HL T). nia. Qed.
Lemma linear_bytes a k : linear (fun T => a + length (utf8 T) * k).
Proof. exists (a + k). intros T. nia. Qed.
Lemma linear_chars a k : linear (fun T => a + length T * k).
Proof. exists (a + k). intros T. assert (X := utf8_le T). nia. Qed.

Lemma u8_test_linear n : linear (fun T => snd (flat_u8_test_t n T)).
Proof.
  unfold flat_u8_test_t. destruct (flat_make n) as [tbl| | |] eqn:E; try apply linear_const. eapply linear_le; [intros T; apply (run_test_snd _ _ _ _ _ _ (make_rows n tbl E))|].
  set (K := 1 + 4 * length n + _ + _). exists K. intros T. nia.
Qed.
Lemma char_test_linear n : linear (fun T => snd (flat_char_test_t n T)).
Proof.
  unfold flat_char_test_t. destruct (flat_make n) as [tbl| | |] eqn:E; try apply linear_const. eapply linear_le; [intros T; apply (run_test_snd _ _ _ _ _ _ (make_rows n tbl E))|].
  set (K := 1 + 4 * length n + _ + _). exists K. intros T. assert (X := utf8_le T). nia.
Qed.
Lemma u8_exec_linear n : linear (fun T => snd (flat_u8_exec_t n T)).
Proof.
  unfold flat_u8_exec_t. destruct (flat_make n) as [tbl| | |] eqn:E; try apply linear_const. eapply linear_le.
  - intros T. etransitivity; [apply (finish_snd _ _ (num_capture_groups n)); intros b Hb; rewrite run_exec_fst in Hb; exact (run_exec_groups _ _ n tbl _ b Hb)|]. apply Nat.add_le_mono_r. apply run_exec_snd, E.
  - apply linear_plus; [apply linear_bytes|apply linear_const].
Qed.
Lemma char_exec_linear n : linear (fun T => snd (flat_char_exec_t n T)).
Proof.
  unfold flat_char_exec_t. destruct (flat_make n) as [tbl| | |] eqn:E; try apply linear_const. eapply linear_le.
  - intros T. etransitivity; [apply (finish_snd _ _ (num_capture_groups n)); intros b Hb; rewrite run_exec_fst in Hb; exact (run_exec_groups _ _ n tbl _ b Hb)|]. apply Nat.add_le_mono_r. apply run_exec_snd, E.
  - apply linear_plus; [apply linear_chars|apply linear_const].
Qed.
