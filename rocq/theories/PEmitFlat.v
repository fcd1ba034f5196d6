(** The code generated for the lockstep engines computes what the model of the engines computes. *)
From Verif Require Export PCheck PEmitVm PStatic.
From Coq Require Import ZifyBool ZifyNat ZifyN.
Open Scope nat_scope.
Open Scope list_scope.
Set Default Proof Using "Type".

Local Notation block := Rust.block.
Definition enc_bools (l : list bool) : val := VArr (map VBool l).
Lemma block_fold {S T} text call (code : T -> stmt) (E : S -> env) (f : S -> T -> S) (Inv : S -> Prop) ts :
  (forall s t, In t ts -> Inv s -> exec text call (code t) (E s) = Ok (inl (E (f s t))) /\ Inv (f s t)) ->
  forall s, Inv s -> block text call (map code ts) (E s) = Ok (inl (E (fold_left f ts s))) /\ Inv (fold_left f ts s).
Proof.
  induction ts as [|t ts IH]; intros H s Hs; [auto|]. cbn [map fold_left]. rewrite block_cons. destruct (H s t (or_introl eq_refl) Hs) as [-> Hi]. cbn [bind].
  apply IH; [|assumption]. intros s' t' Ht'. apply H. now right.
Qed.
Lemma loop_fold {S T} (F : env -> res (env + val)) (E : S -> env) (b : T -> env) (f : S -> T -> S) (Inv : S -> Prop) ts :
  (forall s t, In t ts -> Inv s -> leave (E s) (F (b t ++ E s)) = Ok (inl (E (f s t))) /\ Inv (f s t)) ->
  forall s, Inv s -> loop F (map b ts) (E s) = Ok (inl (E (fold_left f ts s))) /\ Inv (fold_left f ts s).
Proof.
  induction ts as [|t ts IH]; intros H s Hs; [auto|]. cbn [map fold_left loop]. destruct (H s t (or_introl eq_refl) Hs) as [-> Hi]. cbn [bind].
  apply IH; [|assumption]. intros s' t' Ht'. apply H. now right.
Qed.
Lemma fold_filter {S T} (f : S -> T -> S) (p : T -> bool) ts : (forall s t, In t ts -> p t = false -> f s t = s) -> forall s, fold_left f (filter p ts) s = fold_left f ts s.
Proof.
  induction ts as [|t ts IH]; intros H s; [reflexivity|]. cbn [filter fold_left]. assert (IH' := IH (fun s t Ht => H s t (or_intror Ht))).
  destruct (p t) eqn:E; cbn [fold_left]; [apply IH'|]. rewrite (H s t (or_introl eq_refl) E). apply IH'.
Qed.
Lemma eval_flag text e x l i : look x e = Some (enc_bools l) -> i < length l -> eval text e (EIdx (EVar x) (ENum i)) = Ok (VBool (nth i l false)).
Proof. intros Hl Hi. cbn [eval]. unfold getv. rewrite Hl. cbn [need bind enc_bools as_list index]. now rewrite (map_nth_error VBool i l (nth_error_nth' l false Hi)). Qed.
Lemma exec_flag text call e x l i : look x e = Some (enc_bools l) -> i < length l ->
  exec text call (SSet x [AIdx (ENum i)] (EBool true)) e = Ok (inl (assign x (enc_bools (upd i true l)) e)).
Proof.
  intros Hl Hi. cbn [exec eval bind]. unfold getv. rewrite Hl. cbn [need bind mapM access_val eval store enc_bools as_list index].
  rewrite (map_nth_error VBool i l (nth_error_nth' l false Hi)). cbn [bind]. rewrite upd_map. reflexivity.
Qed.
Lemma leave_same {S} (E : S -> env) s s' : length (E s) = length (E s') -> leave (E s) (Ok (inl (E s'))) = Ok (inl (E s')).
Proof. intros H. now apply leave_all. Qed.
Lemma exec_groups_if {S} text call up (E : S -> env) (f : S -> eprop -> S) (Inv : S -> Prop) l c b s :
  (forall s s', length (E s) = length (E s')) -> eval text (E s) c = Ok (VBool b) ->
  (forall s p, In p l -> Inv s -> exec text call (up p) (E s) = Ok (inl (E (f s p))) /\ Inv (f s p)) -> Inv s ->
  exec text call (SIf c (map up l) []) (E s) = Ok (inl (E (fold_left f (if b then l else []) s))) /\ Inv (fold_left f (if b then l else []) s).
Proof.
  intros HE Hc Hup Hs. rewrite exec_if, Hc. cbn [bind as_bool]. destruct b; cbn [fold_left].
  - destruct (block_fold text call up E f Inv l Hup s Hs) as [-> HI]. split; [apply leave_same, HE|exact HI].
  - split; [apply leave_same; reflexivity|exact Hs].
Qed.
Lemma block_groups {S} text call up (E : S -> env) (f : S -> eprop -> S) (Inv : S -> Prop) l st en :
  (forall s s', length (E s) = length (E s')) ->
  (forall s, look Xis_start (E s) = Some (VBool st)) -> (forall s, look Xis_end (E s) = Some (VBool en)) ->
  (forall s p, In p l -> Inv s -> exec text call (up p) (E s) = Ok (inl (E (f s p))) /\ Inv (f s p)) ->
  forall s, Inv s -> block text call (groups_code up l) (E s) = Ok (inl (E (fold_left f (ordered st en l) s))) /\ Inv (fold_left f (ordered st en l) s).
Proof.
  intros HE Hst Hen Hup s Hs. unfold groups_code, ordered.
  assert (G : forall q s p, In p (filter q l) -> Inv s -> exec text call (up p) (E s) = Ok (inl (E (f s p))) /\ Inv (f s p)).
  { intros q s0 p Hp. apply Hup. now apply filter_In in Hp. }
  cbn [app]. rewrite !fold_left_app.
  rewrite block_cons. destruct (exec_groups_if text call up E f Inv (filter (fun p => ep_start p && ep_end p) l) (EAnd (EVar Xis_start) (EVar Xis_end)) (st && en) s HE) as [-> H1]; [|apply G|assumption|].
  { cbn [eval]. unfold getv. rewrite Hst, Hen. cbn [need bind as_bool]. now destruct st. }
  cbn [bind]. rewrite block_cons. match goal with |- context [E ?x] => set (s1 := x) in * end. clearbody s1.
  destruct (exec_groups_if text call up E f Inv (filter (fun p => ep_start p && negb (ep_end p)) l) (EVar Xis_start) st s1 HE) as [-> H2]; [|apply G|assumption|].
  { cbn [eval]. unfold getv. now rewrite Hst. }
  cbn [bind]. rewrite block_cons. match goal with |- context [E ?x] => set (s2 := x) in * end. clearbody s2.
  destruct (exec_groups_if text call up E f Inv (filter (fun p => negb (ep_start p) && ep_end p) l) (EVar Xis_end) en s2 HE) as [-> H3]; [|apply G|assumption|].
  { cbn [eval]. unfold getv. now rewrite Hen. }
  cbn [bind]. apply block_fold; [apply G|assumption].
Qed.

(** What is needed of the automaton and the table *)
Record flat_fit {A} (n : nfa A) (tbl : list (list eprop)) : Prop := {
  ff_len : 1 <= length n;
  ff_tbl : length tbl = length n;
  ff_to : forall s t, In t (trans (get n s)) -> fst t < length n /\ nth (fst t) (flat_excluded n) true = false;
  ff_in : forall s p, In p (nth s tbl []) -> ep_state p < length n /\ nth (ep_state p) (flat_excluded n) true = false;
  ff_out : forall s, s < length n -> nth s (flat_excluded n) true = true -> trans (get n s) = [] /\ nth s tbl [] = [];
  ff_zero : nth 0 (flat_excluded n) true = false;
  ff_last : nth (length n - 1) (flat_excluded n) true = false }.

Section Flat.
  Context {A : Type}.
  Variables (check : A -> N -> bool) (width : N -> nat).
  Variables (sym_code : A -> rexp) (t_sym : ty) (vsym : N -> val) (it : Rust.iter) (next : rexp).
  Variables (text T : list N).
  Fixpoint indexed (i : nat) (l : list N) : list (nat * N) :=
    match l with [] => [] | c :: r => (i, c) :: indexed (i + width c) r end.
  Hypothesis Hsym : forall e a c, look Xc e = Some (vsym c) -> eval text e (sym_code a) = Ok (VBool (check a c)).
  Hypothesis Hit : forall e, rounds text e it = Ok (map (fun '(i, c) => [(Xc, vsym c); (Xi, VNum i)]) (indexed 0 T)).
  Hypothesis Hnext : forall e i c, look Xi e = Some (VNum i) -> look Xc e = Some (vsym c) -> eval text e next = Ok (VNum (i + width c)).
  Hypothesis Htext : total_width width T = blen text.
  Variables (n : nfa A) (tbl : list (list eprop)).
  Hypothesis HF : flat_fit n tbl.
  Notation ex := (flat_excluded n).
  Notation g := (num_capture_groups n).
  Notation k := (length n).

  Lemma get_enum i s : In (i, s) (enumerate n) -> i < k /\ s = get n i.
  Proof. intros H. apply In_enumerate in H. split; [apply nth_error_Some; congruence|]. symmetry. now apply nth_error_nth. Qed.
  Lemma tbl_enum i ps : In (i, ps) (enumerate tbl) -> i < k /\ ps = nth i tbl [].
  Proof using HF. intros H. apply In_enumerate in H. split; [rewrite <- (ff_tbl _ _ HF); apply nth_error_Some; congruence|]. symmetry. now apply nth_error_nth. Qed.

  (** *** test *)
  Notation procs := [sym_test_proc sym_code t_sym n; eps_test_proc n tbl].
  Lemma call_sym_test l c : length l = k ->
    call_proc text procs 0 [enc_bools l; enc_bools (repeat false k)] [vsym c] = Ok [enc_bools l; enc_bools (flat_sym_test check n l c)].
  Proof using HF Hsym.
    intros Hl. unfold call_proc. cbn [nth_error sym_test_proc pr_refs pr_vals pr_body bind_params length Nat.eqb map fst combine rev app bind].
    set (E := fun m => [(Xc, vsym c); (Xnew_list, enc_bools m); (Xlist, enc_bools l)]).
    set (f := fun new (p : nat * state A) => let '(from, s) := p in if nth from l false then fold_left (fun new t => if check (snd t) c then upd (fst t) true new else new) (trans s) new else new).
    assert (Hin : forall i s t, In (i, s) (enumerate n) -> In t (trans s) -> fst t < k).
    { intros i s t Hp Ht. apply get_enum in Hp as [Hi ->]. apply (ff_to _ _ HF i t Ht). }
    destruct (block_fold text no_call (fun p : nat * state A => SIf (EIdx (EVar Xlist) (ENum (fst p)))
                       (map (fun t => SIf (sym_code (snd t)) [SSet Xnew_list [AIdx (ENum (fst t))] (EBool true)] []) (trans (snd p))) [])
              E f (fun m => length m = k) (kept ex n)) with (s := repeat false k) as [B _].
    - intros m [i s] Hp Hm. apply filter_In in Hp as [Hp _]. cbn [fst snd]. assert (Hi := proj1 (get_enum i s Hp)).
      rewrite exec_if, (eval_flag _ _ _ l) by (reflexivity || now rewrite Hl). cbn [bind as_bool]. unfold f. destruct (nth i l false).
      + destruct (block_fold text no_call (fun t : nat * A => SIf (sym_code (snd t)) [SSet Xnew_list [AIdx (ENum (fst t))] (EBool true)] [])
                 E (fun new t => if check (snd t) c then upd (fst t) true new else new) (fun m => length m = k) (trans s)) with (s := m) as [-> Hm'].
        * intros m' t Ht Hm'. assert (Htk := Hin i s t Hp Ht). rewrite exec_if, (Hsym _ _ c) by reflexivity. cbn [bind as_bool]. destruct (check (snd t) c).
          -- rewrite block_one, (exec_flag _ _ _ _ m') by (reflexivity || now rewrite Hm'). split; [|now rewrite upd_length].
             unfold E at 2. cbn [assign var_eqb]. apply leave_all. reflexivity.
          -- split; [|assumption]. now apply leave_all.
        * assumption.
        * split; [|assumption]. now apply leave_all.
      + split; [|assumption]. now apply leave_all.
    - apply repeat_length.
    - fold (E (repeat false k)). rewrite B. cbn [bind]. rewrite (leave_same E) by reflexivity. cbn [bind mapM fst]. unfold E at 1 2. cbn [getv look var_eqb need bind].
      unfold kept. rewrite (fold_filter f).
      + reflexivity.
      + intros m [i s] Hp He. cbn [fst] in He. apply negb_false_iff in He. apply get_enum in Hp as [Hi ->]. unfold f. destruct (ff_out _ _ HF i Hi He) as [-> _]. cbn [fold_left]. now destruct (nth i l false).
  Qed.
  Lemma call_eps_test l idx len : length l = k ->
    call_proc text procs 1 [enc_bools l] [VNum idx; VNum len] = Ok [enc_bools (flat_eps_test tbl idx len l)].
  Proof using HF.
    clear Hsym Hit Hnext Htext. intros Hl. unfold call_proc. cbn [nth_error eps_test_proc pr_refs pr_vals pr_body bind_params length Nat.eqb map fst combine rev app bind].
    set (E := fun m => [(Xis_end, VBool (idx =? len)); (Xis_start, VBool (idx =? 0)); (Xlen, VNum len); (Xidx, VNum idx); (Xlist, enc_bools m)]).
    set (f := fun m (p : nat * list eprop) => let '(i, ps) := p in if nth i m false then fold_left (fun l p => upd (ep_state p) true l) (ordered (idx =? 0) (idx =? len) ps) m else m).
    destruct (block_fold text no_call (fun p : nat * list eprop => SIf (EIdx (EVar Xlist) (ENum (fst p))) (groups_code mark_code (snd p)) [])
              E f (fun m => length m = k) (kept ex tbl)) with (s := l) as [B _]; [|assumption|].
    - intros m [i ps] Hp Hm. apply filter_In in Hp as [Hp _]. cbn [fst snd]. assert (Hi := tbl_enum i ps Hp). destruct Hi as [Hi Eps].
      rewrite exec_if, (eval_flag _ _ _ m) by (reflexivity || now rewrite Hm). cbn [bind as_bool]. unfold f. destruct (nth i m false).
      + destruct (block_groups text no_call mark_code E (fun l p => upd (ep_state p) true l) (fun m => length m = k) ps (idx =? 0) (idx =? len)) with (s := m) as [-> Hm'].
        * reflexivity.
        * reflexivity.
        * reflexivity.
        * intros m' p Hpp Hm'. subst ps. destruct (ff_in _ _ HF i p Hpp) as [P1 _]. unfold mark_code. rewrite (exec_flag _ _ _ _ m') by (reflexivity || now rewrite Hm').
          split; [reflexivity|now rewrite upd_length].
        * assumption.
        * split; [|assumption]. now apply leave_all.
      + split; [|assumption]. now apply leave_all.
    - unfold is_code. cbn [app]. rewrite !block_cons. cbn [exec eval getv look var_eqb need bind num_eqb]. rewrite block_cons. cbn [exec eval getv look var_eqb need bind num_eqb].
      fold (E l). rewrite B. unfold E at 1. cbn [bind]. drop. cbn [mapM fst getv look var_eqb need bind].
      unfold kept. rewrite (fold_filter f).
      + reflexivity.
      + intros m [i ps] Hp He. cbn [fst] in He. apply negb_false_iff in He. apply tbl_enum in Hp as [Hi ->]. unfold f. destruct (ff_out _ _ HF i Hi He) as [_ ->].
        unfold ordered. cbn [filter]. destruct (idx =? 0), (idx =? len); cbn [andb app fold_left]; now destruct (nth i m false).
  Qed.
  Lemma sym_test_length l c : length (flat_sym_test check n l c) = k.
  Proof.
    unfold flat_sym_test, step_symbols. rewrite fold_length; [apply repeat_length|]. intros m [i s]. destruct (nth i l false); [|reflexivity].
    apply fold_length. intros m' t. destruct (check (snd t) c); [apply upd_length|reflexivity].
  Qed.
  Lemma eps_test_length idx len l : length (flat_eps_test tbl idx len l) = length l.
  Proof. unfold flat_eps_test. apply fold_length. intros m [i ps]. destruct (nth i m false); [|reflexivity]. apply fold_length. intros. apply upd_length. Qed.
  Lemma enc_repeat m : VArr (repeat (VBool false) m) = enc_bools (repeat false m).
  Proof. unfold enc_bools. f_equal. induction m; cbn; [reflexivity|]. now f_equal. Qed.
  Lemma eval_all_not e x l : look x e = Some (enc_bools l) -> eval text e (EAllNot (EVar x)) = Ok (VBool (forallb negb l)).
  Proof.
    intros H. cbn [eval]. unfold getv. rewrite H. cbn [need bind enc_bools as_list].
    assert (E : mapM as_bool (map VBool l) = Ok l); [|rewrite E; reflexivity]. clear H. induction l as [|b l IH]; [reflexivity|]. cbn [map mapM as_bool bind]. now rewrite IH.
  Qed.
  Lemma fill_false l : map (fun _ : val => VBool false) (map VBool l) = repeat (VBool false) (length l).
  Proof. induction l; cbn; [reflexivity|]. now f_equal. Qed.
  Lemma test_loop_code : forall Ts i l, length l = k ->
    (do o <- loop (fun e => block text (call_proc text procs)
          [SCall 0 [Xlist; Xnew_list] [EVar Xc];
           SIf (EAllNot (EVar Xnew_list)) [SRet (EBool false)] [];
           SSwap Xlist Xnew_list;
           SCall 1 [Xlist] [next; ELen];
           SFill Xnew_list] e)
        (map (fun '(i, c) => [(Xc, vsym c); (Xi, VNum i)]) (indexed i Ts)) [(Xnew_list, enc_bools (repeat false k)); (Xlist, enc_bools l)];
     match o with
     | inl e => block text (call_proc text procs) [SRet (EIdx (EVar Xlist) (ENum (k - 1)))] e
     | inr v => Ok (inr v)
     end) = Ok (inr (VBool (flat_test_loop check width n tbl (blen text) i l Ts))).
  Proof using HF Hsym Hnext.
    clear Hit Htext. assert (Hk := ff_len _ _ HF).
    induction Ts as [|c Ts IH]; intros i l Hl.
    - cbn [indexed map loop bind flat_test_loop]. rewrite block_one. cbn [exec]. rewrite (eval_flag _ _ _ l) by (reflexivity || (rewrite Hl; lia)). reflexivity.
    - cbn [indexed map loop flat_test_loop app].
      rewrite block_cons. cbn [exec mapM getv look var_eqb need bind eval]. rewrite call_sym_test by assumption. cbn [bind length Nat.eqb combine fold_left fst snd assign var_eqb].
      rewrite block_cons, exec_if, (eval_all_not _ _ (flat_sym_test check n l c)) by reflexivity. cbn [bind as_bool].
      set (new := flat_sym_test check n l c). assert (Hn : length new = k) by apply sym_test_length. destruct (forallb negb new); [reflexivity|].
      cbn [Rust.block]. rewrite leave_all by reflexivity. cbn [bind].
      cbn [exec getv look var_eqb need bind assign]. cbn [exec mapM getv look var_eqb need bind]. rewrite (Hnext _ i c) by reflexivity. cbn [bind eval].
      rewrite call_eps_test by assumption. cbn [bind length Nat.eqb combine fold_left fst snd assign var_eqb].
      cbn [exec getv look var_eqb need bind enc_bools as_list assign]. rewrite fill_false, Hl, enc_repeat. drop.
      apply (IH (i + width c) (flat_eps_test tbl (i + width c) (blen text) new)). now rewrite eps_test_length.
  Qed.
  Lemma flat_test_code_run : run_func (flat_test_code sym_code t_sym it next n tbl) text [] = Ok (VBool (flat_run_test check width n tbl T)).
  Proof using HF Hsym Hnext Hit Htext.
    assert (Hk := ff_len _ _ HF).
    assert (G := test_loop_code T 0 (flat_eps_test tbl 0 (blen text) (upd 0 true (repeat false k)))). rewrite eps_test_length, upd_length, repeat_length in G. specialize (G eq_refl).
    unfold run_func, flat_test_code. cbn [f_args f_body f_procs bind_params length Nat.eqb bind map combine rev app].
    rewrite !block_cons. cbn [exec eval bind]. rewrite !enc_repeat. rewrite block_cons. cbn [exec eval bind]. rewrite enc_repeat.
    rewrite block_cons, (exec_flag _ _ _ _ (repeat false k)) by (reflexivity || (rewrite repeat_length; lia)). cbn [assign var_eqb bind].
    rewrite block_cons. cbn [exec mapM getv look var_eqb need bind eval]. rewrite call_eps_test by (rewrite upd_length; apply repeat_length).
    cbn [bind length Nat.eqb combine fold_left fst snd assign var_eqb]. rewrite block_cons, exec_for, Hit. cbn [bind]. rewrite G. cbn [bind].
    unfold flat_run_test. now rewrite Htext.
  Qed.

  (** *** exec *)
  Definition enc_thread (th : thread) : val := VPair (VCon (LNum (fst th)) None) (enc_bounds (snd th)).
  Definition enc_threads (l : list thread) : val := VArr (map enc_thread l).
  Definition thread_ok (th : thread) : Prop := fst th < k /\ nth (fst th) ex true = false /\ length (snd th) = g.
  Hypothesis Htags : forall s p t, In p (nth s tbl []) -> In t (ep_tags p) -> tag_group t < g.
  Notation eprocs := [sym_exec_proc sym_code t_sym n; eps_exec_proc n tbl].
  Lemma kept_match {X} call (B : nat * X -> list stmt) (l : list X) dft s e : s < length l -> nth s ex true = false ->
    tries text call (VCon (LNum s) None) None e (map (fun p => (mkPat (LNum (fst p)) None None, None, B p)) (kept ex l)) None
    = leave e (block text call (B (s, nth s l dft)) e).
  Proof.
    intros Hs He. rewrite tries_filter.
    assert (E : forall M, map (fun p : nat * X => (mkPat (LNum (fst p)) None None, @None rexp, B p)) M = flat_map (fun p => [(mkPat (LNum (fst p)) None None, None, B p)] : list arm) M).
    { induction M as [|y M IH]; cbn; [reflexivity|]. now rewrite IH. }
    rewrite E. rewrite (kept_pick (fun p => [(mkPat (LNum (fst p)) None None, None, B p)] : list arm) ex l dft s Hs He).
    - rewrite tries_cons. unfold fit. cbn [p_label p_bind p_range fst]. rewrite label_refl. reflexivity.
    - intros y a [<-|[]]. reflexivity.
  Qed.
  Lemma push_thread l th : VArr (map enc_thread l ++ [enc_thread th]) = enc_threads (l ++ [th]).
  Proof. unfold enc_threads. now rewrite map_app. Qed.
  Lemma call_sym_exec ths c : Forall thread_ok ths ->
    call_proc text eprocs 0 [enc_threads ths; enc_threads []] [vsym c] = Ok [enc_threads ths; enc_threads (flat_sym_exec check n ths c)].
  Proof using HF Hsym.
    intros Hths. unfold call_proc. cbn [nth_error sym_exec_proc pr_refs pr_vals pr_body bind_params length Nat.eqb map fst combine rev app bind].
    set (E := fun m => [(Xc, vsym c); (Xnew_threads, enc_threads m); (Xthreads, enc_threads ths)]).
    set (F := fun th : thread => map (fun t : nat * A => (fst t, snd th)) (filter (fun t => check (snd t) c) (trans (get n (fst th))))).
    rewrite block_one, exec_for. cbn [rounds eval getv look var_eqb need bind enc_threads as_list]. rewrite map_map.
    destruct (loop_fold (fun e => block text no_call [SMatch (EField false (EVar Xthread)) None
            (map (fun p => (mkPat (LNum (fst p)) None None, None,
                            map (fun t => SIf (sym_code (snd t))
                                            [SPush Xnew_threads (EPair (ECon (LNum (fst t)) None) (EField true (EVar Xthread)))] [])
                                (trans (snd p)))) (kept ex n)) None] e)
          E (fun th => [(Xthread, enc_thread th)]) (fun m th => m ++ F th) (fun _ => True) ths) with (s := @nil thread) as [L _]; [|exact I|].
    - intros m th Hth _. split; [|exact I]. rewrite Forall_forall in Hths. destruct (Hths th Hth) as (T1 & T2 & _).
      rewrite block_one, exec_match. cbn [eval getv look var_eqb need bind app enc_thread].
      rewrite (kept_match no_call _ n empty_state (fst th)) by assumption. cbn [snd].
      set (E' := fun m => (Xthread, enc_thread th) :: E m).
      destruct (block_fold text no_call (fun t : nat * A => SIf (sym_code (snd t)) [SPush Xnew_threads (EPair (ECon (LNum (fst t)) None) (EField true (EVar Xthread)))] [])
           E' (fun m t => if check (snd t) c then m ++ [(fst t, snd th)] else m) (fun _ => True) (trans (get n (fst th)))) with (s := m) as [B _]; [|exact I|].
      + intros m' t _ _. split; [|exact I]. rewrite exec_if, (Hsym _ _ c) by reflexivity. cbn [bind as_bool]. destruct (check (snd t) c); [|now apply leave_all].
        rewrite block_one. unfold E' at 1 2. unfold E. unfold enc_threads. cbn [exec eval getv look var_eqb need bind enc_thread as_list assign].
        match goal with |- context [map enc_thread m' ++ [?v]] => change v with (enc_thread (fst t, snd th)) end. rewrite push_thread.
        apply leave_all. reflexivity.
      + change ((Xthread, enc_thread th) :: E m) with (E' m).
        match type of B with ?X = _ => match goal with |- context [Rust.block ?t ?c ?l (E' m)] => change (Rust.block t c l (E' m)) with X end end. rewrite B.
        rewrite (leave_same E') by reflexivity. unfold E'. rewrite leave_cons by reflexivity. rewrite leave_all by reflexivity.
        do 3 f_equal. clear. unfold F. generalize (trans (get n (fst th))). intros l. revert m. induction l as [|t l IH]; intros m; cbn [fold_left filter map]; [now rewrite app_nil_r|].
        destruct (check (snd t) c); [|apply IH]. rewrite IH. cbn [map]. now rewrite <- app_assoc.
    - match type of L with ?X = _ => match goal with |- context [loop ?t ?c ?e] => change (loop t c e) with X; change e with (E []) end end. rewrite L. rewrite (leave_same E) by reflexivity. cbn [bind mapM fst]. unfold E. cbn [getv look var_eqb need bind].
      do 4 f_equal. assert (G : forall l m, fold_left (fun m th => m ++ F th) l m = m ++ flat_map F l).
      { clear. induction l as [|x l IH]; intros m; cbn; [now rewrite app_nil_r|]. rewrite IH. now rewrite <- app_assoc. }
      rewrite G. reflexivity.
  Qed.
  Lemma sym_exec_ok ths c : Forall thread_ok ths -> Forall thread_ok (flat_sym_exec check n ths c).
  Proof using HF.
    intros H. unfold flat_sym_exec. apply Forall_forall. intros th Hin. apply in_flat_map in Hin as (th0 & H0 & Hin). rewrite Forall_forall in H. destruct (H th0 H0) as (_ & _ & H3).
    apply in_map_iff in Hin as (t & <- & Ht). apply filter_In in Ht as [Ht _]. destruct (ff_to _ _ HF _ t Ht) as [T1 T2]. repeat split; assumption.
  Qed.
  Definition push_inv (r : list bool * list thread) : Prop := length (fst r) = k /\ Forall thread_ok (snd r).
  Lemma exec_push ths len th p idx r : length (snd th) = g -> ep_state p < k -> nth (ep_state p) ex true = false ->
    (forall t, In t (ep_tags p) -> tag_group t < g) -> push_inv r ->
    let E := fun r : list bool * list thread =>
      [(Xthread, enc_thread th); (Xoccupied, enc_bools (fst r)); (Xis_end, VBool (idx =? len)); (Xis_start, VBool (idx =? 0));
       (Xlen, VNum len); (Xidx, VNum idx); (Xnew_threads, enc_threads (snd r)); (Xthreads, enc_threads ths)] in
    exec text no_call (push_code g p) (E r) = Ok (inl (E (flat_push idx (snd th) r p))) /\ push_inv (flat_push idx (snd th) r p).
  Proof.
    intros Hb Hp He Ht [Hr1 Hr2] E. destruct r as [occ out]. cbn [fst snd] in *. unfold flat_push, push_code.
    rewrite exec_if. cbn [eval]. assert (G := eval_flag text (E (occ, out)) Xoccupied occ (ep_state p) eq_refl). rewrite Hr1 in G. specialize (G Hp). cbn [eval] in G. rewrite G. clear G. cbn [bind as_bool].
    destruct (nth (ep_state p) occ false); cbn [negb]; [split; [now apply leave_all|split; assumption]|].
    split; [|split; [cbn [fst]; now rewrite upd_length|cbn [snd]; apply Forall_app; split; [assumption|constructor; [|constructor]]]].
    2: { repeat split; cbn [fst snd]; [assumption|assumption|]. now rewrite apply_tags_length. }
    unfold E at 2. cbn [fst snd app]. rewrite block_cons. cbn [exec eval getv look var_eqb need bind]. rewrite block_cons.
    cbn [exec eval getv look var_eqb need bind mapM access_val store enc_thread assign].
    rewrite block_app.
    rewrite (block_set_tags text no_call (fun b => VPair (VCon (LNum (ep_state p)) None) (enc_bounds b)) (apply_tag idx) Xnew_thread (fun _ => [AField true]) (EVar Xidx) (fun t => t) idx
        (fun b t => tag_group t < length b)) with (s := snd th).
    - cbn [bind assign var_eqb]. rewrite block_cons. cbn [exec eval getv look var_eqb need bind]. unfold enc_threads. cbn [as_list bind assign var_eqb]. rewrite block_one.
      rewrite (exec_flag _ _ _ _ occ) by (reflexivity || now rewrite Hr1). cbn [assign var_eqb].
      change (VPair (VCon (LNum (ep_state p)) None) (enc_bounds (fold_left (apply_tag idx) (ep_tags p) (snd th)))) with (enc_thread (ep_state p, apply_tags idx (ep_tags p) (snd th))).
      rewrite push_thread. unfold E. cbn [fst snd]. rewrite leave_cons by (cbn [length]; reflexivity). rewrite leave_all by reflexivity. reflexivity.
    - intros b t Hbt e' _ _. exists [inr true]. split; [reflexivity|]. cbn [app store]. rewrite store_tag by assumption. reflexivity.
    - intros b t t' _ H. now rewrite apply_tag_length.
    - reflexivity.
    - intros v. reflexivity.
    - apply Forall_forall. intros t Hin. rewrite Hb. now apply Ht.
  Qed.
  Lemma ordered_part a b (l : list eprop) p : In p (ordered a b l) -> In p l.
  Proof. unfold ordered. rewrite !in_app_iff. intros H. destruct a, b; cbn [andb] in H; rewrite ?filter_In in H; cbn [In] in H; tauto. Qed.
  Lemma eps_exec_inv idx len ths : Forall thread_ok ths -> Forall thread_ok (flat_eps_exec n tbl idx len ths).
  Proof using HF Htags text.
    clear Hsym Hit Hnext Htext. intros Hths. unfold flat_eps_exec.
    assert (G : forall l r, Forall thread_ok l -> push_inv r ->
      push_inv (fold_left (fun acc th => fold_left (flat_push idx (snd th)) (ordered (idx =? 0) (idx =? len) (nth (fst th) tbl [])) acc) l r)).
    { induction l as [|th l IH]; intros r Hl Hr; [exact Hr|]. inversion_clear Hl as [|? ? (T1 & T2 & T3) Hl']. cbn [fold_left]. apply IH; [assumption|].
      assert (Hin : forall p, In p (ordered (idx =? 0) (idx =? len) (nth (fst th) tbl [])) -> In p (nth (fst th) tbl [])) by (intros p; apply ordered_part).
      revert r Hr Hin. generalize (ordered (idx =? 0) (idx =? len) (nth (fst th) tbl [])). intros qs. induction qs as [|p ps IHp]; intros r Hr Hin; [exact Hr|]. cbn [fold_left].
      apply IHp; [|intros q Hq; apply Hin; now right].
      assert (Hp := Hin p (or_introl eq_refl)). destruct (ff_in _ _ HF _ _ Hp) as [P1 P2].
      apply (proj2 (exec_push [] 0 th p idx r T3 P1 P2 (fun t => Htags _ p t Hp) Hr)). }
    apply (G ths (repeat false k, []) Hths). split; [apply repeat_length|constructor].
  Qed.
  Lemma call_eps_exec ths idx len : Forall thread_ok ths ->
    call_proc text eprocs 1 [enc_threads ths; enc_threads []] [VNum idx; VNum len] = Ok [enc_threads ths; enc_threads (flat_eps_exec n tbl idx len ths)].
  Proof using HF Htags.
    clear Hsym Hit Hnext Htext. intros Hths. unfold call_proc. cbn [nth_error eps_exec_proc pr_refs pr_vals pr_body bind_params length Nat.eqb map fst combine rev app bind].
    set (E := fun r : list bool * list thread =>
      [(Xoccupied, enc_bools (fst r)); (Xis_end, VBool (idx =? len)); (Xis_start, VBool (idx =? 0));
       (Xlen, VNum len); (Xidx, VNum idx); (Xnew_threads, enc_threads (snd r)); (Xthreads, enc_threads ths)]).
    unfold is_code. cbn [app]. rewrite block_cons. cbn [exec eval getv look var_eqb need bind num_eqb]. rewrite block_cons. cbn [exec eval getv look var_eqb need bind num_eqb].
    rewrite block_cons. cbn [exec eval getv look var_eqb need bind num_eqb]. rewrite enc_repeat.
    rewrite block_one, exec_for. cbn [rounds eval getv look var_eqb need bind enc_threads as_list]. rewrite map_map.
    destruct (loop_fold (fun e => block text no_call [SMatch (EField false (EVar Xthread)) None
                (map (fun p => (mkPat (LNum (fst p)) None None, None, groups_code (push_code g) (snd p)))
                     (kept (flat_excluded n) tbl)) None] e)
          E (fun th => [(Xthread, enc_thread th)])
          (fun acc th => fold_left (flat_push idx (snd th)) (ordered (idx =? 0) (idx =? len) (nth (fst th) tbl [])) acc) push_inv ths) with (s := (repeat false k, @nil thread)) as [L _].
    - intros r th Hth Hr. rewrite Forall_forall in Hths. destruct (Hths th Hth) as (T1 & T2 & T3).
      rewrite block_one, exec_match. cbn [eval getv look var_eqb need bind app enc_thread].
      rewrite (kept_match no_call _ tbl [] (fst th)) by (assumption || now rewrite (ff_tbl _ _ HF)). cbn [snd].
      set (E' := fun r => (Xthread, enc_thread th) :: E r).
      destruct (block_groups text no_call (push_code g) E' (flat_push idx (snd th)) push_inv (nth (fst th) tbl []) (idx =? 0) (idx =? len)) with (s := r) as [B Hr'].
      + reflexivity.
      + reflexivity.
      + reflexivity.
      + intros r' p Hp Hr'. destruct (ff_in _ _ HF _ _ Hp) as [P1 P2].
        exact (exec_push ths len th p idx r' T3 P1 P2 (fun t => Htags _ p t Hp) Hr').
      + assumption.
      + split; [|exact Hr']. change ((Xthread, enc_thread th) :: E r) with (E' r). rewrite B.
        rewrite (leave_same E') by reflexivity. unfold E'. rewrite leave_cons by reflexivity. apply leave_all. reflexivity.
    - split; [apply repeat_length|constructor].
    - match type of L with ?X = _ => match goal with |- context [loop ?t ?c ?e] => change (loop t c e) with X end end. rewrite L.
      unfold E at 1. drop. cbn [mapM fst getv look var_eqb need bind]. reflexivity.
  Qed.
  Lemma find_threads ths : find_state (LNum (k - 1)) (map enc_thread ths) = Ok (option_map enc_thread (find (fun th => fst th + 1 =? k) ths)).
  Proof using HF.
    clear Hsym Hit Hnext Htext. assert (Hk := ff_len _ _ HF). induction ths as [|th ths IH]; [reflexivity|]. cbn [map find_state state_is enc_thread bind find]. rewrite label_num.
    replace (fst th + 1 =? k) with (fst th =? k - 1) by lia. destruct (fst th =? k - 1); [reflexivity|exact IH].
  Qed.
  Lemma exec_loop_code : forall Ts i ths new, Forall thread_ok ths ->
    (do o <- loop (fun e => block text (call_proc text eprocs)
          [SClear Xnew_threads;
           SCall 0 [Xthreads; Xnew_threads] [EVar Xc];
           SSwap Xthreads Xnew_threads;
           SClear Xnew_threads;
           SCall 1 [Xthreads; Xnew_threads] [next; ELen];
           SSwap Xthreads Xnew_threads;
           SIf (EIsEmpty (EVar Xthreads)) [SRet ENothing] []] e)
        (map (fun '(i, c) => [(Xc, vsym c); (Xi, VNum i)]) (indexed i Ts)) [(Xnew_threads, enc_threads new); (Xthreads, enc_threads ths)];
     match o with
     | inl e => block text (call_proc text eprocs) (STry Xbounds (t_thread g) (EFind (EVar Xthreads) (LNum (k - 1)))
                 :: finish_code Xcaptures g (EField true (EVar Xbounds))) e
     | inr v => Ok (inr v)
     end) = do r <- run_finish text (option_map snd (find (fun th => fst th + 1 =? k) (flat_exec_loop check width n tbl (blen text) i ths Ts))); Ok (inr (enc_result r)).
  Proof using HF Hsym Hnext Htags.
    clear Hit Htext.
    induction Ts as [|c Ts IH]; intros i ths new Hths.
    - cbn [indexed map loop bind flat_exec_loop]. rewrite block_cons. cbn [exec eval getv look var_eqb need bind enc_threads as_list]. rewrite find_threads. cbn [bind].
      destruct (find (fun th => fst th + 1 =? k) ths) as [th|] eqn:Ef; cbn [option_map bind]; [|reflexivity]. apply find_some in Ef as [Hin _]. rewrite Forall_forall in Hths. destruct (Hths th Hin) as (_ & _ & T3).
      rewrite (block_finish _ _ _ _ _ _ (snd th)); [|now right|assumption|reflexivity]. cbn [run_finish]. destruct (finish text (snd th)); reflexivity.
    - cbn [indexed map loop flat_exec_loop app].
      assert (Hs := sym_exec_ok ths c Hths). assert (He := eps_exec_inv (i + width c) (blen text) _ Hs).
      rewrite block_cons. cbn [exec getv look var_eqb need bind enc_threads as_list assign]. fold (enc_threads ths). change (VArr []) with (enc_threads []).
      rewrite block_cons. cbn [exec mapM getv look var_eqb need bind eval]. rewrite call_sym_exec by assumption. cbn [bind length Nat.eqb combine fold_left fst snd assign var_eqb].
      rewrite block_cons. cbn [exec getv look var_eqb need bind assign].
      rewrite block_cons. cbn [exec getv look var_eqb need bind enc_threads as_list assign]. change (VArr []) with (enc_threads []).
      fold (enc_threads (flat_sym_exec check n ths c)).
      rewrite block_cons. cbn [exec mapM getv look var_eqb need bind]. rewrite (Hnext _ i c) by reflexivity. cbn [bind eval].
      rewrite call_eps_exec by assumption. cbn [bind length Nat.eqb combine fold_left fst snd assign var_eqb].
      rewrite block_cons. cbn [exec getv look var_eqb need bind assign].
      set (out := flat_eps_exec n tbl (i + width c) (blen text) (flat_sym_exec check n ths c)) in *. clearbody out.
      rewrite block_one, exec_if. cbn [eval getv look var_eqb need bind enc_threads as_list].
      destruct out as [|th out]; cbn [map as_bool bind]; [reflexivity|].
      cbn [Rust.block]. rewrite leave_all by reflexivity. drop.
      change (VArr (enc_thread th :: map enc_thread out)) with (enc_threads (th :: out)). apply IH. assumption.
  Qed.
  Lemma flat_exec_code_run : run_func (flat_exec_code sym_code t_sym it next n tbl) text []
    = do r <- run_finish text (flat_run_exec check width n tbl T); Ok (enc_result r).
  Proof using HF Hsym Hnext Hit Htext Htags.
    assert (H0 : Forall thread_ok [(0, no_bounds g)]).
    { constructor; [|constructor]. assert (Hk := ff_len _ _ HF). split; [exact Hk|]. split; [apply (ff_zero _ _ HF)|apply repeat_length]. }
    assert (G := exec_loop_code T 0 (flat_eps_exec n tbl 0 (blen text) [(0, no_bounds g)]) [(0, no_bounds g)] (eps_exec_inv 0 (blen text) _ H0)).
    unfold run_func, flat_exec_code. cbn [f_args f_body f_procs bind_params length Nat.eqb bind map combine rev app].
    rewrite block_cons. cbn [exec eval bind]. rewrite block_cons. cbn [exec eval bind].
    rewrite block_cons. cbn [exec eval getv look var_eqb need bind as_list assign app e_bounds]. rewrite enc_no_bounds.
    change (VArr [VPair (VCon (LNum 0) None) (enc_bounds (no_bounds g))]) with (enc_threads [(0, no_bounds g)]). change (VArr []) with (enc_threads []).
    rewrite block_cons. cbn [exec mapM getv look var_eqb need bind eval]. rewrite call_eps_exec by assumption.
    cbn [bind length Nat.eqb combine fold_left fst snd assign var_eqb].
    rewrite block_cons. cbn [exec getv look var_eqb need bind assign]. rewrite block_cons, exec_for, Hit. cbn [bind]. rewrite G.
    unfold flat_run_exec. rewrite Htext. destruct (run_finish _ _); reflexivity.
  Qed.
End Flat.
