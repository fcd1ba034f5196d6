(** The functions written by the macros only compute with positions in the text. *)
From Verif Require Export PWord EmitFn.
From Coq Require Import ZifyBool ZifyNat ZifyN.
Open Scope nat_scope.
Open Scope list_scope.
Set Default Proof Using "All".

Section Templates.
  Variable top : nat.
  Variable text : list N.
  Hypothesis Htop : blen text < top.
  Notation fine := (PWord.fine top).
  Notation sfine := (PWord.sfine top text).
  Notation sfines := (PWord.sfines top text).
  Lemma top_text : (blen text <? top) = true. Proof. apply Nat.ltb_lt. lia. Qed.
  Lemma top_pos i : i < blen text -> (i <? top) = true. Proof. intros H. apply Nat.ltb_lt. lia. Qed.
  Lemma top_zero : (0 <? top) = true. Proof. apply Nat.ltb_lt. lia. Qed.
  Definition stays (g : kctx) (s : stmt) : Prop := sfine s g = Some g.
  Lemma sfines_app g l m : Forall (stays g) l -> sfines m g = true -> sfines (l ++ m) g = true.
  Proof. intros H Hm. induction H as [|s l Hs H IH]; [exact Hm|]. cbn [app PWord.sfines]. now rewrite Hs. Qed.
  Lemma sfines_stay g l : Forall (stays g) l -> sfines l g = true.
  Proof. intros H. rewrite <- (app_nil_r l). now apply sfines_app. Qed.
  Lemma stay_if g a l m : fine g a = true -> sfines l g = true -> sfines m g = true -> stays g (SIf a l m).
  Proof. intros Ha Hl Hm. unfold stays. cbn [PWord.sfine]. change ((if fine g a && sfines l g && sfines m g then Some g else None) = Some g). now rewrite Ha, Hl, Hm. Qed.
  Lemma stay_for g it l : iter_all top text (fun b => sfines l (b ++ g)) g it = true -> stays g (SFor it l).
  Proof. intros Hl. unfold stays. cbn [PWord.sfine]. change ((if iter_all top text (fun b => sfines l (b ++ g)) g it then Some g else None) = Some g). now rewrite Hl. Qed.
  Lemma iter_enum P g : (forall i, i < blen text -> P [(Xc, KAny); (Xi, KLe i)] = true) -> iter_all top text P g IEnum = true.
  Proof.
    intros H. cbn [iter_all]. apply forallb_forall. intros [i c] Hin. apply H. cbn [fst]. unfold enumerate in Hin. apply in_combine_l in Hin. apply in_seq in Hin. rewrite (PRust.utf8_length text) in Hin. lia.
  Qed.
  Lemma iter_chars P g : (forall i c, i + len_utf8 c <= blen text -> P [(Xc, KChr c); (Xi, KLe i)] = true) -> iter_all top text P g IChars = true.
  Proof. intros H. cbn [iter_all]. apply forallb_forall. intros [i c] Hin. apply H. exact (indices_le checked top text Htop text 0 i c Hin). Qed.
  Lemma stay_match g a c arms other : fine g a = true -> match c with None => true | Some c => fine g c end = true -> match other with None => true | Some l => sfines l g end = true ->
    Forall (fun r : arm => match snd (fst r) with None => true | Some h => fine (pat_kinds (fst (fst r)) ++ g) h end = true /\ sfines (snd r) (pat_kinds (fst (fst r)) ++ g) = true) arms -> stays g (SMatch a c arms other).
  Proof.
    intros Ha Hc Ho H. unfold stays. cbn [PWord.sfine]. match goal with |- (if _ && _ && ?X && ?Y then _ else _) = _ => assert (EX : X = true) by exact Ho; assert (EY : Y = true); [|rewrite Ha, Hc, EX, EY; reflexivity] end.
    induction H as [|[[p h] l] arms [Hh Hl] H IH]; [reflexivity|]. cbn [fst snd] in *. apply andb_true_iff. split; [|exact IH]. apply andb_true_iff. split; [exact Hh|exact Hl].
  Qed.
  Lemma stay_tag g x p e t : any g x = true -> fine g e = true -> forallb (access_fine g) p = true -> stays g (set_tag x p e t).
  Proof. intros Hx He Hp. unfold stays. destruct t as [k|k]; cbn [set_tag PWord.sfine]; rewrite He, forallb_app, Hp, Hx; reflexivity. Qed.
  Lemma stay_tags g x p e l : any g x = true -> fine g e = true -> forallb (access_fine g) p = true -> Forall (stays g) (map (set_tag x p e) l).
  Proof. intros. apply Forall_forall. intros s Hs. apply in_map_iff in Hs as (t & <- & _). now apply stay_tag. Qed.
  Lemma look_pat x p g : any g x = true -> any (pat_kinds p ++ g) x = true.
  Proof. unfold pat_kinds. destruct (p_bind p) as [y|]; [|auto]. unfold any. cbn [app look]. destruct (var_eqb x y); auto. Qed.
  Lemma finish_fine out k a g : fine ((out, KAny) :: g) a = true -> var_eqb out Xstart = false -> var_eqb out Xend = false -> var_eqb out Xi = false -> sfines (finish_code out k a) g = true.
  Proof.
    intros Ha E1 E2 E3. unfold finish_code.
    assert (S : stays ((out, KAny) :: g) (SFor (IPairs a) [SIf (ENot (EEq (EVar Xstart) EMax)) [SAssert (ENot (EEq (EVar Xend) EMax)); SSet out [AIdx (EVar Xi)] (EGet (EVar Xstart) (EVar Xend)); SAssert (EIsSome (EIdx (EVar out) (EVar Xi)))] [SAssert (EEq (EVar Xend) EMax)]])).
    { apply stay_for. cbn [iter_all]. apply andb_true_iff. split; [exact Ha|]. apply sfines_stay. constructor; [|constructor]. apply stay_if; [reflexivity| |reflexivity].
      assert (L : look out ([(Xend, KAny); (Xstart, KAny); (Xi, KIdx)] ++ (out, KAny) :: g) = Some KAny) by (cbn [app look]; now rewrite E2, E1, E3, var_eqb_refl).
      assert (L' : any ([(Xend, KAny); (Xstart, KAny); (Xi, KIdx)] ++ (out, KAny) :: g) out = true) by (unfold any; now rewrite L).
      remember ([(Xend, KAny); (Xstart, KAny); (Xi, KIdx)] ++ (out, KAny) :: g) as G eqn:EG.
      assert (Ls : look Xstart G = Some KAny) by (subst G; reflexivity). assert (Le : look Xend G = Some KAny) by (subst G; reflexivity). assert (Li : look Xi G = Some KIdx) by (subst G; reflexivity).
      cbn [PWord.sfines PWord.sfine PWord.fine forallb access_fine idx_fine andb]. rewrite Le. cbn [andb PWord.sfine PWord.fine forallb access_fine idx_fine]. rewrite Ls, Le, Li, L'. cbn [andb PWord.sfine PWord.fine idx_fine]. rewrite L, Li. reflexivity. }
    match type of S with stays _ ?f => change (sfines (f :: [SRet (ESome (EVar out))]) ((out, KAny) :: g) = true) end. apply (sfines_app _ [_]); [constructor; [exact S|constructor]|]. cbn [PWord.sfines PWord.sfine PWord.fine look]. now rewrite var_eqb_refl.
  Qed.
  Lemma kept_arms {X} (f : nat * X -> list arm) ex l (P : arm -> Prop) : (forall p r, In r (f p) -> P r) -> Forall P (flat_map f (kept ex l)).
  Proof. intros H. apply Forall_forall. intros r Hr. apply in_flat_map in Hr as (p & _ & Hr). eauto. Qed.
  Lemma body_for g it l m : iter_all top text (fun b => sfines l (b ++ g)) g it = true -> sfines m g = true -> sfines (SFor it l :: m) g = true.
  Proof. intros Hl Hm. apply (sfines_app g [SFor it l]); [|exact Hm]. constructor; [|constructor]. now apply stay_for. Qed.

  Lemma body_let g x t a m : fine g a = true -> sfines m ((x, KAny) :: g) = true -> sfines (SLet x t a :: m) g = true.
  Proof. intros Ha Hm. cbn [PWord.sfines PWord.sfine]. now rewrite Ha. Qed.
  Lemma body_try g x t a m : fine g a = true -> sfines m ((x, KAny) :: g) = true -> sfines (STry x t a :: m) g = true.
  Proof. intros Ha Hm. cbn [PWord.sfines PWord.sfine]. now rewrite Ha. Qed.
  Lemma body_stay g s m : stays g s -> sfines m g = true -> sfines (s :: m) g = true.
  Proof. intros Hs Hm. unfold stays in Hs. cbn [PWord.sfines]. now rewrite Hs. Qed.
  (** *** The vm-like one-pass engine *)
  Lemma guard_fine g tu i : look Xi g = Some (KLe i) -> i < blen text -> match vm_guard tu with None => true | Some h => fine g h end = true.
  Proof. intros E Hi. unfold vm_guard. destruct (tu_start tu); [|reflexivity]. cbn [PWord.fine]. rewrite E, (top_pos i Hi). now rewrite top_zero. Qed.
  Lemma vm_arms_fine up ex p g r i : look Xi g = Some (KLe i) -> i < blen text -> any g Xstate = true -> (forall tu, Forall (stays g) (up tu)) -> In r (vm_arms up ex p) ->
    match snd (fst r) with None => true | Some h => fine (pat_kinds (fst (fst r)) ++ g) h end = true /\ sfines (snd r) (pat_kinds (fst (fst r)) ++ g) = true.
  Proof.
    intros Hi Hle Hs Hup H. unfold vm_arms in H. apply in_flat_map in H as ([rg tu] & _ & H). destruct (nth (tu_state tu) ex true); [destruct H|]. destruct (tu_end tu); [destruct H|]. destruct H as [<-|[]]. cbn [fst snd pat_kinds p_bind app]. split; [now apply (guard_fine _ _ i)|].
    apply sfines_app; [apply Hup|]. cbn [PWord.sfines PWord.sfine PWord.fine forallb andb]. now rewrite Hs.
  Qed.
  Lemma vm_test_fine n tab : func_fine top text (vm_test_code n tab) = true.
  Proof.
    unfold func_fine, vm_test_code. cbn [f_procs f_body f_args forallb andb anys map rev]. apply body_let; [reflexivity|].
    apply body_for.
    - apply iter_enum. intros i Hi. apply sfines_stay. constructor; [|constructor]. apply stay_match; [reflexivity..|]. apply kept_arms. intros p r. apply (vm_arms_fine _ _ _ _ _ i); [reflexivity|exact Hi|reflexivity|constructor].
    - apply sfines_stay. constructor; [|constructor]. apply stay_match; [reflexivity..|]. apply kept_arms. intros p r Hr. unfold vm_final in Hr. apply in_map_iff in Hr as (tu & <- & _). cbn [fst snd pat_kinds p_bind app]. split; [|reflexivity].
      unfold vm_guard. destruct (tu_start tu); [|reflexivity]. cbn [PWord.fine look var_eqb]. now rewrite top_zero.
  Qed.
  Lemma vm_exec_fine n tab : func_fine top text (vm_exec_code n tab) = true.
  Proof.
    unfold func_fine, vm_exec_code. cbn [f_procs f_body f_args forallb andb anys map rev app]. apply body_let; [reflexivity|].
    apply body_let; [reflexivity|].
    apply body_for.
    - apply iter_enum. intros i Hi. apply sfines_stay. constructor; [|constructor]. apply stay_match; [reflexivity..|]. apply kept_arms. intros p r. apply (vm_arms_fine _ _ _ _ _ i); [reflexivity|exact Hi|reflexivity|]. intros tu. apply stay_tags; try reflexivity. cbn [PWord.fine app look var_eqb]. exact (top_pos i Hi).
    - apply (sfines_app _ [_]); [|apply finish_fine; reflexivity]. constructor; [|constructor]. apply stay_match; [reflexivity..|]. apply kept_arms. intros p r Hr. unfold vm_final in Hr. apply in_map_iff in Hr as (tu & <- & _). cbn [fst snd pat_kinds p_bind app]. split.
      + unfold vm_guard. destruct (tu_start tu); [|reflexivity]. cbn [PWord.fine look var_eqb]. now rewrite top_zero.
      + apply sfines_stay. apply stay_tags; reflexivity.
  Qed.

  (** *** The DFA engine *)
  Lemma dfa_test_fine d : func_fine top text (dfa_test_code d) = true.
  Proof.
    assert (F : func_fine top text (mkFunc [] ((LStart, None) :: map (fun p => (LNum (fst p), None)) (enumerate (d_states d))) TBool []
        [SLet Xstate TEnum (ECon LStart None); SFor IBytes [SMatch (EVar Xstate) (Some (EVar Xc)) (flat_map dfa_arms (numbered (d_states d) (d_start d))) (Some [SRet (EBool false)])];
         SMatch (EVar Xstate) None (map (fun p => (mkPat (fst p) None None, None, [SRet (EBool (match ds_acc (snd p) with DNone => false | _ => true end))])) (numbered (d_states d) (d_start d))) None]) = true).
    2: { unfold dfa_test_code. destruct (ds_acc (d_start d)); try exact F. reflexivity. }
    unfold func_fine. cbn [f_procs f_body f_args forallb andb anys map rev]. apply body_let; [reflexivity|].
    apply body_for.
    - cbn [iter_all]. apply sfines_stay. constructor; [|constructor]. apply stay_match; [reflexivity..|]. apply Forall_forall. intros r Hr. apply in_flat_map in Hr as (p & _ & Hr). unfold dfa_arms in Hr.
      assert (G : In r (map (fun t => (mkPat (fst p) None (Some (snd t)), None, [SSet Xstate [] (ECon (LNum (fst t)) None)])) (ds_trans (snd p))) \/ r = (mkPat (fst p) None None, None, [SRet (EBool true)])) by (destruct (ds_acc (snd p)); auto; destruct Hr as [<-|[]]; auto).
      destruct G as [G|G]; [apply in_map_iff in G as (t & <- & _)|subst r]; split; reflexivity.
    - apply sfines_stay. constructor; [|constructor]. apply stay_match; [reflexivity..|]. apply Forall_forall. intros r Hr. apply in_map_iff in Hr as (p & <- & _). split; reflexivity.
  Qed.
  Lemma tdfa_inner_fine d : func_fine top text (tdfa_inner_code d) = true.
  Proof.
    unfold func_fine, tdfa_inner_code. cbn [f_procs f_body f_args forallb andb anys map rev]. apply body_let; [reflexivity|].
    apply body_for.
    - apply iter_enum. intros i Hi. apply sfines_stay. constructor; [|constructor]. apply stay_match; [reflexivity..|]. apply Forall_forall. intros r Hr. apply in_flat_map in Hr as (p & _ & Hr). apply in_map_iff in Hr as (t & <- & _). unfold tdfa_arm. cbn [fst snd pat_kinds p_bind app]. split; [reflexivity|]. apply body_let.
      { assert (A : forall gg, fine ((Xold_tags, KAny) :: gg) (EArr (map (fun k => EIdx (EVar Xold_tags) (ENum k)) (tt_copy t))) = true) by (intros gg; cbn [PWord.fine]; induction (tt_copy t) as [|k l IH]; [reflexivity|exact IH]). apply A. }
      apply sfines_app; [|reflexivity]. apply Forall_forall. intros s Hs. apply in_map_iff in Hs as (x & <- & _). apply stay_tag; try reflexivity. cbn [PWord.fine look var_eqb]. exact (top_pos i Hi).
    - apply sfines_stay. constructor; [|constructor]. apply stay_match; [reflexivity..|]. apply Forall_forall. intros r Hr. apply in_map_iff in Hr as (p & <- & _). unfold tdfa_final. cbn [fst snd pat_kinds p_bind app]. split; [reflexivity|].
      destruct (ts_acc (snd p)) ; try reflexivity; cbn [app]; (apply body_let; [reflexivity|]); (apply sfines_app; [apply stay_tags; reflexivity|reflexivity]).
  Qed.
  Lemma tdfa_outer_fine d : func_fine top text (tdfa_outer_code d) = true.
  Proof. unfold func_fine, tdfa_outer_code. cbn [f_procs f_body f_args forallb andb]. apply finish_fine; reflexivity. Qed.
  Lemma fun_outer_fine k : func_fine top text (fun_outer_code k) = true.
  Proof. unfold func_fine, fun_outer_code. cbn [f_procs f_body f_args forallb andb]. apply finish_fine; reflexivity. Qed.
  Lemma fixed_fine k offs : Forall (fun p => match p with (Some s, Some e) => s < top /\ e < top | _ => True end) offs -> func_fine top text (fixed_code k offs) = true.
  Proof.
    intros H. unfold func_fine, fixed_code. cbn [f_procs f_body f_args forallb andb]. change (sfines [SRet (ESome (EArr (map fixed_part offs)))] [(Xmatched, KAny)] = true). cbn [PWord.sfines PWord.sfine].
    assert (A : fine [(Xmatched, KAny)] (ESome (EArr (map fixed_part offs))) = true); [|now rewrite A]. cbn [PWord.fine]. induction H as [|[[s|] [e|]] l Hs H IH]; try reflexivity; cbn [map fixed_part]; try exact IH.
    destruct Hs as [Hs He]. apply Nat.ltb_lt in Hs, He. cbn [PWord.fine]. rewrite Hs, He. exact IH.
  Qed.

  (** *** The lockstep engines *)
  Lemma groups_fine g up l : look Xis_start g = Some KAny -> look Xis_end g = Some KAny -> (forall p, stays g (up p)) -> sfines (groups_code up l) g = true.
  Proof.
    intros Es Ee Hup. assert (M : forall m, Forall (stays g) (map up m)) by (intros m; apply Forall_forall; intros s Hs; apply in_map_iff in Hs as (p & <- & _); apply Hup).
    apply sfines_stay. unfold groups_code. apply Forall_app. split; [|apply M]. repeat constructor; apply stay_if; try reflexivity; try (apply sfines_stay; apply M); cbn [PWord.fine]; now rewrite ?Es, ?Ee.
  Qed.
  Lemma is_fine g m : look Xidx g = Some KAny -> look Xlen g = Some KAny -> sfines m ((Xis_end, KAny) :: (Xis_start, KAny) :: g) = true -> sfines (is_code ++ m) g = true.
  Proof. intros Ei El Hm. unfold is_code. cbn [app PWord.sfines PWord.sfine PWord.fine]. rewrite Ei, top_zero. cbn [andb look var_eqb PWord.fine]. rewrite Ei, El. exact Hm. Qed.
  Section Lock.
    Context {A : Type}.
    Variable sym_code : A -> rexp.
    Variable t_sym : ty.
    Variable it : Rust.iter.
    Variable next : rexp.
    Hypothesis Hsym : forall a g, any g Xc = true -> fine g (sym_code a) = true.
    (** what one round of the loop knows: the next position is within the text *)
    Definition round_ctx (b : kctx) : Prop := exists k i, b = [(Xc, k); (Xi, KLe i)] /\ match k with KAny | KChr _ => True | _ => False end /\ forall g, fine (b ++ g) next = true.
    Hypothesis Hit : forall P g, (forall b, round_ctx b -> P b = true) -> iter_all top text P g it = true.
    Lemma ifs_fine {X} g (f : X -> rexp) (b : X -> list stmt) l : (forall x, fine g (f x) = true) -> (forall x, sfines (b x) g = true) -> Forall (stays g) (map (fun x => SIf (f x) (b x) []) l).
    Proof. intros Hf Hb. apply Forall_forall. intros s Hs. apply in_map_iff in Hs as (x & <- & _). apply stay_if; auto. Qed.
    Lemma flat_test_fine n tbl : func_fine top text (flat_test_code sym_code t_sym it next n tbl) = true.
    Proof.
      unfold func_fine, flat_test_code. cbn [f_procs f_body f_args forallb].
      assert (P1 : proc_fine top text (sym_test_proc sym_code t_sym n) = true).
      { unfold proc_fine, sym_test_proc. cbn [pr_body pr_vals pr_refs]. apply sfines_stay. apply ifs_fine; [reflexivity|]. intros x. apply sfines_stay. apply ifs_fine; [|reflexivity]. intros y. now apply Hsym. }
      assert (P2 : proc_fine top text (eps_test_proc n tbl) = true).
      { unfold proc_fine, eps_test_proc. cbn [pr_body pr_vals pr_refs]. apply is_fine; [reflexivity..|]. apply sfines_stay. apply ifs_fine; [reflexivity|]. intros x. apply groups_fine; [reflexivity..|]. intros p. reflexivity. }
      rewrite P1, P2. cbn [andb].
      change (sfines (SCall 1 [Xlist] [ENum 0; ELen] :: SFor it [SCall 0 [Xlist; Xnew_list] [EVar Xc]; SIf (EAllNot (EVar Xnew_list)) [SRet (EBool false)] []; SSwap Xlist Xnew_list; SCall 1 [Xlist] [next; ELen]; SFill Xnew_list] :: [SRet (EIdx (EVar Xlist) (ENum (length n - 1)))]) [(Xnew_list, KAny); (Xlist, KAny)] = true).
      assert (C : stays [(Xnew_list, KAny); (Xlist, KAny)] (SCall 1 [Xlist] [ENum 0; ELen])) by (unfold stays; cbn [PWord.sfine forallb PWord.fine]; rewrite top_zero; reflexivity).
      apply (sfines_app _ [_]); [constructor; [exact C|constructor]|]. apply body_for; [|reflexivity]. apply Hit. intros b (k & i & -> & Hk & Hnext).
      apply sfines_stay. destruct k; try (now destruct Hk); repeat constructor; unfold stays; cbn [PWord.sfine forallb]; rewrite Hnext; reflexivity.
    Qed.
    Lemma flat_exec_fine n tbl : func_fine top text (flat_exec_code sym_code t_sym it next n tbl) = true.
    Proof.
      unfold func_fine, flat_exec_code. cbn [f_procs f_body f_args forallb].
      assert (P1 : proc_fine top text (sym_exec_proc sym_code t_sym n) = true).
      { unfold proc_fine, sym_exec_proc. cbn [pr_body pr_vals pr_refs]. apply body_for; [|reflexivity]. apply andb_true_iff. split; [reflexivity|]. apply sfines_stay. constructor; [|constructor]. apply stay_match; [reflexivity..|]. apply Forall_forall. intros r Hr. apply in_map_iff in Hr as (p & <- & _). split; [reflexivity|]. cbn [fst snd pat_kinds p_bind app].
        apply sfines_stay. apply ifs_fine; [|reflexivity]. intros y. now apply Hsym. }
      assert (P2 : proc_fine top text (eps_exec_proc n tbl) = true).
      { unfold proc_fine, eps_exec_proc. cbn [pr_body pr_vals pr_refs]. apply is_fine; [reflexivity..|]. apply body_let; [reflexivity|]. apply body_for; [|reflexivity]. apply andb_true_iff. split; [reflexivity|]. apply sfines_stay. constructor; [|constructor]. apply stay_match; [reflexivity..|]. apply Forall_forall. intros r Hr. apply in_map_iff in Hr as (p & <- & _). split; [reflexivity|]. cbn [fst snd pat_kinds p_bind app].
        apply groups_fine; [reflexivity..|]. intros q. unfold push_code. apply stay_if; [reflexivity| |reflexivity]. cbn [app]. apply body_let; [reflexivity|]. apply body_stay; [reflexivity|]. apply sfines_app; [apply stay_tags; reflexivity|reflexivity]. }
      rewrite P1, P2. cbn [andb app anys map rev]. apply body_let; [reflexivity|]. apply body_let; [reflexivity|]. apply body_stay; [reflexivity|].
      apply body_stay; [unfold stays; cbn [PWord.sfine forallb PWord.fine]; rewrite top_zero; reflexivity|]. apply body_stay; [reflexivity|].
      assert (F : stays [(Xnew_threads, KAny); (Xthreads, KAny)] (SFor it [SClear Xnew_threads; SCall 0 [Xthreads; Xnew_threads] [EVar Xc]; SSwap Xthreads Xnew_threads; SClear Xnew_threads; SCall 1 [Xthreads; Xnew_threads] [next; ELen]; SSwap Xthreads Xnew_threads; SIf (EIsEmpty (EVar Xthreads)) [SRet ENothing] []])).
      { apply stay_for. apply Hit. intros b (k & i & -> & Hk & Hnext). apply sfines_stay. destruct k; try (now destruct Hk); repeat constructor; unfold stays; cbn [PWord.sfine forallb]; rewrite Hnext; reflexivity. }
      apply body_stay; [exact F|]. apply body_try; [reflexivity|]. apply finish_fine; reflexivity.
    Qed.
  End Lock.
  Lemma in_fine : forall r g, any g Xc = true -> fine g (in_code r) = true.
  Proof. intros r g H. unfold any in H. unfold in_code. cbn [PWord.fine]. destruct (look Xc g) as [[]|]; try discriminate H; reflexivity. Qed.
  Lemma check_fine : forall a g, any g Xc = true -> fine g (check_code a) = true.
  Proof. intros r g H. unfold any in H. unfold check_code. cbn [PWord.fine]. destruct (look Xc g) as [[]|]; try discriminate H; reflexivity. Qed.
  Lemma byte_rounds : forall P g, (forall b, round_ctx (ESucc (EVar Xi)) b -> P b = true) -> iter_all top text P g IEnum = true.
  Proof.
    intros P g H. apply iter_enum. intros i Hi. apply H. exists KAny, i. repeat split. intros g'. cbn [PWord.fine]. unfold le_fine. cbn [app look var_eqb]. apply Nat.ltb_lt. lia.
  Qed.
  Lemma char_rounds : forall P g, (forall b, round_ctx (EWidth (EVar Xi) (EVar Xc)) b -> P b = true) -> iter_all top text P g IChars = true.
  Proof.
    intros P g H. apply iter_chars. intros i c Hi. apply H. exists (KChr c), i. repeat split. intros g'. cbn [PWord.fine app look var_eqb]. unfold le_fine. cbn [app look var_eqb]. apply Nat.ltb_lt. lia.
  Qed.
  Lemma byte_test_fine n tbl : func_fine top text (byte_test_code n tbl) = true.
  Proof. apply flat_test_fine; [exact in_fine|exact byte_rounds]. Qed.
  Lemma byte_exec_fine n tbl : func_fine top text (byte_exec_code n tbl) = true.
  Proof. apply flat_exec_fine; [exact in_fine|exact byte_rounds]. Qed.
  Lemma char_test_fine n tbl : func_fine top text (char_test_code n tbl) = true.
  Proof. apply flat_test_fine; [exact check_fine|exact char_rounds]. Qed.
  Lemma char_exec_fine n tbl : func_fine top text (char_exec_code n tbl) = true.
  Proof. apply flat_exec_fine; [exact check_fine|exact char_rounds]. Qed.
End Templates.
