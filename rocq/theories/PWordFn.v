(** Machine integers make no difference in the functional one-pass engine: the index of a byte and the number of bytes left add up to at most the length of
    the text. *)
From Verif Require Export PWordCode.
From Coq Require Import ZifyBool ZifyNat ZifyN.
Open Scope nat_scope.
Open Scope list_scope.
Set Default Proof Using "All".

Lemma Forall2_len {A B} (P : A -> B -> Prop) l m : Forall2 P l m -> length l = length m.
Proof. induction 1; cbn [length]; congruence. Qed.
Lemma Forall2_first {A B} (P : A -> B -> Prop) l m k : Forall2 P l m -> Forall2 P (firstn k l) (firstn k m).
Proof. intros H. revert k. induction H; intros [|k]; cbn [firstn]; constructor; auto. Qed.
Lemma Forall2_skip {A B} (P : A -> B -> Prop) l m k : Forall2 P l m -> Forall2 P (skipn k l) (skipn k m).
Proof. intros H. revert k. induction H; intros [|k]; cbn [skipn]; try constructor; auto. Qed.

Section Calls.
  Variable over : nat -> nat -> res val.
  Variable top : nat.
  Variable text : list N.
  Hypothesis Htop : blen text < top.
  Notation fine := (PWord.fine top).
  Notation sfine := (PWord.sfine top text).
  Notation erel := (PWord.erel top).
  Notation vrel := (PWord.vrel top).
  Notation fblock := (RustFn.fblock text).
  Notation fblockw := (RustW.fblockw over top text).
  (** The arguments of a call *)
  Variable Q : list val -> list val -> Prop.
  Definition calls2 (o o' : env + outcome) : Prop :=
    match o, o' with
    | inl _, inl _ => True
    | inr (Ret v), inr (Ret w) => vrel v w
    | inr (Go f vs), inr (Go f' ws) => f = f' /\ Q vs ws
    | _, _ => False
    end.
  Definition frel (g : kctx) (l : list fstmt) : Prop := forall e e', erel g e e' -> rrel calls2 (fblock l e) (fblockw l e').
  Lemma frel_nil g : frel g [].
  Proof. intros e e' He. exact I. Qed.
  Lemma frel_fs g g' s r : sfine s g = Some g' -> frel g' r -> frel g (FS s :: r).
  Proof.
    intros Hs Hr e e' He. cbn [RustFn.fblock RustW.fblockw fexec fexecw]. destruct (exec_rel over top text Htop no_call no_call (no_call_rel over top text Htop) s g e e' g' He Hs) as [_ S].
    destruct (exec text no_call s e) as [[e1|v]| | |], (execw over top text no_call s e') as [[e1'|w]| | |]; cbn [rrel ends2] in S; try (now destruct S); cbn [bind]; try exact I; [now apply Hr|exact S].
  Qed.
  Lemma frel_ret g a r : fine g a = true -> frel g (FS (SRet a) :: r).
  Proof.
    intros Ha e e' He. cbn [RustFn.fblock RustW.fblockw fexec fexecw Rust.exec RustW.execw]. assert (S := eval_rel over top text Htop a g e e' He Ha). destruct (eval text e a), (evalw over top text e' a); cbn [rrel] in S; try (now destruct S); exact S.
  Qed.
  Lemma frel_fss g l r : Forall (stays top text g) l -> frel g r -> frel g (map FS l ++ r).
  Proof. intros H Hr. induction H as [|s l Hs H IH]; [exact Hr|]. cbn [map app]. now apply (frel_fs g g). Qed.
  Lemma cond_rel g a e e' : erel g e e' -> fine g a = true -> rrel (@eq bool) (do v <- eval text e a; as_bool v) (do v <- evalw over top text e' a; as_bool v).
  Proof. intros He Ha. eapply rrel_bind; [exact (eval_rel over top text Htop a g e e' He Ha)|]. intros v w Hv. exact (as_bool_rel over top text Htop v w Hv). Qed.
  Lemma fleave_rel e e' r r' : rrel calls2 r r' -> rrel calls2 (fleave e r) (fleave e' r').
  Proof. intros H. unfold fleave. eapply rrel_bind; [exact H|]. intros [x|[v|f vs]] [y|[w|f' ws]] Ho; try (now destruct Ho); exact Ho. Qed.
  Lemma frel_last s g : (forall e e', erel g e e' -> rrel calls2 (fexec text s e) (fexecw over top text s e')) -> frel g [s].
  Proof.
    intros H e e' He. cbn [RustFn.fblock RustW.fblockw]. eapply rrel_bind; [exact (H e e' He)|]. intros [x|[v|f vs]] [y|[w|f' ws]] Ho; try (now destruct Ho); exact Ho.
  Qed.
  Lemma frel_if g a l m : fine g a = true -> frel g l -> frel g m -> frel g [FIf a l m].
  Proof.
    intros Ha Hl Hm. apply frel_last. intros e e' He. cbn [fexec fexecw]. assert (S := cond_rel g a e e' He Ha).
    destruct (eval text e a) as [v| | |], (evalw over top text e' a) as [w| | |]; cbn [bind rrel] in *; try (now destruct S); try exact I; try (destruct (as_bool v); now destruct S); try (destruct (as_bool w); now destruct S).
    destruct (as_bool v) as [b| | |], (as_bool w) as [b'| | |]; cbn [bind rrel] in *; try (now destruct S); try exact I. subst b'. apply fleave_rel. destruct b; [exact (Hl e e' He)|exact (Hm e e' He)].
  Qed.
  Lemma frel_stop g a b r : fine g a = true -> fine g b = true -> frel g r -> frel g (FIf a [FS (SRet b)] [] :: r).
  Proof.
    intros Ha Hb Hr e e' He. cbn [RustFn.fblock RustW.fblockw fexec fexecw]. assert (S := cond_rel g a e e' He Ha).
    destruct (eval text e a) as [v| | |], (evalw over top text e' a) as [w| | |]; cbn [bind rrel] in *; try (now destruct S); try exact I; try (destruct (as_bool v); now destruct S); try (destruct (as_bool w); now destruct S).
    destruct (as_bool v) as [c| | |], (as_bool w) as [c'| | |]; cbn [bind rrel] in *; try (now destruct S); try exact I. subst c'. destruct c.
    - cbn [fexec fexecw Rust.exec RustW.execw]. assert (T := eval_rel over top text Htop b g e e' He Hb). destruct (eval text e b), (evalw over top text e' b); cbn [rrel] in T; try (now destruct T); exact T.
    - cbn [fleave bind]. rewrite !Nat.sub_diag. exact (Hr e e' He).
  Qed.
  Lemma get_bytes g e e' n : erel g e e' -> look Xbytes g = Some (KLong n) -> exists l m, (do v <- getv Xbytes e; as_list v) = Ok l /\ (do v <- getv Xbytes e'; as_list v) = Ok m /\ Forall2 vrel l m /\ length l = n.
  Proof. intros He E. assert (L := erel_look over top text Htop g e e' Xbytes He). rewrite E in L. destruct L as (v & w & Ev & Ew & l & m & -> & -> & Hl & Hn). exists l, m. unfold getv. rewrite Ev, Ew. auto. Qed.
  Lemma frel_split g n k l r : look Xbytes g = Some (KLong n) -> frel g l -> (k <= n -> frel ((Xrest, KLong (n - k)) :: (Xrun_part, KAny) :: g) r) -> frel g (FSplit k l :: r).
  Proof.
    intros E Hl Hr e e' He. destruct (get_bytes g e e' n He E) as (bs & cs & E1 & E2 & Hb & Hn). cbn [RustFn.fblock RustW.fblockw fexec fexecw].
    destruct (getv Xbytes e) as [v| | |]; try discriminate E1. cbn [bind] in *. rewrite E1. destruct (getv Xbytes e') as [w| | |]; try discriminate E2. cbn [bind] in *. rewrite E2. cbn [bind]. rewrite <- (Forall2_len _ _ _ Hb). rewrite Hn. destruct (k <=? n) eqn:Ek.
    - cbn [bind]. apply Hr; [lia|]. constructor; [exists (skipn k bs), (skipn k cs); repeat split; [now apply Forall2_skip|rewrite skipn_length; lia]|]. constructor; [|exact He]. cbn [krel]. constructor. now apply Forall2_first.
    - assert (S := Hl e e' He). match goal with |- rrel _ (bind (bind ?X _) _) (bind (bind ?Y _) _) => change X with (fblock l e); change Y with (fblockw l e') end.
      destruct (fblock l e) as [[x|[v'|f vs]]| | |], (fblockw l e') as [[y|[w'|f' ws]]| | |]; cbn [rrel calls2] in S; try (now destruct S); exact S.
  Qed.
  Fixpoint setk (x : var) (k : kind) (g : kctx) : kctx := match g with [] => [] | (y, k') :: r => if var_eqb x y then (y, k) :: r else (y, k') :: setk x k r end.
  Lemma erel_setk x k v w g e e' : erel g e e' -> krel top k v w -> erel (setk x k g) (assign x v e) (assign x w e').
  Proof. intros H Hk. induction H as [|y k' v' w' g e e' Hk' H IH]; cbn [setk assign]; [constructor|]. destruct (var_eqb x y); constructor; auto. Qed.
  Lemma frel_next g n none arms other : look Xbytes g = Some (KLong n) -> frel g none ->
    (forall m, n = S m -> frel (setk Xbytes (KLong m) g) other /\ Forall (fun a : range * option rexp * list fstmt => match snd (fst a) with None => true | Some h => fine (setk Xbytes (KLong m) g) h end = true /\ frel (setk Xbytes (KLong m) g) (snd a)) arms) ->
    frel g [FNext none arms other].
  Proof.
    intros E Hn H. apply frel_last. intros e e' He. destruct (get_bytes g e e' n He E) as (bs & cs & E1 & E2 & Hb & Hlen). cbn [fexec fexecw].
    destruct (getv Xbytes e) as [v| | |]; try discriminate E1. cbn [bind] in *. rewrite E1. destruct (getv Xbytes e') as [w| | |]; try discriminate E2. cbn [bind] in *. rewrite E2. cbn [bind]. destruct Hb as [|b c bs cs Hc Hb].
    - apply fleave_rel. exact (Hn e e' He).
    - cbn [length] in Hlen. destruct (H (length bs) (eq_sym Hlen)) as [Ho Ha]. inversion Hc; subst; try exact I. cbv zeta.
      assert (He1 : erel (setk Xbytes (KLong (length bs)) g) (assign Xbytes (VArr bs) e) (assign Xbytes (VArr cs) e')) by (apply erel_setk; [exact He|exists bs, cs; auto]).
      revert He1 Ho Ha. generalize (setk Xbytes (KLong (length bs)) g), (assign Xbytes (VArr bs) e), (assign Xbytes (VArr cs) e'). intros g1 e1 e1' He1 Ho Ha. clear H E1 E2.
      induction Ha as [|[[r h] l] arms [Hh Hl] Ha IH]; [apply fleave_rel; exact (Ho e1 e1' He1)|]. cbn [fst snd] in *. destruct (in_range c0 r); [|exact IH].
      assert (S : rrel (@eq bool) (match h with None => Ok true | Some h => do x <- eval text e1 h; as_bool x end) (match h with None => Ok true | Some h => do x <- evalw over top text e1' h; as_bool x end)) by (destruct h as [h|]; [exact (cond_rel g1 h e1 e1' He1 Hh)|reflexivity]).
      eapply rrel_bind; [exact S|]. intros ok ok' <-. destruct ok; [|exact IH]. apply fleave_rel. exact (Hl e1 e1' He1).
  Qed.
  Lemma frel_go g f args r : (forall e e', erel g e e' -> rrel Q (mapM (eval text e) args) (mapM (evalw over top text e') args)) -> frel g (FGo f args :: r).
  Proof.
    intros H e e' He. cbn [RustFn.fblock RustW.fblockw fexec fexecw]. assert (S := H e e' He). destruct (mapM (eval text e) args), (mapM (evalw over top text e') args); cbn [rrel] in S; try (now destruct S); cbn [bind rrel calls2]; auto.
  Qed.
  Lemma frel_error g r : frel g (FError :: r).
  Proof. intros e e' He. exact I. Qed.
  (** *** A whole program *)
  Definition sfun_rel (sf : sfun) : Prop := forall vs ws, Q vs ws -> exists g, rrel (erel g) (bind_params (sf_args sf) vs []) (bind_params (sf_args sf) ws []) /\ frel g (sf_body sf).
  Lemma go_rel fs : Forall sfun_rel fs -> forall k f vs ws, Q vs ws -> rrel vrel (go text k fs f vs) (gow over top text k fs f ws).
  Proof.
    intros H. induction k as [|k IH]; intros f vs ws Hq; cbn [go gow]; [exact I|]. destruct (find (fun sf => sf_id sf =? f) fs) as [sf|] eqn:Ef; [|exact I]. rewrite Forall_forall in H. destruct (H sf (proj1 (find_some _ _ Ef)) vs ws Hq) as (g & Hp & Hf).
    eapply rrel_bind; [exact Hp|]. intros e e' He. eapply rrel_bind; [exact (Hf e e' He)|]. intros [x|[v|f1 vs1]] [y|[w|f2 ws2]] Ho; try (now destruct Ho); [exact Ho|]. destruct Ho as [<- Ho]. now apply IH.
  Qed.
  Lemma prog_rel p : Forall sfun_rel (g_states p) -> frel [] (g_body p) -> rrel vrel (run_prog text p) (run_progw over top text p).
  Proof.
    intros H Hb. unfold run_prog, run_progw. eapply rrel_bind; [exact (Hb [] [] (er_nil top))|]. intros [x|[v|f1 vs1]] [y|[w|f2 ws2]] Ho; try (now destruct Ho); [exact Ho|]. destruct Ho as [<- Ho]. now apply go_rel.
  Qed.
End Calls.

Section Functional.
  Variable over : nat -> nat -> res val.
  Variable top : nat.
  Variable text : list N.
  Hypothesis Htop : blen text < top.
  Notation fine := (PWord.fine top).
  Notation erel := (PWord.erel top).
  Notation vrel := (PWord.vrel top).
  Variable n : nfa range.
  Variable tab : op_tables.
  Variable runs : list inclusion.
  (** *** The conditions of a run *)
  Lemma conditions_fine g rs : look Xrun_part g = Some KAny -> forall a, In a (run_conditions rs) -> fine g a = true.
  Proof.
    intros E a Ha. unfold run_conditions in Ha. apply in_flat_map in Ha as (p & _ & Ha). destruct Ha as [<-|[<-|[]]]; cbn [PWord.fine idx_fine]; rewrite E; reflexivity.
  Qed.
  Lemma both_fine g l : forall c, fine g c = true -> (forall a, In a l -> fine g a = true) -> fine g (fold_left EBoth l c) = true.
  Proof. induction l as [|a l IH]; intros c Hc H; [exact Hc|]. cbn [fold_left]. apply IH; [|intros; apply H; now right]. cbn [PWord.fine]. rewrite Hc. now apply H; left. Qed.
  Lemma result_rel Q g rs r : look Xrun_part g = Some KAny -> frel over top text Q ((Xresult, KAny) :: g) r -> frel over top text Q g (run_result rs ++ r).
  Proof.
    intros E Hr. unfold run_result. assert (H := conditions_fine g rs E). destruct (run_conditions rs) as [|c l]; [apply frel_error; exact Htop|]. cbn [app]. apply (frel_fs over top text Htop Q g ((Xresult, KAny) :: g)); [|exact Hr].
    cbn [PWord.sfine]. rewrite both_fine; [reflexivity|apply H; now left|intros; apply H; now right].
  Qed.
  (** *** [test] *)
  Definition test_calls (vs ws : list val) : Prop := exists l m s t, vs = [VArr l; s] /\ ws = [VArr m; t] /\ Forall2 vrel l m /\ vrel s t.
  Definition test_ctx (k : nat) : kctx := [(Xstart, KAny); (Xbytes, KLong k)].
  Lemma test_params vs ws : test_calls vs ws -> exists k, rrel (erel (test_ctx k)) (bind_params test_args vs []) (bind_params test_args ws []).
  Proof. intros (l & m & s & t & -> & -> & Hl & Hs). exists (length l). repeat constructor; [exact Hs|]. exists l, m. auto. Qed.
  Lemma test_go g x k s f r : look x g = Some (KLong k) -> frel over top text test_calls g (FGo f [EVar x; EBool s] :: r).
  Proof.
    intros E. apply frel_go; [exact Htop|]. intros e e' He. assert (L := erel_look over top text Htop g e e' x He). rewrite E in L. destruct L as (v & w & Ev & Ew & l & m & -> & -> & Hl & Hn).
    cbn [mapM eval evalw]. unfold getv. rewrite Ev, Ew. cbn [bind need rrel]. exists l, m, (VBool s), (VBool s). repeat split; auto. constructor.
  Qed.
  Lemma test_run_rel s r : sfun_rel over top text test_calls (test_run_code s r).
  Proof.
    intros vs ws Hq. destruct (test_params vs ws Hq) as (k & Hp). exists (test_ctx k). split; [exact Hp|]. cbn [test_run_code sf_body app]. apply (frel_split over top text Htop _ _ k); [reflexivity|apply frel_ret; [exact Htop|reflexivity]|]. intros Hk. apply result_rel; [reflexivity|].
    apply frel_if; [exact Htop|reflexivity| |apply frel_ret; [exact Htop|reflexivity]]. now apply (test_go _ Xrest (k - length (run_symbols r))).
  Qed.
  Lemma guard_fun_fine g s tu : look Xstart g = Some KAny -> match fun_guard s tu with None => true | Some h => fine g h end = true.
  Proof. intros E. unfold fun_guard. destruct (_ || _); [reflexivity|]. destruct (_ && _); [|reflexivity]. cbn [PWord.fine]. now rewrite E. Qed.
  Lemma test_state_rel s accs syms : sfun_rel over top text test_calls (test_state_code s accs syms).
  Proof.
    intros vs ws Hq. destruct (test_params vs ws Hq) as (k & Hp). exists (test_ctx k). split; [exact Hp|]. cbn [test_state_code sf_body]. apply (frel_next over top text Htop _ _ k); [reflexivity| |].
    - apply frel_ret; [exact Htop|]. unfold test_end. destruct accs as [|a accs]; [reflexivity|]. destruct (existsb _ _); [reflexivity|]. destruct (s =? 0); reflexivity.
    - intros m ->. split; [apply frel_ret; [exact Htop|reflexivity]|]. apply Forall_forall. intros a Ha. apply in_map_iff in Ha as (x & <- & _). cbn [fst snd]. split; [now apply guard_fun_fine|]. now apply (test_go _ Xbytes m).
  Qed.
  Lemma state_funs_rel Q ex wr no : (forall s r, sfun_rel over top text Q (wr s r)) -> (forall s, sfun_rel over top text Q (no s)) -> Forall (sfun_rel over top text Q) (state_funs ex runs wr no).
  Proof.
    intros Hr Hn. apply Forall_forall. intros sf H. unfold state_funs in H. apply in_flat_map in H as (p & _ & H). destruct (snd p); cbn [In] in H; try (now destruct H); (destruct H as [<-|H]; [auto|destruct H]).
  Qed.
  Lemma bytes_rel : Forall2 vrel (map VByte (utf8 text)) (map VByte (utf8 text)).
  Proof. induction (utf8 text); cbn [map]; repeat constructor; assumption. Qed.
  Lemma fun_test_rel : rrel vrel (run_prog text (fun_test_prog n tab runs)) (run_progw over top text (fun_test_prog n tab runs)).
  Proof.
    apply (prog_rel over top text Htop test_calls).
    - apply state_funs_rel; [apply test_run_rel|intros s; apply test_state_rel].
    - cbn [fun_test_prog g_body]. apply frel_go; [exact Htop|]. intros e e' He. cbn [mapM eval evalw bind rrel]. exists (map VByte (utf8 text)), (map VByte (utf8 text)), (VBool true), (VBool true). repeat split; [apply bytes_rel|constructor].
  Qed.
  (** *** [exec] *)
  Definition exec_calls (vs ws : list val) : Prop :=
    exists l m i c d s t, vs = [VArr l; VNum i; c; s] /\ ws = [VArr m; VNum i; d; t] /\ Forall2 vrel l m /\ vrel c d /\ vrel s t /\ i + length l <= blen text.
  Definition exec_ctx (i k : nat) : kctx := [(Xstart, KAny); (Xcaptures, KAny); (Xbyte_idx, KLe i); (Xbytes, KLong k)].
  Lemma exec_params g vs ws : exec_calls vs ws -> exists i k, i + k <= blen text /\ rrel (erel (exec_ctx i k)) (bind_params (exec_args g) vs []) (bind_params (exec_args g) ws []).
  Proof.
    intros (l & m & i & c & d & s & t & -> & -> & Hl & Hc & Hs & Hi). exists i, (length l). split; [exact Hi|]. repeat constructor; try assumption; [exists i; auto|]. exists l, m. auto.
  Qed.
  Lemma exec_go g x j i k a s f r : look x g = Some (KLong k) -> look Xcaptures g = Some KAny ->
    (forall e e', erel g e e' -> rrel (fun v w => exists i', v = VNum i' /\ w = VNum i' /\ i' <= i + j) (eval text e a) (evalw over top text e' a)) -> i + j + k <= blen text ->
    frel over top text exec_calls g (FGo f [EVar x; a; EVar Xcaptures; EBool s] :: r).
  Proof.
    intros E Ec Ha Hle. apply frel_go; [exact Htop|]. intros e e' He. assert (L := erel_look over top text Htop g e e' x He). rewrite E in L. destruct L as (v & w & Ev & Ew & l & m & -> & -> & Hl & Hn). assert (L := erel_look over top text Htop g e e' Xcaptures He). rewrite Ec in L. destruct L as (c & d & Ec1 & Ec2 & Hc).
    cbn [mapM eval evalw]. unfold getv. rewrite Ev, Ew, Ec1, Ec2. cbn [bind need]. assert (S := Ha e e' He). destruct (eval text e a) as [v| | |], (evalw over top text e' a) as [w| | |]; cbn [rrel] in S; try (now destruct S); try exact I. destruct S as (i' & -> & -> & Hi). cbn [bind rrel]. exists l, m, i', c, d, (VBool s), (VBool s). repeat split; auto; [constructor|lia].
  Qed.
  Lemma sum_fine a b : a + b <= top -> sum over top a b = Ok (VNum (a + b)).
  Proof. intros H. unfold sum. now rewrite (proj2 (Nat.leb_le _ _) H). Qed.
  Lemma plus_rel g i k : look Xbyte_idx g = Some (KLe i) -> i + k <= top -> forall e e', erel g e e' -> rrel (fun v w => exists i', v = VNum i' /\ w = VNum i' /\ i' <= i + k) (eval text e (EPlus (EVar Xbyte_idx) (ENum k))) (evalw over top text e' (EPlus (EVar Xbyte_idx) (ENum k))).
  Proof.
    intros E Hle e e' He. assert (L := erel_look over top text Htop g e e' Xbyte_idx He). rewrite E in L. destruct L as (v & w & Ev & Ew & i' & -> & -> & Hi). cbn [eval evalw]. unfold getv. rewrite Ev, Ew. cbn [bind need]. rewrite sum_fine by lia. cbn [rrel]. exists (i' + k). repeat split. lia.
  Qed.
  Lemma succ_rel g i : look Xbyte_idx g = Some (KLe i) -> i + 1 <= top -> forall e e', erel g e e' -> rrel (fun v w => exists i', v = VNum i' /\ w = VNum i' /\ i' <= i + 1) (eval text e (ESucc (EVar Xbyte_idx))) (evalw over top text e' (ESucc (EVar Xbyte_idx))).
  Proof.
    intros E Hle e e' He. assert (L := erel_look over top text Htop g e e' Xbyte_idx He). rewrite E in L. destruct L as (v & w & Ev & Ew & i' & -> & -> & Hi). cbn [eval evalw]. unfold getv. rewrite Ev, Ew. cbn [bind need]. rewrite sum_fine by lia. cbn [rrel]. exists (i' + 1). repeat split; [f_equal; lia|lia].
  Qed.
  (** The offsets of the tags of a run are within it *)
  Hypothesis Hruns : Forall (fun r => match r with RStart r => Forall (fun t => fst t <= length (run_symbols r)) (run_tags r) | _ => True end) runs.
  Lemma exec_run_rel g s r : Forall (fun t => fst t <= length (run_symbols r)) (run_tags r) -> sfun_rel over top text exec_calls (exec_run_code g s r).
  Proof.
    intros Ht vs ws Hq. destruct (exec_params g vs ws Hq) as (i & k & Hik & Hp). exists (exec_ctx i k). split; [exact Hp|]. cbn [exec_run_code sf_body app]. apply (frel_split over top text Htop _ _ k); [reflexivity|apply frel_ret; [exact Htop|reflexivity]|]. intros Hk. apply result_rel; [reflexivity|].
    cbn [app]. apply frel_stop; [exact Htop|reflexivity|reflexivity|]. rewrite <- (map_map (fun t => set_tag Xcaptures [] (EPlus (ENum (fst t)) (EVar Xbyte_idx)) (snd t)) FS). apply frel_fss; [exact Htop| |].
    - apply Forall_forall. intros st Hst. apply in_map_iff in Hst as (t & <- & Hin). rewrite Forall_forall in Ht. specialize (Ht t Hin). apply stay_tag with (text := text); try reflexivity; [exact Htop|]. cbn [PWord.fine]. unfold le_fine. cbn [exec_ctx look var_eqb]. apply Nat.ltb_lt. lia.
    - apply (exec_go _ Xrest (length (run_symbols r)) i (k - length (run_symbols r))); try reflexivity; [|lia]. apply plus_rel; [reflexivity|lia].
  Qed.
  Lemma capture_rel Q g i tu r : look Xcaptures g = Some KAny -> look Xbyte_idx g = Some (KLe i) -> i < top -> frel over top text Q g r -> frel over top text Q g (capture_code tu ++ r).
  Proof.
    intros Ec Ei Hi Hr. unfold capture_code. rewrite <- (map_map (set_tag Xcaptures [] (EVar Xbyte_idx)) FS). apply frel_fss; [exact Htop| |exact Hr]. apply stay_tags; [exact Htop| | |reflexivity].
    - unfold any. now rewrite Ec.
    - cbn [PWord.fine]. rewrite Ei. now apply Nat.ltb_lt.
  Qed.
  Lemma exec_state_rel g s accs syms : sfun_rel over top text exec_calls (exec_state_code g s accs syms).
  Proof.
    intros vs ws Hq. destruct (exec_params g vs ws Hq) as (i & k & Hik & Hp). exists (exec_ctx i k). split; [exact Hp|]. cbn [exec_state_code sf_body]. apply (frel_next over top text Htop _ _ k); [reflexivity| |].
    - unfold exec_end. assert (N : frel over top text exec_calls (exec_ctx i k) [FS (SRet ENothing)]) by (apply frel_ret; [exact Htop|reflexivity]). assert (R : frel over top text exec_calls (exec_ctx i k) [FS (SRet (ESome (EVar Xcaptures)))]) by (apply frel_ret; [exact Htop|reflexivity]).
      destruct accs as [|tu [|tu' accs]]; [exact N| |apply frel_error; exact Htop]. destruct (tu_start tu && (s =? 0)).
      + apply (capture_rel _ _ i); [reflexivity|reflexivity|lia|]. apply frel_if; [exact Htop|reflexivity|exact R|exact N].
      + destruct (tu_start tu && negb (s =? 0)); [exact N|]. apply (capture_rel _ _ i); [reflexivity|reflexivity|lia|exact R].
    - intros m ->. split; [apply frel_ret; [exact Htop|reflexivity]|]. apply Forall_forall. intros a Ha. apply in_map_iff in Ha as (x & <- & _). cbn [fst snd]. split; [now apply guard_fun_fine|]. apply (capture_rel _ _ i); [reflexivity|reflexivity|lia|].
      apply (exec_go _ Xbytes 1 i m); try reflexivity; [|lia]. apply succ_rel; [reflexivity|lia].
  Qed.
  Lemma fun_exec_rel : rrel vrel (run_prog text (fun_exec_prog n tab runs)) (run_progw over top text (fun_exec_prog n tab runs)).
  Proof.
    apply (prog_rel over top text Htop exec_calls).
    - cbn [fun_exec_prog g_states]. apply Forall_forall. intros sf H. unfold state_funs in H. apply in_flat_map in H as (p & Hp & H). assert (Hr := proj1 (Forall_forall _ _) Hruns). assert (Hin : In (snd p) runs) by (unfold kept in Hp; apply filter_In in Hp as [Hp _]; unfold enumerate in Hp; destruct p; apply in_combine_r in Hp; exact Hp). specialize (Hr _ Hin).
      destruct (snd p); cbn [In] in H; try (now destruct H); (destruct H as [<-|H]; [|destruct H]); [now apply exec_run_rel|apply exec_state_rel|apply exec_state_rel].
    - cbn [fun_exec_prog g_body]. apply (frel_fs over top text Htop _ [] [(Xcaptures, KAny)]); [reflexivity|]. apply frel_go; [exact Htop|]. intros e e' He. assert (L := erel_look over top text Htop _ e e' Xcaptures He). cbn [look var_eqb] in L. destruct L as (c & d & Ec1 & Ec2 & Hc).
      cbn [mapM eval evalw bind]. unfold getv. rewrite Ec1, Ec2. cbn [bind need rrel]. exists (map VByte (utf8 text)), (map VByte (utf8 text)), 0, c, d, (VBool true), (VBool true). repeat split; [apply bytes_rel|exact Hc|constructor|]. rewrite map_length, PRust.utf8_length. lia.
  Qed.
End Functional.
