(** The code generated for the functional one-pass engine computes what the model of the engine computes. *)
From Verif Require Export EmitFn PEmitVm.
From Coq Require Import ZifyBool ZifyNat ZifyN.
Open Scope nat_scope.
Open Scope list_scope.
Set Default Proof Using "Type".

(** ** Statements *)
Section Steps.
  Variable text : list N.
  Notation fexec := (fexec text).
  Notation fblock := (fblock text).
  Definition ftries (c : N) (e : env) (other : list fstmt) : list (range * option rexp * list fstmt) -> res (env + outcome) :=
    fix try (arms : list (range * option rexp * list fstmt)) : res (env + outcome) :=
      match arms with
      | [] => fleave e (fblock other e)
      | (r, g, l) :: arms' =>
          if in_range c r
          then do ok <- match g with None => Ok true | Some g => do x <- eval text e g; as_bool x end;
               if ok then fleave e (fblock l e) else try arms'
          else try arms'
      end.
  Lemma fblock_cons s r e : fblock (s :: r) e = do o <- fexec s e; match o with inl e' => fblock r e' | inr v => Ok (inr v) end.
  Proof. reflexivity. Qed.
  Lemma fblock_app l m : forall e, fblock (l ++ m) e = do o <- fblock l e; match o with inl e' => fblock m e' | inr v => Ok (inr v) end.
  Proof.
    induction l as [|s l IH]; intros e; [reflexivity|]. cbn [app]. rewrite !fblock_cons. destruct (fexec s e) as [[e'|v]| | |]; cbn [bind]; try reflexivity. apply IH.
  Qed.
  Lemma fexec_if a l m e : fexec (FIf a l m) e = do v <- eval text e a; do b <- as_bool v; fleave e (fblock (if b then l else m) e).
  Proof. reflexivity. Qed.
  Lemma fexec_split n l e : fexec (FSplit n l) e =
    do v <- getv Xbytes e; do bs <- as_list v;
    if n <=? length bs then Ok (inl ((Xrest, VArr (skipn n bs)) :: (Xrun_part, VArr (firstn n bs)) :: e))
    else do o <- fblock l e; match o with inr v => Ok (inr v) | inl _ => NoCompile end.
  Proof. reflexivity. Qed.
  Lemma fexec_next none arms other e bs : look Xbytes e = Some (VArr (map VByte bs)) -> fexec (FNext none arms other) e =
    match bs with [] => fleave e (fblock none e) | c :: r => ftries c (assign Xbytes (VArr (map VByte r)) e) other arms end.
  Proof. intros H. destruct bs as [|c r]; cbn [RustFn.fexec map]; unfold getv; rewrite H; reflexivity. Qed.
  (** Statements of Rust.v *)
  Lemma fblock_plain {X} (F : X -> stmt) l : forall e, fblock (map (fun x => FS (F x)) l) e = do o <- Rust.block text no_call (map F l) e; Ok (match o with inl e' => inl e' | inr v => inr (Ret v) end).
  Proof.
    induction l as [|x l IH]; intros e; [reflexivity|]. cbn [map]. rewrite fblock_cons, block_cons. cbn [RustFn.fexec].
    destruct (exec text no_call (F x) e) as [[e'|v]| | |]; cbn [bind]; try reflexivity. apply IH.
  Qed.
  Lemma fleave_inr e v : fleave e (Ok (inr v)) = Ok (inr v).
  Proof. reflexivity. Qed.
  Lemma fleave_same e : fleave e (fblock [] e) = Ok (inl e).
  Proof. cbn [RustFn.fblock fleave bind]. rewrite Nat.sub_diag. reflexivity. Qed.
  (** Conditions of a run *)
  Fixpoint bools (rs : list range) (bs : list N) : list bool :=
    match rs, bs with r :: rs', c :: bs' => (fst r <=? c)%N :: (c <=? snd r)%N :: bools rs' bs' | _, _ => [] end.
  Lemma run_bools e rs : forall bs pre, length bs = length rs -> look Xrun_part e = Some (VArr (map VByte (pre ++ bs))) ->
    Forall2 (fun a b => eval text e a = Ok (VBool b))
      (flat_map (fun p : nat * range => let x := EIdx (EVar Xrun_part) (ENum (fst p)) in [ELe (EByte (fst (snd p))) x; ELe x (EByte (snd (snd p)))]) (combine (seq (length pre) (length rs)) rs))
      (bools rs bs).
  Proof.
    induction rs as [|r rs IH]; intros [|c bs] pre Hl He; try discriminate Hl; [constructor|]. cbn [length seq combine flat_map app bools].
    assert (Hx : eval text e (EIdx (EVar Xrun_part) (ENum (length pre))) = Ok (VByte c)).
    { cbn [eval]. unfold getv. rewrite He. cbn [need bind as_list index]. rewrite map_app, nth_error_app2 by (rewrite map_length; lia). rewrite map_length, Nat.sub_diag. reflexivity. }
    constructor; [|constructor].
    - cbn [fst snd]. change (eval text e (ELe (EByte (fst r)) (EIdx (EVar Xrun_part) (ENum (length pre))))) with
        (do x <- eval text e (EByte (fst r)); do y <- eval text e (EIdx (EVar Xrun_part) (ENum (length pre))); match x, y with VByte c, VByte d => Ok (VBool (c <=? d)%N) | _, _ => NoCompile end).
      rewrite Hx. reflexivity.
    - cbn [fst snd]. change (eval text e (ELe (EIdx (EVar Xrun_part) (ENum (length pre))) (EByte (snd r)))) with
        (do x <- eval text e (EIdx (EVar Xrun_part) (ENum (length pre))); do y <- eval text e (EByte (snd r)); match x, y with VByte c, VByte d => Ok (VBool (c <=? d)%N) | _, _ => NoCompile end).
      rewrite Hx. reflexivity.
    - assert (IH' := IH bs (pre ++ [c])). rewrite app_length in IH'. cbn [length] in IH'. rewrite Nat.add_1_r in IH'. apply IH'; [cbn [length] in Hl; lia|]. rewrite <- app_assoc. exact He.
  Qed.
  Lemma both_eval e conds : forall bs c b, Forall2 (fun a b => eval text e a = Ok (VBool b)) conds bs -> eval text e c = Ok (VBool b) ->
    eval text e (fold_left EBoth conds c) = Ok (VBool (b && forallb id bs)).
  Proof.
    induction conds as [|a conds IH]; intros bs c b H Hc; inversion H as [|a' x l l' Ha Hl]; subst; cbn [fold_left forallb].
    - rewrite andb_true_r. exact Hc.
    - rewrite (IH l' _ (b && x)); [unfold id at 2; now rewrite andb_assoc|assumption|]. cbn [eval]. rewrite Hc. cbn [bind as_bool]. rewrite Ha. reflexivity.
  Qed.
  Lemma bools_match rs : forall bs, match_run rs bs = if length rs <=? length bs then if forallb id (bools rs (firstn (length rs) bs)) then Some (skipn (length rs) bs) else None else None.
  Proof.
    induction rs as [|r rs IH]; intros [|c bs]; try reflexivity. cbn [match_run length firstn bools forallb skipn Nat.leb]. rewrite IH. unfold in_range, id at 1 2.
    destruct (fst r <=? c)%N, (c <=? snd r)%N; cbn [andb]; try reflexivity; now destruct (_ <=? _).
  Qed.
  Lemma run_result_block rs e bs : rs <> [] -> length bs = length rs -> look Xrun_part e = Some (VArr (map VByte bs)) ->
    fblock (run_result rs) e = Ok (inl ((Xresult, VBool (forallb id (bools rs bs))) :: e)).
  Proof.
    intros Hn Hl He. assert (H := run_bools e rs bs [] Hl He). unfold run_result, run_conditions, enumerate.
    destruct rs as [|r rs]; [congruence|]. destruct bs as [|c bs]; [discriminate Hl|]. cbn [length seq combine flat_map app bools] in *.
    inversion H as [|a b l l' Ha Hl']; subst. clear H.
    rewrite fblock_cons. cbn [RustFn.fexec exec]. erewrite both_eval; [|exact Hl'|exact Ha]. reflexivity.
  Qed.
End Steps.

(** ** The functions *)
Lemma find_none_iff {X} (f : X -> bool) l : (forall x, In x l -> f x = false) -> find f l = None.
Proof. intros H. destruct (find f l) as [x|] eqn:E; [|reflexivity]. apply find_some in E as [E1 E2]. rewrite (H x E1) in E2. discriminate E2. Qed.
Lemma find_app_fun {X} (f : X -> bool) l m : find f (l ++ m) = match find f l with Some x => Some x | None => find f m end.
Proof. induction l as [|x l IH]; [reflexivity|]. cbn [app find]. destruct (f x); [reflexivity|exact IH]. Qed.
Lemma find_fun {X} (F : nat * X -> list sfun) L s : (forall p x, In x (F p) -> sf_id x = fst p) -> NoDup (map fst L) ->
  find (fun sf => sf_id sf =? s) (flat_map F L) = match find (fun p => fst p =? s) L with Some p => hd_error (F p) | None => None end.
Proof.
  intros HF. induction L as [|p L IH]; intros Hn; [reflexivity|]. cbn [flat_map map find] in *. inversion Hn as [|a l Ha Hl]; subst. rewrite find_app_fun.
  destruct (Nat.eqb_spec (fst p) s) as [E|E].
  - assert (HP := HF p). destruct (F p) as [|x l]; cbn [find hd_error].
    + assert (G : find (fun sf => sf_id sf =? s) (flat_map F L) = None).
      { apply find_none_iff. intros x Hx. apply in_flat_map in Hx as (q & Hq & Hx). rewrite (HF q x Hx). apply Nat.eqb_neq. intros E'. apply Ha. rewrite E, <- E'. now apply in_map. }
      exact G.
    + rewrite (HP x) by now left. rewrite E, Nat.eqb_refl. reflexivity.
  - assert (G : find (fun sf => sf_id sf =? s) (F p) = None).
    { apply find_none_iff. intros x Hx. rewrite (HF p x Hx). now apply Nat.eqb_neq. }
    rewrite G. apply IH. exact Hl.
Qed.

Lemma kept_out {X} ex (l : list X) i x : In (i, x) (kept ex l) -> nth_error l i = Some x /\ nth i ex true = false.
Proof. unfold kept. intros H. apply filter_In in H as [H1 H2]. apply In_enumerate in H1. cbn [fst] in H2. destruct (nth i ex true); [discriminate H2|auto]. Qed.
Lemma kept_find {X} ex (l : list X) d s : find (fun p => fst p =? s) (kept ex l) = if (s <? length l) && negb (nth s ex true) then Some (s, nth s l d) else None.
Proof.
  destruct (find _ _) as [[i x]|] eqn:E.
  - apply find_some in E as [E1 E2]. cbn [fst] in E2. apply Nat.eqb_eq in E2 as ->. apply kept_out in E1 as [E1 E2].
    assert (Hs : s < length l) by (apply nth_error_Some; congruence). apply Nat.ltb_lt in Hs. rewrite Hs, E2. apply (nth_error_nth _ _ d) in E1. now rewrite E1.
  - destruct (Nat.ltb_spec s (length l)) as [Hs|Hs]; [|reflexivity]. destruct (nth s ex true) eqn:He; [reflexivity|].
    assert (G := find_none _ _ E _ (kept_In ex l d s Hs He)). cbn [fst] in G. rewrite Nat.eqb_refl in G. discriminate G.
Qed.
Lemma kept_fst_nodup {X} ex (l : list X) : NoDup (map fst (kept ex l)).
Proof. unfold kept. apply filter_map_fst_nodup. rewrite enumerate_fst. apply seq_NoDup. Qed.

(** What is needed of the tables and runs *)
Record fun_fit (n : nfa range) (tab : op_tables) (runs : list inclusion) : Prop := {
  u_runs : length runs = length n;
  u_to : forall s r tu, In (r, tu) (nth s (op_syms tab) []) -> (fst r <= snd r)%N /\ Forall (fun t => tag_group t < num_capture_groups n) (tu_tags tu);
  u_acc : forall s tu, In tu (nth s (op_accs tab) []) -> Forall (fun t => tag_group t < num_capture_groups n) (tu_tags tu);
  u_run : forall s r, s < length n -> nth s runs RNone = RStart r -> run_symbols r <> [] /\ Forall (fun t => tag_group (snd t) < num_capture_groups n) (run_tags r) }.
Section Find.
  Variables (n : nfa range) (runs : list inclusion).
  Hypothesis Hl : length runs = length n.
  Variables (W : nat -> run -> sfun) (O : nat -> sfun).
  Hypothesis HW : forall s r, sf_id (W s r) = s.
  Hypothesis HO : forall s, sf_id (O s) = s.
  Lemma emitted_lt s : fun_emitted (op_excluded n) runs s = true -> s < length n.
  Proof.
    unfold fun_emitted. intros H. apply andb_true_iff in H as [H _]. destruct (Nat.lt_ge_cases s (length n)) as [L|L]; [assumption|].
    rewrite nth_overflow in H by (rewrite op_excluded_length; assumption). discriminate H.
  Qed.
  Lemma state_find s : find (fun sf => sf_id sf =? s) (state_funs (op_excluded n) runs W O)
    = if fun_emitted (op_excluded n) runs s then Some (match nth s runs RNone with RStart r => W s r | _ => O s end) else None.
  Proof using Hl HW HO.
    unfold state_funs. rewrite find_fun; [|intros [i x] y; cbn [fst snd]; destruct x; cbn; intros [<-|[]] || intros []; auto|apply kept_fst_nodup].
    rewrite (kept_find _ _ RNone). destruct (fun_emitted (op_excluded n) runs s) eqn:E.
    - assert (L := emitted_lt s E). rewrite <- Hl in L. apply Nat.ltb_lt in L. rewrite L. unfold fun_emitted in E. apply andb_true_iff in E as [E1 E2]. rewrite E1. cbn [andb hd_error fst snd].
      destruct (nth s runs RNone); [reflexivity|discriminate E2|reflexivity|reflexivity].
    - unfold fun_emitted in E. destruct ((s <? length runs) && negb (nth s (op_excluded n) true)) eqn:G; [|reflexivity]. apply andb_true_iff in G as [_ G]. rewrite G in E. cbn [andb] in E.
      cbn [hd_error fst snd]. destruct (nth s runs RNone); try discriminate E. reflexivity.
  Qed.
End Find.
Section Fun.
  Variables (n : nfa range) (tab : op_tables) (runs : list inclusion) (text : list N).
  Hypothesis HF : fun_fit n tab runs.
  Hypothesis Ho : fun_compiles n tab runs = true.
  Notation ex := (op_excluded n).
  Notation g := (num_capture_groups n).
  Notation emitted s := (fun_emitted ex runs s = true).
  Lemma emitted_next s : emitted s -> match nth s runs RNone with
    | RStart r => emitted (run_end r)
    | _ => length (nth s (op_accs tab) []) <= 1 /\ forall x, In x (nth s (op_syms tab) []) -> emitted (tu_state (snd x)) end.
  Proof using Ho.
    intros H. assert (L := emitted_lt n runs s H). unfold fun_compiles in Ho. apply andb_true_iff in Ho as [_ G]. rewrite forallb_forall in G.
    specialize (G s ltac:(apply in_seq; lia)). unfold fun_emitted in H. apply andb_true_iff in H as [H1 H2]. destruct (nth s ex true); [discriminate H1|].
    destruct (nth s runs RNone); [exact G|discriminate H2|..]; apply andb_true_iff in G as [G1 G2]; apply Nat.leb_le in G1; rewrite forallb_forall in G2; auto.
  Qed.
  Lemma guard_tries s start c e other (body : strans -> list fstmt) syms : look Xstart e = Some (VBool start) ->
    ftries text c e other (map (fun x => (fst x, fun_guard s (snd x), body x)) syms)
    = match find (fun x => in_range c (fst x) && fun_cond s start (snd x)) syms with
      | Some x => fleave e (fblock text (body x) e)
      | None => fleave e (fblock text other e)
      end.
  Proof.
    intros He. induction syms as [|[r tu] syms IH]; [reflexivity|]. cbn [map find fst snd ftries]. destruct (in_range c r); cbn [andb]; [|exact IH].
    unfold fun_guard, fun_cond. destruct (tu_end tu || (tu_start tu && negb (s =? 0))); [exact IH|].
    destruct (tu_start tu && (s =? 0)); [|reflexivity]. cbn [eval]. unfold getv. rewrite He. cbn [need bind as_bool]. destruct start; [reflexivity|exact IH].
  Qed.

  Lemma test_end_eval s start bytes accs : eval text [(Xstart, VBool start); (Xbytes, bytes)] (test_end s accs) = Ok (VBool (fun_end_test s start accs)).
  Proof. unfold test_end, fun_end_test. destruct accs; [reflexivity|]. destruct (existsb _ _); [reflexivity|]. destruct (s =? 0); reflexivity. Qed.
  Lemma fun_test_go fuel : forall s start bytes, emitted s ->
    go text fuel (g_states (fun_test_prog n tab runs)) s [VArr (map VByte bytes); VBool start] = do b <- fun_test fuel tab runs s start bytes; Ok (VBool b).
  Proof using HF Ho.
    induction fuel as [|fuel IH]; intros s start bytes Hs; [reflexivity|]. cbn [go fun_test]. cbn [fun_test_prog g_states].
    rewrite state_find by (reflexivity || apply (u_runs _ _ _ HF)). rewrite Hs. assert (Hn := emitted_next s Hs).
    assert (Normal : (forall x, In x (nth s (op_syms tab) []) -> emitted (tu_state (snd x))) ->
      (do e <- bind_params (sf_args (test_state_code s (nth s (op_accs tab) []) (nth s (op_syms tab) []))) [VArr (map VByte bytes); VBool start] [];
       do o <- fblock text (sf_body (test_state_code s (nth s (op_accs tab) []) (nth s (op_syms tab) []))) e;
       match o with inl _ => NoCompile | inr (Ret v) => Ok v | inr (Go f ws) => go text fuel (g_states (fun_test_prog n tab runs)) f ws end)
      = do b <- match bytes with
             | [] => Ok (fun_end_test s start (nth s (op_accs tab) []))
             | c :: rest => match fun_arm tab s start c with
                            | Some tu => fun_test fuel tab runs (tu_state tu) false rest
                            | None => Ok false
                            end
             end; Ok (VBool b)).
    { clear Hn. intros Hn. cbn [test_state_code sf_args sf_body test_args bind_params length Nat.eqb map fst combine rev app bind]. rewrite fblock_cons.
      rewrite (fexec_next _ _ _ _ _ bytes) by reflexivity. destruct bytes as [|c rest].
      - rewrite fblock_cons. cbn [fexec exec]. rewrite test_end_eval. reflexivity.
      - rewrite (guard_tries s start) by reflexivity. unfold fun_arm. destruct (find _ _) as [[r tu]|] eqn:E; [|reflexivity].
        apply find_some in E as [E _]. specialize (Hn _ E). cbn [snd] in *. rewrite fblock_cons. cbn [fexec mapM eval assign var_eqb]. unfold getv. cbn [look var_eqb need bind fleave].
        apply IH. exact Hn. }
    destruct (nth s runs RNone) as [r| | |] eqn:Er; [|now apply Normal..].
    cbn [test_run_code sf_args sf_body test_args bind_params length Nat.eqb map fst combine rev app bind]. rewrite fblock_cons, fexec_split. unfold getv. cbn [look var_eqb need bind as_list]. rewrite map_length, bools_match.
    destruct (Nat.leb_spec (length (run_symbols r)) (length bytes)) as [L|L]; [|reflexivity]. cbn [bind].
    rewrite fblock_app, firstn_map, skipn_map. destruct (u_run _ _ _ HF s r (emitted_lt n runs s Hs) Er) as [U _].
    rewrite (run_result_block _ _ _ (firstn (length (run_symbols r)) bytes)) by (reflexivity || assumption || (rewrite firstn_length; lia)).
    cbn [bind]. rewrite fblock_cons, fexec_if. cbn [eval]. unfold getv. cbn [look var_eqb need bind as_bool]. destruct (forallb id _); [|reflexivity].
    rewrite fblock_cons. cbn [fexec mapM eval]. unfold getv. cbn [look var_eqb need bind fleave]. apply IH. exact Hn.
  Qed.
  Lemma fun_test_prog_run : run_prog text (fun_test_prog n tab runs) = do b <- fun_test (S (length (utf8 text))) tab runs 0 true (utf8 text); Ok (VBool b).
  Proof using HF Ho.
    assert (H0 : emitted 0) by (unfold fun_compiles in Ho; apply andb_true_iff in Ho; tauto).
    rewrite <- fun_test_go by exact H0. reflexivity.
  Qed.

  (** Captures *)
  Lemma capture_block tu i b e : look Xcaptures e = Some (enc_bounds b) -> look Xbyte_idx e = Some (VNum i) -> Forall (fun t => tag_group t < length b) (tu_tags tu) ->
    fblock text (capture_code tu) e = Ok (inl (assign Xcaptures (enc_bounds (apply_tu i tu b)) e)).
  Proof.
    intros Hc Hi Ht. unfold capture_code. rewrite fblock_plain.
    assert (B := block_tags text no_call Xcaptures (EVar Xbyte_idx) i (tu_tags tu) b e Hc). rewrite B; [reflexivity| |exact Ht].
    intros v. cbn [eval]. unfold getv. rewrite look_other by discriminate. rewrite Hi. reflexivity.
  Qed.
  Lemma run_tags_block ts i : forall b e, look Xcaptures e = Some (enc_bounds b) -> look Xbyte_idx e = Some (VNum i) -> Forall (fun t : nat * tag => tag_group (snd t) < length b) ts ->
    fblock text (map (fun t => FS (set_tag Xcaptures [] (EPlus (ENum (fst t)) (EVar Xbyte_idx)) (snd t))) ts) e
    = Ok (inl (assign Xcaptures (enc_bounds (fold_left (fun b t => apply_tag (fst t + i) b (snd t)) ts b)) e)).
  Proof.
    induction ts as [|t ts IH]; intros b e Hc Hi Ht; cbn [map fold_left].
    - rewrite assign_same by assumption. reflexivity.
    - rewrite fblock_cons. cbn [fexec].
      rewrite (exec_set_tag _ _ _ _ [] _ _ _ (enc_bounds b) (enc_bounds (apply_tag (fst t + i) b (snd t))) (fst t + i));
        [|exact Hc|cbn [eval]; unfold getv; rewrite Hi; reflexivity|reflexivity|apply store_tag; exact (Forall_inv Ht)].
      cbn [bind]. rewrite (IH (apply_tag (fst t + i) b (snd t))).
      + now rewrite assign_twice.
      + now apply (look_assign _ _ _ (enc_bounds b)).
      + rewrite look_other by discriminate. exact Hi.
      + apply Forall_inv_tail in Ht. rewrite apply_tag_length. exact Ht.
  Qed.
  Definition enc_out (o : option bounds) : val := VOpt (option_map enc_bounds o).
  Lemma fold_tags_length ts i : forall b, length (fold_left (fun b (t : nat * tag) => apply_tag (fst t + i) b (snd t)) ts b) = length b.
  Proof. induction ts as [|t ts IH]; intros b; [reflexivity|]. cbn [fold_left]. now rewrite IH, apply_tag_length. Qed.
  Lemma fun_exec_go fuel : forall s start i b bytes, emitted s -> length b = g ->
    go text fuel (g_states (fun_exec_prog n tab runs)) s [VArr (map VByte bytes); VNum i; enc_bounds b; VBool start]
    = do o <- fun_exec fuel tab runs s start i b bytes; Ok (enc_out o).
  Proof using HF Ho.
    induction fuel as [|fuel IH]; intros s start i b bytes Hs Hb; [reflexivity|]. cbn [go fun_exec]. cbn [fun_exec_prog g_states].
    rewrite state_find by (reflexivity || apply (u_runs _ _ _ HF)). rewrite Hs. assert (Hn := emitted_next s Hs).
    assert (Normal : length (nth s (op_accs tab) []) <= 1 /\ (forall x, In x (nth s (op_syms tab) []) -> emitted (tu_state (snd x))) ->
      (do e <- bind_params (sf_args (exec_state_code g s (nth s (op_accs tab) []) (nth s (op_syms tab) []))) [VArr (map VByte bytes); VNum i; enc_bounds b; VBool start] [];
       do o <- fblock text (sf_body (exec_state_code g s (nth s (op_accs tab) []) (nth s (op_syms tab) []))) e;
       match o with inl _ => NoCompile | inr (Ret v) => Ok v | inr (Go f ws) => go text fuel (g_states (fun_exec_prog n tab runs)) f ws end)
      = do o <- match bytes with
             | [] => Ok (fun_end_exec s start i b (nth s (op_accs tab) []))
             | c :: rest => match fun_arm tab s start c with
                            | Some tu => fun_exec fuel tab runs (tu_state tu) false (S i) (apply_tu i tu b) rest
                            | None => Ok None
                            end
             end; Ok (enc_out o)).
    { clear Hn. intros [Ha Hn]. cbn [exec_state_code sf_args sf_body exec_args bind_params length Nat.eqb map fst combine rev app bind]. rewrite fblock_cons.
      rewrite (fexec_next _ _ _ _ _ bytes) by reflexivity. destruct bytes as [|c rest].
      - assert (HA := u_acc _ _ _ HF s). unfold exec_end, fun_end_exec. destruct (nth s (op_accs tab) []) as [|tu [|tu' l]]; [reflexivity| |cbn [length] in Ha; lia].
        specialize (HA tu (or_introl eq_refl)). rewrite <- Hb in HA. destruct (tu_start tu) eqn:Et; cbn [andb]; [destruct (s =? 0) eqn:E0; cbn [negb]|].
        + rewrite fblock_app, (capture_block tu i b) by (reflexivity || assumption). cbn [bind assign var_eqb]. rewrite fblock_cons, fexec_if. cbn [eval]. unfold getv. cbn [look var_eqb need bind as_bool].
          destruct start; reflexivity.
        + reflexivity.
        + rewrite fblock_app, (capture_block tu i b) by (reflexivity || assumption). reflexivity.
      - rewrite (guard_tries s start) by reflexivity. unfold fun_arm. destruct (find _ _) as [[r tu]|] eqn:E; [|reflexivity].
        apply find_some in E as [E _]. specialize (Hn _ E). destruct (u_to _ _ _ HF s r tu E) as [_ HA]. rewrite <- Hb in HA. cbn [snd] in *. rewrite fblock_app, (capture_block tu i b) by (reflexivity || assumption).
        cbn [bind assign var_eqb]. rewrite fblock_cons. cbn [fexec mapM eval]. unfold getv. cbn [look var_eqb need bind fleave].
        apply IH; [exact Hn|]. unfold apply_tu. now rewrite apply_tags_length. }
    destruct (nth s runs RNone) as [r| | |] eqn:Er; [|now apply Normal..]. clear Normal.
    cbn [exec_run_code sf_args sf_body exec_args bind_params length Nat.eqb map fst combine rev app bind]. rewrite fblock_cons, fexec_split. unfold getv. cbn [look var_eqb need bind as_list]. rewrite map_length, bools_match.
    destruct (Nat.leb_spec (length (run_symbols r)) (length bytes)) as [L|L]; [|reflexivity]. cbn [bind].
    rewrite fblock_app, firstn_map, skipn_map. destruct (u_run _ _ _ HF s r (emitted_lt n runs s Hs) Er) as [U V].
    rewrite (run_result_block _ _ _ (firstn (length (run_symbols r)) bytes)) by (reflexivity || assumption || (rewrite firstn_length; lia)).
    cbn [bind]. rewrite fblock_cons, fexec_if. cbn [eval]. unfold getv. cbn [look var_eqb need bind as_bool negb]. destruct (forallb id _); [|reflexivity].
    cbn [negb]. rewrite (fleave_same) by reflexivity. cbn [bind]. rewrite <- Hb in V. rewrite fblock_app, (run_tags_block (run_tags r) i b) by (reflexivity || assumption). cbn [bind assign var_eqb].
    rewrite fblock_cons. cbn [fexec mapM eval]. unfold getv. cbn [look var_eqb need bind fleave]. apply IH; [exact Hn|]. now rewrite fold_tags_length.
  Qed.
  Lemma fun_exec_length fuel : forall s start i b bytes o, fun_exec fuel tab runs s start i b bytes = Ok (Some o) -> length o = length b.
  Proof.
    induction fuel as [|fuel IH]; intros s start i b bytes o H; [discriminate H|]. cbn [fun_exec] in H.
    assert (Normal : match bytes with
             | [] => Ok (fun_end_exec s start i b (nth s (op_accs tab) []))
             | c :: rest => match fun_arm tab s start c with
                            | Some tu => fun_exec fuel tab runs (tu_state tu) false (S i) (apply_tu i tu b) rest
                            | None => Ok None
                            end
             end = Ok (Some o) -> length o = length b).
    { clear H. destruct bytes as [|c rest].
      - unfold fun_end_exec, apply_tu. destruct (nth s (op_accs tab) []) as [|tu l]; [intros Q; discriminate Q|].
        destruct (tu_start tu), (s =? 0), start; intros Q; try discriminate Q; injection Q as <-; apply apply_tags_length.
      - destruct (fun_arm tab s start c) as [tu|]; [|intros Q; discriminate Q]. intros Q. apply IH in Q. rewrite Q. apply apply_tags_length. }
    destruct (nth s runs RNone) as [r| | |]; [|now apply Normal..]. destruct (match_run _ _) as [rest|]; [|discriminate H]. cbv zeta in H. apply IH in H. rewrite H. apply fold_tags_length.
  Qed.
  Lemma fun_exec_run : run_fun_exec n tab runs text
    = do o <- fun_exec (S (length (utf8 text))) tab runs 0 true 0 (no_bounds g) (utf8 text); do r <- run_finish text o; Ok (enc_result r).
  Proof using HF Ho.
    assert (H0 : emitted 0) by (unfold fun_compiles in Ho; apply andb_true_iff in Ho; tauto).
    unfold run_fun_exec, run_prog. cbn [fun_exec_prog g_body]. rewrite fblock_cons. cbn [fexec exec eval e_bounds bind]. rewrite enc_no_bounds. rewrite fblock_cons. cbn [fexec mapM eval]. unfold getv. cbn [look var_eqb need bind].
    rewrite (fun_exec_go (S (length (utf8 text))) 0 true 0 (no_bounds g) (utf8 text) H0) by apply repeat_length.
    assert (HL := fun_exec_length (S (length (utf8 text))) 0 true 0 (no_bounds g) (utf8 text)).
    destruct (fun_exec _ _ _ _ _ _ _ _) as [[b|]| | |]; try reflexivity. specialize (HL b eq_refl). unfold no_bounds in HL. rewrite repeat_length in HL.
    cbn [bind enc_out option_map]. unfold run_func, fun_outer_code. cbn [f_args f_body f_procs bind_params length Nat.eqb bind map combine rev app fst].
    rewrite (block_finish _ _ _ _ _ _ b) by (auto; reflexivity). cbn [run_finish]. destruct (finish text b); reflexivity.
  Qed.
End Fun.

(** ** The checks *)
Lemma distinct_ids_iff l : distinct_ids l = true <-> NoDup l.
Proof.
  induction l as [|a l IH]; cbn [distinct_ids]; [split; constructor|]. rewrite andb_true_iff, IH. split.
  - intros [H1 H2]. constructor; [|assumption]. intros Hin. rewrite negb_true_iff in H1. assert (E : existsb (Nat.eqb a) l = true) by (apply existsb_exists; exists a; split; [assumption|apply Nat.eqb_refl]). congruence.
  - intros H. inversion H as [|x y Hx Hy]; subst. split; [|assumption]. apply negb_true_iff. destruct (existsb _ _) eqn:E; [|reflexivity]. apply existsb_exists in E as (b & Hb & E). apply Nat.eqb_eq in E as ->. contradiction.
Qed.
Section Steps.
  Variables (fs : list sfun) (result : ty).
  Notation fgood := (fgood fs result).
  Notation fgoods := (fgoods fs result).
  Lemma fgoods_cons s r G : fgoods (s :: r) G = match fgood s G with Some G' => fgoods r G' | None => false end.
  Proof. reflexivity. Qed.
  Lemma fgoods_app l m G : Forall (fun s => fgood s G = Some G) l -> fgoods (l ++ m) G = fgoods m G.
  Proof. induction 1 as [|s l Hs Hl IH]; [reflexivity|]. cbn [app]. rewrite fgoods_cons, Hs. exact IH. Qed.
  Lemma fgood_if a l m G : fgood (FIf a l m) G = if Rust.has [] G a TBool && fgoods l G && fgoods m G then Some G else None.
  Proof. reflexivity. Qed.
  Lemma fgood_split k l G : fgood (FSplit k l) G = if is_bytes G && fgoods l G && existsb freturns l then Some ((Xrest, TVec TByte) :: (Xrun_part, TVec TByte) :: G) else None.
  Proof. reflexivity. Qed.
  Lemma fgood_next {X} none (F : X -> range * option rexp * list fstmt) l other G : fgood (FNext none (map F l) other) G =
    if is_bytes G && fgoods none G && fgoods other G
       && forallb (fun x => let '(r, h, b) := F x in (fst r <=? snd r)%N && match h with None => true | Some h => Rust.has [] G h TBool end && fgoods b G) l then Some G else None.
  Proof.
    cbn [RustFn.fgood]. match goal with |- (if _ && ?A then _ else _) = (if _ && ?B then _ else _) => assert (E : A = B) end.
    { induction l as [|x l IH]; [reflexivity|]. cbn [map forallb]. destruct (F x) as [[r h] b]. rewrite IH. reflexivity. }
    rewrite E. reflexivity.
  Qed.
  Lemma fgood_ret a G : fgood (FS (SRet a)) G = if Rust.has [] G a result then Some G else None.
  Proof. reflexivity. Qed.
  Lemma both_has G conds : forall c, Forall (fun a => infer [] G a = Some TBool) conds -> infer [] G c = Some TBool -> infer [] G (fold_left EBoth conds c) = Some TBool.
  Proof. induction conds as [|a conds IH]; intros c H Hc; [exact Hc|]. cbn [fold_left]. apply IH; [exact (Forall_inv_tail H)|]. cbn [infer]. rewrite Hc, (Forall_inv H). reflexivity. Qed.
  Lemma has_of_infer G a t : infer [] G a = Some t -> Rust.has [] G a t = true.
  Proof. destruct a; cbn [Rust.has]; intros H; try discriminate H; rewrite H; apply ty_refl. Qed.
  Lemma run_result_good rs r G : rs <> [] -> look Xrun_part G = Some (TVec TByte) -> fgoods (run_result rs ++ r) G = fgoods r ((Xresult, TBool) :: G).
  Proof.
    intros Hn Hl. unfold run_result. assert (H : Forall (fun a => infer [] G a = Some TBool) (run_conditions rs)).
    { unfold run_conditions. apply Forall_forall. intros a Ha. apply in_flat_map in Ha as (p & _ & Ha). cbn in Ha. destruct Ha as [<-|[<-|[]]]; cbn [infer]; rewrite Hl; reflexivity. }
    assert (H' : run_conditions rs <> []) by (destruct rs; [congruence|discriminate]). destruct (run_conditions rs) as [|c l]; [congruence|].
    cbn [app]. rewrite fgoods_cons. cbn [RustFn.fgood]. rewrite good_let; [reflexivity|]. apply has_of_infer. apply both_has; [exact (Forall_inv_tail H)|exact (Forall_inv H)].
  Qed.
End Steps.
Section Check.
  Variables (n : nfa range) (tab : op_tables) (runs : list inclusion).
  Hypothesis HF : fun_fit n tab runs.
  Notation ex := (op_excluded n).
  Notation g := (num_capture_groups n).
  Section Any.
    Variables (W : nat -> run -> sfun) (O : nat -> sfun) (A : list (var * ty)).
    Hypothesis HW : forall s r, sf_id (W s r) = s.
    Hypothesis HO : forall s, sf_id (O s) = s.
    Hypothesis WA : forall s r, sf_args (W s r) = A.
    Hypothesis OA : forall s, sf_args (O s) = A.
    Notation fs := (state_funs ex runs W O).
    Lemma states_distinct : distinct_ids (map sf_id fs) = true.
    Proof using HW HO.
      apply distinct_ids_iff. unfold state_funs. assert (H := kept_fst_nodup ex runs). induction (kept ex runs) as [|[i x] l IH]; [constructor|]. cbn [map fst] in H. inversion H as [|a b Ha Hb]; subst. cbn [flat_map snd fst].
      assert (G : forall j, In j (map sf_id (flat_map (fun p : nat * inclusion => match snd p with RStart r => [W (fst p) r] | RInternal => [] | REnd | RNone => [O (fst p)] end) l)) -> In j (map fst l)).
      { clear -HW HO. intros j Hj. apply in_map_iff in Hj as (sf & <- & Hj). apply in_flat_map in Hj as ([k y] & Hk & Hj). cbn [fst snd] in Hj. apply in_map_iff. exists (k, y). split; [|assumption]. cbn [fst].
        destruct y; try (now destruct Hj); destruct Hj as [<-|[]]; symmetry; auto. }
      destruct x; cbn [app map]; try (constructor; [rewrite ?HW, ?HO; intros Q; now apply G in Q|]); now apply IH.
    Qed.
    Lemma states_all (P : sfun -> bool) (C : nat -> bool) :
      (forall s, s < length n -> fun_emitted ex runs s = true -> P (match nth s runs RNone with RStart r => W s r | _ => O s end) = C s) ->
      (forall s, s < length n -> fun_emitted ex runs s = false -> C s = true) ->
      forallb P fs = forallb C (seq 0 (length n)).
    Proof using HF HW HO.
      clear WA OA. intros H1 H2. apply eq_true_iff_eq. rewrite !forallb_forall. split; intros H.
      - intros s Hs. apply in_seq in Hs. destruct (fun_emitted ex runs s) eqn:E; [|apply H2; [lia|assumption]]. rewrite <- H1 by (assumption || lia). apply H.
        assert (Q := state_find n runs (u_runs _ _ _ HF) W O HW HO s). rewrite E in Q. now apply find_some in Q.
      - intros sf Hin. unfold state_funs in Hin. apply in_flat_map in Hin as ([s x] & Hk & Hin). apply kept_out in Hk as [Hk He]. cbn [fst snd] in Hin.
        assert (Hs : s < length n) by (rewrite <- (u_runs _ _ _ HF); apply nth_error_Some; congruence). apply (nth_error_nth _ _ RNone) in Hk.
        assert (Em : x <> RInternal -> fun_emitted ex runs s = true) by (unfold fun_emitted; rewrite He, Hk; destruct x; intros Q; [reflexivity|congruence|reflexivity|reflexivity]).
        assert (HC : C s = true) by (apply H; apply in_seq; lia).
        specialize (H1 s Hs). rewrite Hk, HC in H1. destruct x; try (now destruct Hin); destruct Hin as [<-|[]]; apply H1, Em; discriminate.
    Qed.
    Lemma go_good result s args G : all2 (Rust.has [] G) args (map snd A) = true -> fgood fs result (FGo s args) G = if fun_emitted ex runs s then Some G else None.
    Proof using HF HW HO WA OA.
      intros H. cbn [fgood]. rewrite (state_find n runs (u_runs _ _ _ HF)) by assumption. destruct (fun_emitted ex runs s); [|reflexivity].
      replace (sf_args (match nth s runs RNone with RStart r => W s r | _ => O s end)) with A by (destruct (nth s runs RNone); auto). rewrite H. reflexivity.
    Qed.
  End Any.
  Notation G_exec := [(Xstart, TBool); (Xcaptures, t_bounds g); (Xbyte_idx, TNum); (Xbytes, TVec TByte)].
  Lemma set_tag_good fs result G a t : look Xcaptures G = Some (t_bounds g) -> Rust.has [] G a TNum = true -> tag_group t < g ->
    fgood fs result (FS (set_tag Xcaptures [] a t)) G = Some G.
  Proof.
    intros Hl Ha Ht. apply Nat.ltb_lt in Ht. destruct t as [i|i]; cbn [set_tag fgood Rust.good tag_group app] in *; rewrite Hl; cbn [place t_bounds infer t_pair]; rewrite Ht; rewrite Ha; reflexivity.
  Qed.
  Lemma capture_good fs result tu : Forall (fun t => tag_group t < g) (tu_tags tu) -> Forall (fun s => fgood fs result s G_exec = Some G_exec) (capture_code tu).
  Proof.
    intros H. unfold capture_code. apply Forall_forall. intros s Hs. apply in_map_iff in Hs as (t & <- & Ht). rewrite Forall_forall in H. apply set_tag_good; [reflexivity|reflexivity|now apply H].
  Qed.
  Lemma exec_end_good fs s accs : (forall tu, In tu accs -> Forall (fun t => tag_group t < g) (tu_tags tu)) ->
    fgoods fs (TOpt (t_bounds g)) (exec_end s accs) G_exec = (length accs <=? 1).
  Proof.
    intros H. assert (HR : forall a, Rust.has [] G_exec a (TOpt (t_bounds g)) = true -> fgoods fs (TOpt (t_bounds g)) [FS (SRet a)] G_exec = true) by (intros a Ha; rewrite fgoods_cons, fgood_ret, Ha; reflexivity).
    assert (HS : Rust.has [] G_exec (ESome (EVar Xcaptures)) (TOpt (t_bounds g)) = true) by (cbn [Rust.has infer look var_eqb]; apply ty_refl).
    destruct accs as [|tu [|tu' l]]; cbn [exec_end length Nat.leb]; [apply HR; reflexivity| |reflexivity].
    specialize (H tu (or_introl eq_refl)). destruct (tu_start tu && (s =? 0)); [|destruct (tu_start tu && negb (s =? 0))].
    - rewrite fgoods_app by now apply capture_good. rewrite fgoods_cons, fgood_if. rewrite (HR _ HS), (HR ENothing) by reflexivity. reflexivity.
    - apply HR. reflexivity.
    - rewrite fgoods_app by now apply capture_good. now apply HR.
  Qed.
  Lemma existsb_last {X} (f : X -> bool) l x : f x = true -> existsb f (l ++ [x]) = true.
  Proof. intros H. rewrite existsb_app. cbn [existsb]. rewrite H. apply orb_true_r. Qed.
  Lemma some_existsb l : (fix some (l : list fstmt) : bool := match l with [] => false | s :: r => freturns s || some r end) l = existsb freturns l.
  Proof. induction l as [|s l IH]; [reflexivity|]. cbn [existsb]. now rewrite IH. Qed.
  Lemma next_returns {X} none (F : X -> range * option rexp * list fstmt) l other : existsb freturns none = true -> existsb freturns other = true ->
    (forall x, In x l -> existsb freturns (snd (F x)) = true) -> freturns (FNext none (map F l) other) = true.
  Proof.
    intros H1 H2 H3. cbn [freturns]. rewrite (some_existsb none), (some_existsb other), H1, H2. cbn [andb]. induction l as [|x l IH]; [reflexivity|]. cbn [map]. assert (Hx := H3 x (or_introl eq_refl)). destruct (F x) as [[r h] b]. cbn [snd] in Hx.
    rewrite (some_existsb b), Hx. apply IH. intros y Hy. apply H3. now right.
  Qed.
  Lemma guard_good G s tu : look Xstart G = Some TBool -> match fun_guard s tu with None => true | Some h => Rust.has [] G h TBool end = true.
  Proof. intros H. unfold fun_guard. destruct (_ || _); [reflexivity|]. destruct (_ && _); [|reflexivity]. cbn [Rust.has infer]. rewrite H. reflexivity. Qed.

  Notation C s := (if nth s ex true then true
             else match nth s runs RNone with
                  | RInternal => true
                  | RStart r => fun_emitted ex runs (run_end r)
                  | _ => (length (nth s (op_accs tab) []) <=? 1)
                         && forallb (fun x => fun_emitted ex runs (tu_state (snd x))) (nth s (op_syms tab) [])
                  end).
  Lemma fun_exec_accepts : accepts_prog (fun_exec_prog n tab runs) = fun_compiles n tab runs.
  Proof using HF.
    unfold accepts_prog, fun_compiles. cbn [fun_exec_prog g_states g_result g_body].
    set (W := exec_run_code g). set (O := fun s => exec_state_code g s (nth s (op_accs tab) []) (nth s (op_syms tab) [])).
    assert (Go : forall result s args G, all2 (Rust.has [] G) args (map snd (exec_args g)) = true -> fgood (state_funs ex runs W O) result (FGo s args) G = if fun_emitted ex runs s then Some G else None)
      by (intros; apply (go_good W O (exec_args g)); auto).
    rewrite (states_distinct W O) by reflexivity.
    rewrite (states_all W O) with (C := fun s => C s); [|reflexivity|reflexivity|..].
    - rewrite fgoods_cons. cbn [fgood]. rewrite good_let by (cbn [Rust.has e_bounds t_bounds t_pair infer ty_eqb]; rewrite Nat.eqb_refl; reflexivity).
      rewrite fgoods_cons, Go by (cbn [all2 map snd exec_args Rust.has infer look var_eqb]; rewrite !ty_refl; reflexivity).
      cbn [existsb freturns]. rewrite orb_true_r, andb_true_r. cbn [andb]. rewrite andb_comm. destruct (fun_emitted ex runs 0); reflexivity.
    - intros s Hs He. assert (Hx := He). unfold fun_emitted in Hx. apply andb_true_iff in Hx as [Hx1 Hx2]. destruct (nth s ex true); [discriminate Hx1|].
      assert (Normal : fgoods (state_funs ex runs W O) (TOpt (t_bounds g)) (sf_body (O s)) (rev (sf_args (O s))) && existsb freturns (sf_body (O s))
        = (length (nth s (op_accs tab) []) <=? 1) && forallb (fun x => fun_emitted ex runs (tu_state (snd x))) (nth s (op_syms tab) [])).
      { unfold O at 2 3 4. cbn [exec_state_code sf_body sf_args exec_args rev app existsb]. rewrite next_returns.
        - rewrite fgoods_cons, fgood_next, exec_end_good by apply (u_acc _ _ _ HF s). rewrite fgoods_cons, fgood_ret.
          replace (is_bytes G_exec) with true by reflexivity. cbn [Rust.has fgoods andb orb]. rewrite !andb_true_r.
          match goal with |- match (if _ && ?A then _ else _) with Some _ => _ | None => _ end = _ && ?B => assert (E : A = B); [|rewrite E] end.
          { assert (HU := u_to _ _ _ HF s). induction (nth s (op_syms tab) []) as [|[r tu] l IH]; [reflexivity|]. cbn [forallb fst snd]. rewrite IH by (intros r' tu' H; apply (HU r' tu'); now right). f_equal.
            destruct (HU r tu (or_introl eq_refl)) as [H1 H2]. apply N.leb_le in H1. rewrite H1, guard_good by reflexivity. cbn [andb].
            rewrite fgoods_app by now apply capture_good. rewrite fgoods_cons, Go by (cbn [all2 map snd exec_args Rust.has infer look var_eqb]; rewrite !ty_refl; reflexivity). destruct (fun_emitted ex runs (tu_state tu)); reflexivity. }
          destruct (_ && _); reflexivity.
        - unfold exec_end. destruct (nth s (op_accs tab) []) as [|tu [|tu' l]]; [reflexivity| |reflexivity]. destruct (_ && _); [now apply existsb_last|]. destruct (_ && _); [reflexivity|now apply existsb_last].
        - reflexivity.
        - intros x _. cbn [snd]. now apply existsb_last. }
      destruct (nth s runs RNone) as [r| | |] eqn:Er; [|discriminate Hx2|exact Normal|exact Normal]. clear Normal.
      destruct (u_run _ _ _ HF s r Hs Er) as [U V]. unfold W at 2 3 4. cbn [exec_run_code sf_body sf_args exec_args rev].
      rewrite <- !app_comm_cons, !app_nil_l. rewrite fgoods_cons, fgood_split. replace (is_bytes _) with true by reflexivity. rewrite fgoods_cons, fgood_ret. cbn [Rust.has fgoods andb existsb freturns returns orb].
      rewrite run_result_good by (assumption || reflexivity). rewrite <- ?app_comm_cons, ?app_nil_l. rewrite fgoods_cons, fgood_if. rewrite fgoods_cons, fgood_ret. cbn [Rust.has infer look var_eqb ty_eqb andb fgoods].
      rewrite fgoods_app.
      2: { apply Forall_forall. intros st Hst. apply in_map_iff in Hst as (t & <- & Ht). rewrite Forall_forall in V. apply set_tag_good; [reflexivity|reflexivity|now apply V]. }
      rewrite fgoods_cons, Go by (cbn [all2 map snd exec_args Rust.has infer look var_eqb ty_eqb app]; rewrite !ty_refl; reflexivity).
      match goal with |- _ && ?A = _ => replace A with true end; [destruct (fun_emitted ex runs (run_end r)); reflexivity|].
      symmetry. rewrite existsb_app. cbn [existsb freturns orb]. rewrite existsb_last by reflexivity. rewrite !orb_true_r. reflexivity.
    - intros s Hs He. unfold fun_emitted in He. destruct (nth s ex true); [reflexivity|]. destruct (nth s runs RNone); try discriminate He. reflexivity.
  Qed.
  Notation G_test := [(Xstart, TBool); (Xbytes, TVec TByte)].
  Lemma fun_test_accepts : fun_compiles n tab runs = true -> accepts_prog (fun_test_prog n tab runs) = true.
  Proof using HF.
    intros Hc. unfold accepts_prog. cbn [fun_test_prog g_states g_result g_body].
    set (W := test_run_code). set (O := fun s => test_state_code s (nth s (op_accs tab) []) (nth s (op_syms tab) [])).
    assert (Go : forall result s args G, all2 (Rust.has [] G) args (map snd test_args) = true -> fgood (state_funs ex runs W O) result (FGo s args) G = if fun_emitted ex runs s then Some G else None)
      by (intros; apply (go_good W O test_args); auto).
    assert (H0 : fun_emitted ex runs 0 = true) by (unfold fun_compiles in Hc; apply andb_true_iff in Hc; tauto).
    rewrite (states_distinct W O) by reflexivity.
    rewrite (states_all W O) with (C := fun s => true); [|reflexivity|reflexivity| |reflexivity].
    - rewrite fgoods_cons, Go, H0 by reflexivity. cbn [fgoods existsb freturns andb orb]. rewrite !andb_true_r. apply forallb_forall. reflexivity.
    - intros s Hs He. assert (Hn := emitted_next n tab runs Hc s He).
      assert (Normal : (forall x, In x (nth s (op_syms tab) []) -> fun_emitted ex runs (tu_state (snd x)) = true) ->
        fgoods (state_funs ex runs W O) TBool (sf_body (O s)) (rev (sf_args (O s))) && existsb freturns (sf_body (O s)) = true).
      { clear Hn. intros Hn. unfold O at 2 3 4. cbn [test_state_code sf_body sf_args test_args rev app existsb]. rewrite next_returns; [|reflexivity|reflexivity|reflexivity].
        rewrite fgoods_cons, fgood_next. rewrite !fgoods_cons, !fgood_ret. replace (is_bytes G_test) with true by reflexivity.
        assert (E : Rust.has [] G_test (test_end s (nth s (op_accs tab) [])) TBool = true) by (unfold test_end; destruct (nth s (op_accs tab) []); [reflexivity|]; destruct (existsb _ _); [reflexivity|]; destruct (s =? 0); reflexivity).
        rewrite E. cbn [Rust.has infer ty_eqb fgoods andb orb]. rewrite andb_true_r.
        match goal with |- match (if ?A then _ else _) with Some _ => _ | None => _ end = _ => assert (E' : A = true); [|rewrite E'; reflexivity] end.
        apply forallb_forall. intros [r tu] Hin. cbn [fst snd]. destruct (u_to _ _ _ HF s r tu Hin) as [H1 _]. apply N.leb_le in H1. rewrite H1, guard_good by reflexivity. cbn [andb].
        rewrite Go by reflexivity. specialize (Hn _ Hin). cbn [snd] in Hn. rewrite Hn. reflexivity. }
      destruct (nth s runs RNone) as [r| | |] eqn:Er; [|now apply Normal..]. clear Normal.
      destruct (u_run _ _ _ HF s r Hs Er) as [U _]. unfold W at 2 3 4. cbn [test_run_code sf_body sf_args test_args rev].
      rewrite <- !app_comm_cons, !app_nil_l. rewrite fgoods_cons, fgood_split. replace (is_bytes _) with true by reflexivity. rewrite fgoods_cons, fgood_ret. cbn [Rust.has infer ty_eqb fgoods andb existsb freturns returns orb].
      rewrite run_result_good by (assumption || reflexivity). rewrite fgoods_cons, fgood_if. rewrite !fgoods_cons, fgood_ret, Go, Hn by reflexivity. cbn [Rust.has infer look var_eqb ty_eqb fgoods andb].
      apply existsb_last. reflexivity.
  Qed.
  Lemma fun_outer_accepts k : accepts (fun_outer_code k) = true.
  Proof.
    unfold accepts, fun_outer_code. cbn [f_enum f_procs f_body f_result f_args rev map forallb distinct_labels andb app].
    rewrite good_finish; [reflexivity|reflexivity|now left|reflexivity].
  Qed.
End Check.

(** ** Fixed offsets *)
Lemma fixed_each text offs : eval text [(Xmatched, VBool true)] (EArr (map fixed_part offs)) = do l <- mapM (fo_slice text) offs; Ok (VArr (map enc_str l)).
Proof.
  cbn [eval]. match goal with |- (do _ <- ?F _; _) = _ => set (each := F) end.
  assert (G : each (map fixed_part offs) = do l <- mapM (fo_slice text) offs; Ok (map enc_str l)).
  { induction offs as [|[[a|] [b|]] offs IH]; [reflexivity|..]; cbn [map fixed_part mapM fo_slice]; unfold each; fold each; cbn [eval bind];
      [destruct (str_get_ok text a b); cbn [bind]; [|reflexivity]|..]; rewrite IH; destruct (mapM (fo_slice text) offs); reflexivity. }
  rewrite G. destruct (mapM (fo_slice text) offs); reflexivity.
Qed.
Lemma fixed_code_run g offs text b : run_func (fixed_code g offs) text [VBool b] = do r <- fo_exec offs b text; Ok (enc_result r).
Proof.
  unfold run_func, fixed_code. cbn [f_args f_body f_procs bind_params length Nat.eqb bind map combine rev app fst]. rewrite block_cons, exec_if. cbn [eval]. unfold getv. cbn [look var_eqb need bind as_bool].
  destruct b; cbn [negb fo_exec]; [|reflexivity].
  change (leave [(Xmatched, VBool true)] (Rust.block text (call_proc text []) [] [(Xmatched, VBool true)])) with (Ok (A := env + val) (inl [(Xmatched, VBool true)])). cbn [bind].
  rewrite block_cons. cbn [exec]. change (eval text [(Xmatched, VBool true)] (ESome (EArr (map fixed_part offs)))) with (do v <- eval text [(Xmatched, VBool true)] (EArr (map fixed_part offs)); Ok (VOpt (Some v))).
  rewrite fixed_each. destruct (mapM (fo_slice text) offs); reflexivity.
Qed.
Lemma fixed_accepts g offs : accepts (fixed_code g offs) = (length offs =? g).
Proof.
  unfold accepts, fixed_code. cbn [f_enum f_procs f_body f_result f_args rev map forallb distinct_labels andb app existsb returns orb]. rewrite goods_cons, good_if, (goods_ret _ _ _ _ _ (t_result g)) by reflexivity.
  cbn [Rust.has infer look var_eqb ty_eqb andb]. change (Rust.goods [] (Some (t_result g)) [] [] [(Xmatched, TBool)]) with true. cbn [andb].
  rewrite goods_cons. cbn [Rust.good Rust.has t_result]. rewrite map_length, andb_true_r. destruct (length offs =? g); [|reflexivity]. cbn [andb].
  match goal with |- match (if ?F _ then _ else _) with Some _ => _ | None => _ end = _ => set (each := F) end.
  assert (G : each (map fixed_part offs) = true); [|rewrite G; reflexivity].
  induction offs as [|[[a|] [b|]] offs IH]; [reflexivity|..]; cbn [map fixed_part]; unfold each; fold each; cbn [Rust.has infer ty_eqb andb]; exact IH.
Qed.
