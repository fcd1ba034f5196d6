(** Evaluation of generated code: how blocks, matches, loops and assignments compose. *)
From Verif Require Export PFlat PDfa PUtf8 Emit.
From Coq Require Import ZifyBool ZifyNat ZifyN.
Open Scope nat_scope.
Open Scope list_scope.
Set Default Proof Using "Type".

Lemma label_eqb_iff a b : label_eqb a b = true <-> a = b.
Proof. destruct a, b; cbn; rewrite ?Nat.eqb_eq; split; congruence. Qed.
Lemma label_refl a : label_eqb a a = true.
Proof. now apply label_eqb_iff. Qed.
Lemma label_num a b : label_eqb (LNum a) (LNum b) = (a =? b).
Proof. reflexivity. Qed.
Lemma var_eqb_iff x y : var_eqb x y = true <-> x = y.
Proof. destruct x, y; cbn; split; congruence. Qed.
Lemma var_refl x : var_eqb x x = true.
Proof. now apply var_eqb_iff. Qed.

Lemma look_assign x v e u : look x e = Some u -> look x (assign x v e) = Some v.
Proof.
  induction e as [|[y w] e IH]; cbn; [discriminate|]. destruct (var_eqb x y) eqn:E; cbn; rewrite E; auto.
Qed.
Lemma look_other x y v e : x <> y -> look x (assign y v e) = look x e.
Proof.
  intros H. induction e as [|[z w] e IH]; cbn; [reflexivity|]. destruct (var_eqb y z) eqn:E; cbn.
  - apply var_eqb_iff in E. subst z. destruct (var_eqb x y) eqn:F; [apply var_eqb_iff in F; contradiction|reflexivity].
  - now destruct (var_eqb x z).
Qed.
Lemma assign_twice x u v e : assign x v (assign x u e) = assign x v e.
Proof. induction e as [|[y w] e IH]; cbn; [reflexivity|]. destruct (var_eqb x y) eqn:E; cbn; rewrite E; [reflexivity|now rewrite IH]. Qed.
Lemma assign_same x v e : look x e = Some v -> assign x v e = e.
Proof.
  induction e as [|[y w] e IH]; cbn; [reflexivity|]. destruct (var_eqb x y) eqn:E; [congruence|]. intros H. now rewrite IH.
Qed.
Lemma assign_length x v e : length (assign x v e) = length e.
Proof. induction e as [|[y w] e IH]; cbn; [reflexivity|]. destruct (var_eqb x y); cbn; auto. Qed.

Lemma leave_cons (x : var * val) r e : length e <= length r -> leave e (Ok (inl (x :: r))) = leave e (Ok (inl r)).
Proof. intros H. cbn [leave bind]. cbn [length]. replace (S (length r) - length e) with (S (length r - length e)) by lia. reflexivity. Qed.
Lemma leave_all r e : length r = length e -> leave e (Ok (inl r)) = Ok (inl r).
Proof. intros H. cbn [leave bind]. rewrite H, Nat.sub_diag. reflexivity. Qed.
Lemma leave_ret v e : leave e (Ok (inr v)) = Ok (inr v).
Proof. reflexivity. Qed.
Ltac sizes := cbn [length app]; rewrite ?assign_length; cbn [length app]; lia.
Ltac drop := repeat first [rewrite leave_all by sizes | rewrite leave_cons by sizes]; rewrite ?leave_ret; cbn [bind].

Lemma utf8_length T : length (utf8 T) = blen T.
Proof. unfold utf8. induction T as [|c T IH]; [reflexivity|]. cbn [flat_map blen fold_right]. rewrite app_length, encode_length. now rewrite IH. Qed.

Section Exec.
  Variable text : list N.
  Variable call : nat -> list val -> list val -> res (list val).
  Notation exec := (exec text call).
  Notation block := (block text call).
  Definition tries (v : val) (w : option val) (e : env) (arms : list arm) (other : option (list stmt)) : res (env + val) :=
    (fix try (arms : list arm) : res (env + val) :=
      match arms with
      | [] => match other with Some l => leave e (block l e) | None => NoCompile end
      | (p, g, l) :: r =>
          do o <- fit v w p;
          match o with
          | None => try r
          | Some b => do ok <- match g with
                               | None => Ok true
                               | Some g => do x <- eval text (b ++ e) g; as_bool x
                               end;
                      if ok then leave e (block l (b ++ e)) else try r
          end
      end) arms.
  Lemma tries_nil v w e other : tries v w e [] other = match other with Some l => leave e (block l e) | None => NoCompile end.
  Proof. reflexivity. Qed.
  Lemma tries_cons v w e p g l r other : tries v w e ((p, g, l) :: r) other =
    do o <- fit v w p;
    match o with
    | None => tries v w e r other
    | Some b => do ok <- match g with
                         | None => Ok true
                         | Some g => do x <- eval text (b ++ e) g; as_bool x
                         end;
                if ok then leave e (block l (b ++ e)) else tries v w e r other
    end.
  Proof. reflexivity. Qed.
  Lemma exec_match a c arms other e : exec (SMatch a c arms other) e =
    do v <- eval text e a;
    do w <- match c with None => Ok None | Some c => do w <- eval text e c; Ok (Some w) end;
    tries v w e arms other.
  Proof. reflexivity. Qed.
  Lemma exec_if a l m e : exec (SIf a l m) e =
    do v <- eval text e a; do b <- as_bool v; leave e (block (if b then l else m) e).
  Proof. reflexivity. Qed.
  Lemma exec_for it l e : exec (SFor it l) e =
    do items <- rounds text e it; loop (fun e => block l e) items e.
  Proof. reflexivity. Qed.
  Lemma block_cons s r e : block (s :: r) e = do o <- exec s e; match o with inl e' => block r e' | inr v => Ok (inr v) end.
  Proof. reflexivity. Qed.
  Lemma block_app l m : forall e, block (l ++ m) e = do o <- block l e; match o with inl e' => block m e' | inr v => Ok (inr v) end.
  Proof.
    induction l as [|s l IH]; intros e; [reflexivity|]. cbn [app]. rewrite !block_cons.
    destruct (exec s e) as [[e'|v]| | |]; cbn [bind]; auto.
  Qed.
  Lemma block_one s e : block [s] e = exec s e.
  Proof. rewrite block_cons. destruct (exec s e) as [[|]| | |]; reflexivity. Qed.

  (** Arms with another label are passed over. *)
  Lemma tries_filter l o w e arms other :
    tries (VCon l o) w e arms other = tries (VCon l o) w e (filter (fun a : arm => label_eqb l (p_label (fst (fst a)))) arms) other.
  Proof.
    induction arms as [|[[p g] b] arms IH]; [reflexivity|]. cbn [filter fst]. destruct (label_eqb l (p_label p)) eqn:E.
    - rewrite !tries_cons. unfold fit. rewrite E. now rewrite IH.
    - rewrite tries_cons. unfold fit. rewrite E. cbn [bind]. exact IH.
  Qed.
End Exec.

(** The arms of one state among those of all states *)
Lemma pick_arms {X} (key : X -> label) (F : X -> list arm) L x :
  NoDup (map key L) -> In x L -> (forall y a, In a (F y) -> p_label (fst (fst a)) = key y) ->
  filter (fun a : arm => label_eqb (key x) (p_label (fst (fst a)))) (flat_map F L) = F x.
Proof.
  intros HN HI HF.
  assert (Hno : forall L, ~ In (key x) (map key L) -> filter (fun a : arm => label_eqb (key x) (p_label (fst (fst a)))) (flat_map F L) = []).
  { clear L HN HI. induction L as [|y L IH]; intros H; [reflexivity|]. cbn [flat_map]. rewrite filter_app, IH by (intros Hx; apply H; now right).
    rewrite app_nil_r. assert (G : forall l, (forall a, In a l -> In a (F y)) -> filter (fun a : arm => label_eqb (key x) (p_label (fst (fst a)))) l = []).
    { induction l as [|a l IHl]; intros Hl; [reflexivity|]. cbn [filter]. rewrite (HF y a) by (apply Hl; now left).
      destruct (label_eqb (key x) (key y)) eqn:E; [exfalso; apply H; left; symmetry; now apply label_eqb_iff|]. apply IHl. intros b Hb. apply Hl. now right. }
    now apply G. }
  assert (Hall : filter (fun a : arm => label_eqb (key x) (p_label (fst (fst a)))) (F x) = F x).
  { assert (G : forall l, (forall a, In a l -> In a (F x)) -> filter (fun a : arm => label_eqb (key x) (p_label (fst (fst a)))) l = l).
    { induction l as [|a l IHl]; intros Hl; [reflexivity|]. cbn [filter]. rewrite (HF x a), label_refl by (apply Hl; now left). f_equal. apply IHl. intros b Hb. apply Hl. now right. }
    now apply G. }
  induction L as [|y L IH]; [destruct HI|]. cbn [flat_map map] in *. inversion HN as [|? ? Hy HN']; subst. rewrite filter_app.
  destruct HI as [->|HI].
  - rewrite Hall, Hno by assumption. apply app_nil_r.
  - rewrite IH by assumption.
    assert (E : filter (fun a : arm => label_eqb (key x) (p_label (fst (fst a)))) (F y) = []); [|now rewrite E].
    assert (G : forall l, (forall a, In a l -> In a (F y)) -> filter (fun a : arm => label_eqb (key x) (p_label (fst (fst a)))) l = []); [|now apply G].
    induction l as [|a l IHl]; intros Hl; [reflexivity|]. cbn [filter]. rewrite (HF y a) by (apply Hl; now left).
    destruct (label_eqb (key x) (key y)) eqn:E; [exfalso; apply Hy; apply label_eqb_iff in E; rewrite <- E; now apply in_map|]. apply IHl. intros b Hb. apply Hl. now right.
Qed.
Lemma enumerate_fst {X} (l : list X) : map fst (enumerate l) = seq 0 (length l).
Proof.
  unfold enumerate. assert (G : forall (l : list X) m, map fst (combine (seq m (length l)) l) = seq m (length l)); [|apply G].
  clear l. induction l as [|x l IH]; intros m; cbn; [reflexivity|]. now rewrite IH.
Qed.
Lemma map_num_nodup l : NoDup l -> NoDup (map LNum l).
Proof. apply FinFun.Injective_map_NoDup. intros a b. congruence. Qed.
Lemma filter_map_fst_nodup {X} (f : nat * X -> bool) l : NoDup (map fst l) -> NoDup (map fst (filter f l)).
Proof.
  induction l as [|x l IH]; cbn; [auto|]. intros H. inversion H as [|? ? Hx Hl]; subst. destruct (f x); cbn; [constructor|]; auto.
  intros Hy. apply Hx. apply in_map_iff in Hy as (y & E & Hy). apply filter_In in Hy as [Hy _]. rewrite <- E. now apply in_map.
Qed.
Lemma kept_nodup {X} ex (l : list X) : NoDup (map (fun p => LNum (fst p)) (kept ex l)).
Proof.
  rewrite <- map_map. apply map_num_nodup. unfold kept. apply filter_map_fst_nodup. rewrite enumerate_fst. apply seq_NoDup.
Qed.
Lemma kept_In {X} ex (l : list X) d i : i < length l -> nth i ex true = false -> In (i, nth i l d) (kept ex l).
Proof.
  intros Hi He. unfold kept. apply filter_In. cbn [fst]. rewrite He. split; [|reflexivity]. apply In_enumerate. now apply nth_error_nth'.
Qed.
Lemma kept_pick {X} (F : nat * X -> list arm) ex l d s : s < length l -> nth s ex true = false ->
  (forall y a, In a (F y) -> p_label (fst (fst a)) = LNum (fst y)) ->
  filter (fun a : arm => label_eqb (LNum s) (p_label (fst (fst a)))) (flat_map F (kept ex l)) = F (s, nth s l d).
Proof.
  intros Hs He HF. exact (pick_arms (fun p => LNum (fst p)) F (kept ex l) (s, nth s l d) (kept_nodup ex l) (kept_In ex l d s Hs He) HF).
Qed.
Lemma numbered_nodup {X} (l : list X) s : NoDup (map fst (numbered l s)).
Proof.
  unfold numbered. rewrite map_app, map_map. cbn [map fst]. rewrite <- (map_map fst LNum), enumerate_fst.
  apply NoDup_app_intro; [apply map_num_nodup, seq_NoDup|repeat constructor; auto|].
  intros x Hx [<-|[]]. apply in_map_iff in Hx as (i & E & _). discriminate E.
Qed.
Lemma numbered_num {X} (l : list X) s i d : i < length l -> In (LNum i, nth i l d) (numbered l s).
Proof.
  intros Hi. unfold numbered. apply in_or_app. left. apply in_map_iff. exists (i, nth i l d). split; [reflexivity|].
  apply In_enumerate. now apply nth_error_nth'.
Qed.
Lemma numbered_start {X} (l : list X) s : In (LStart, s) (numbered l s).
Proof. unfold numbered. apply in_or_app. right. now left. Qed.
Lemma numbered_pick {X} (F : label * X -> list arm) l s p : In p (numbered l s) ->
  (forall y a, In a (F y) -> p_label (fst (fst a)) = fst y) ->
  filter (fun a : arm => label_eqb (fst p) (p_label (fst (fst a)))) (flat_map F (numbered l s)) = F p.
Proof. intros Hp HF. exact (pick_arms fst F (numbered l s) p (numbered_nodup l s) Hp HF). Qed.

(** Capture updates *)
Lemma upd_map {A B} (f : A -> B) i x l : upd i (f x) (map f l) = map f (upd i x l).
Proof. revert i. induction l as [|y l IH]; intros [|i]; cbn; auto. now rewrite IH. Qed.
Lemma upd_modify {A} i (f : A -> A) l d : upd i (f (nth i l d)) l = modify i f l.
Proof. revert i. induction l as [|y l IH]; intros [|i]; cbn; auto. now rewrite IH. Qed.
Lemma nth_error_enc b k : k < length b -> nth_error (map enc_pair b) k = Some (enc_pair (nth k b (None, None))).
Proof. intros H. rewrite nth_error_map, (nth_error_nth' b (None, None)) by assumption. reflexivity. Qed.
Definition tag_path (t : tag) : list (val + bool) :=
  match t with TagS k => [inl (VNum k); inr false] | TagE k => [inl (VNum k); inr true] end.
Lemma store_tag b t i : tag_group t < length b -> store (enc_bounds b) (tag_path t) (VNum i) = Ok (enc_bounds (apply_tag i b t)).
Proof.
  intros H. destruct t as [k|k]; cbn [tag_group] in H; cbn [tag_path store enc_bounds as_list bind index]; rewrite nth_error_enc by assumption;
    cbn [bind enc_pair]; unfold enc_bounds, apply_tag, set_start, set_end; do 2 f_equal;
    match goal with |- upd _ ?p _ = _ => idtac end.
  - rewrite <- (upd_modify _ _ _ (None, None)), <- upd_map. reflexivity.
  - rewrite <- (upd_modify _ _ _ (None, None)), <- upd_map. reflexivity.
Qed.
Lemma apply_tag_length i b t : length (apply_tag i b t) = length b.
Proof. destruct t; unfold apply_tag, set_start, set_end; apply modify_length. Qed.
Lemma apply_tags_length i ts : forall b, length (apply_tags i ts b) = length b.
Proof. induction ts as [|t ts IH]; intros b; [reflexivity|]. change (length (apply_tags i ts (apply_tag i b t)) = length b). rewrite IH. apply apply_tag_length. Qed.

Section Tags.
  Variable text : list N.
  Variable call : nat -> list val -> list val -> res (list val).
  Notation exec := (exec text call).
  Notation block := (block text call).
  Lemma exec_set_tag x p q e a t u u' i : look x e = Some u -> eval text e a = Ok (VNum i) ->
    mapM (access_val text e) p = Ok q -> store u (q ++ tag_path t) (VNum i) = Ok u' ->
    exec (set_tag x p a t) e = Ok (inl (assign x u' e)).
  Proof.
    intros Hl Ha Hp Hs.
    assert (G : forall k s, mapM (access_val text e) (p ++ [AIdx (ENum k); AField s]) = Ok (q ++ [inl (VNum k); inr s])).
    { intros k s. clear Hs. revert q Hp. induction p as [|y p IH]; intros q Hp; cbn [mapM app] in *; [injection Hp as <-; reflexivity|].
      destruct (access_val text e y) as [v| | |]; try discriminate Hp. cbn [bind] in *.
      destruct (mapM (access_val text e) p) as [q'| | |]; try discriminate Hp. cbn [bind] in *. injection Hp as <-. rewrite (IH q' eq_refl). reflexivity. }
    destruct t as [k|k]; cbn [set_tag exec]; rewrite Ha; cbn [bind]; unfold getv; rewrite Hl; cbn [need bind]; rewrite G; cbn [bind]; cbn [tag_path] in Hs; rewrite Hs; reflexivity.
  Qed.
  (** A sequence of updates of one variable.  [I s u]: the variable has value [u] when the model is at [s]. *)
  Lemma block_set_tags {S T} (enc : S -> val) (f : S -> T -> S) (x : var) (path : T -> list access) (a : rexp) (tg : T -> tag) i (ok : S -> T -> Prop) ts :
    (forall s t, ok s t -> forall e, look x e = Some (enc s) -> eval text e a = Ok (VNum i) ->
       exists q, mapM (access_val text e) (path t) = Ok q /\ store (enc s) (q ++ tag_path (tg t)) (VNum i) = Ok (enc (f s t))) ->
    (forall s t t', ok s t -> ok s t' -> ok (f s t) t') ->
    forall s e, look x e = Some (enc s) -> (forall v, eval text (assign x v e) a = Ok (VNum i)) -> Forall (ok s) ts ->
    block (map (fun t => set_tag x (path t) a (tg t)) ts) e = Ok (inl (assign x (enc (fold_left f ts s)) e)).
  Proof.
    intros Hst Hok. induction ts as [|t ts IH]; intros s e Hl Ha Hts; cbn [map fold_left].
    - rewrite assign_same by assumption. reflexivity.
    - assert (Ht := Forall_inv Hts). assert (Hts' := Forall_inv_tail Hts).
      assert (Ha' : eval text e a = Ok (VNum i)) by (rewrite <- (assign_same x (enc s) e Hl); apply Ha).
      destruct (Hst s t Ht e Hl Ha') as (q & Hq & Hs). rewrite block_cons, (exec_set_tag _ _ _ _ _ _ _ _ _ Hl Ha' Hq Hs). cbn [bind].
      rewrite (IH (f s t)).
      + now rewrite assign_twice.
      + now apply (look_assign _ _ _ (enc s)).
      + intros v. rewrite assign_twice. apply Ha.
      + rewrite Forall_forall in *. intros t' Ht'. apply Hok; auto.
  Qed.
  Lemma block_tags x a i ts b e : look x e = Some (enc_bounds b) -> (forall v, eval text (assign x v e) a = Ok (VNum i)) ->
    Forall (fun t => tag_group t < length b) ts ->
    block (map (set_tag x [] a) ts) e = Ok (inl (assign x (enc_bounds (apply_tags i ts b)) e)).
  Proof.
    intros Hl Ha Hts. unfold apply_tags.
    apply (block_set_tags enc_bounds (apply_tag i) x (fun _ => []) a (fun t => t) i (fun b t => tag_group t < length b)); auto.
    - intros s t Ht e' _ _. exists []. split; [reflexivity|]. now apply store_tag.
    - intros s t t' _ H. now rewrite apply_tag_length.
  Qed.
End Tags.

(** The end of [exec] *)
Definition enc_str (o : option span) : val := VOpt (option_map VStr o).
Lemma loop_finish text call out : out = Xcapture_strs \/ out = Xcaptures ->
  forall b i done e, length done = i ->
  loop (fun e => block text call [SIf (ENot (EEq (EVar Xstart) EMax))
        [SAssert (ENot (EEq (EVar Xend) EMax));
         SSet out [AIdx (EVar Xi)] (EGet (EVar Xstart) (EVar Xend));
         SAssert (EIsSome (EIdx (EVar out) (EVar Xi)))]
        [SAssert (EEq (EVar Xend) EMax)]] e)
    (map (fun '(i, p) => [(Xend, enc_num (snd p)); (Xstart, enc_num (fst p)); (Xi, VNum i)]) (combine (seq i (length b)) b))
    ((out, VArr (map enc_str done ++ repeat (VOpt None) (length b))) :: e)
  = do r <- finish text b; Ok (inl ((out, VArr (map enc_str (done ++ r))) :: e)).
Proof.
  intros Hout. induction b as [|[s t] b IH]; intros i done e Hi.
  - cbn. now rewrite !app_nil_r.
  - unfold finish. cbn [length seq combine map mapM]. cbn [loop fst snd].
    assert (Hlen : length (map enc_str done) = i) by now rewrite map_length.
    assert (Hn : forall v l, nth_error (map enc_str done ++ v :: l) i = Some v).
    { intros v l. rewrite nth_error_app2, Hlen, Nat.sub_diag by lia. reflexivity. }
    assert (Hu : forall v w l, upd i w (map enc_str done ++ v :: l) = map enc_str done ++ w :: l).
    { intros v w l. rewrite <- Hlen. clear. induction (map enc_str done) as [|y m IHm]; cbn; [reflexivity|]. now rewrite IHm. }
    assert (Hnext : forall o, map enc_str done ++ enc_str o :: repeat (VOpt None) (length b) = map enc_str (done ++ [o]) ++ repeat (VOpt None) (length b)).
    { intros o. rewrite map_app, <- app_assoc. reflexivity. }
    assert (Hstep : forall o, loop (fun e => block text call [SIf (ENot (EEq (EVar Xstart) EMax))
        [SAssert (ENot (EEq (EVar Xend) EMax));
         SSet out [AIdx (EVar Xi)] (EGet (EVar Xstart) (EVar Xend));
         SAssert (EIsSome (EIdx (EVar out) (EVar Xi)))]
        [SAssert (EEq (EVar Xend) EMax)]] e)
      (map (fun '(i, p) => [(Xend, enc_num (snd p)); (Xstart, enc_num (fst p)); (Xi, VNum i)]) (combine (seq (S i) (length b)) b))
      ((out, VArr (map enc_str done ++ enc_str o :: repeat (VOpt None) (length b))) :: e)
      = do bs <- mapM (finish_one text) b; Ok (inl ((out, VArr (map enc_str (done ++ o :: bs))) :: e))).
    { intros o. rewrite Hnext, IH by (rewrite app_length; cbn; lia). unfold finish. destruct (mapM (finish_one text) b); cbn [bind]; try reflexivity.
      now rewrite <- app_assoc. }
    clear IH Hnext. cbn [repeat length].
    match goal with |- context [loop ?F (map ?G ?L)] => set (K := loop F (map G L)) in * end. clearbody K.
    destruct s as [s|], t as [t|]; cbn [finish_one enc_num].
    + rewrite block_one, exec_if. cbn [app eval getv look var_eqb need bind num_eqb as_bool negb].
      destruct Hout as [->| ->].
      all: rewrite block_cons; cbn [exec eval getv look var_eqb need bind num_eqb as_bool negb].
      all: rewrite block_cons; cbn [exec eval getv look var_eqb need bind num_eqb as_bool negb mapM access_val store as_list index]; rewrite Hn; cbn [bind]; rewrite Hu;
        cbn [assign var_eqb bind].
      all: rewrite block_cons; cbn [exec eval getv look var_eqb need bind as_list index]; rewrite Hn; cbn [bind];
        destruct (str_get_ok text s t); cbn -[leave mapM]; try reflexivity; drop;
        change (VOpt (Some (VStr (s, t)))) with (enc_str (Some (s, t))); rewrite Hstep; destruct (mapM (finish_one text) b); reflexivity.
    + reflexivity.
    + destruct Hout as [->| ->]; reflexivity.
    + rewrite block_one, exec_if. destruct Hout as [->| ->]; cbn -[leave mapM]; drop;
        change (VOpt None) with (enc_str None) at 1; rewrite Hstep; destruct (mapM (finish_one text) b); reflexivity.
Qed.
Lemma enumerate_map {X Y} (f : X -> Y) (l : list X) : enumerate (map f l) = map (fun p => (fst p, f (snd p))) (enumerate l).
Proof.
  unfold enumerate. rewrite map_length. generalize 0. induction l as [|x l IH]; intros m; cbn; [reflexivity|]. now rewrite IH.
Qed.
Lemma block_finish text call out g a e b : out = Xcapture_strs \/ out = Xcaptures -> length b = g ->
  (forall v, eval text ((out, v) :: e) a = Ok (enc_bounds b)) ->
  block text call (finish_code out g a) e = do r <- finish text b; Ok (inr (enc_result (Some r))).
Proof.
  intros Hout Hg Ha. unfold finish_code. rewrite block_cons. cbn [exec eval bind]. rewrite block_cons, exec_for. cbn [rounds]. rewrite Ha. cbn [bind as_list enc_bounds].
  rewrite enumerate_map.
  assert (G : forall l, mapM (fun '(i, v) => match v with VPair s t => Ok [(Xend, t); (Xstart, s); (Xi, VNum i)] | _ => NoCompile end)
     (map (fun p : nat * (option nat * option nat) => (fst p, enc_pair (snd p))) l)
     = Ok (map (fun '(i, p) => [(Xend, enc_num (snd p)); (Xstart, enc_num (fst p)); (Xi, VNum i)]) l)).
  { clear. induction l as [|[i p] l IH]; [reflexivity|]. cbn [map mapM enc_pair fst snd bind]. rewrite IH. reflexivity. }
  rewrite G. cbn [bind]. rewrite <- Hg. assert (L := loop_finish text call out Hout b 0 [] e eq_refl). cbn [app map] in L. unfold enumerate. rewrite L. clear L G.
  destruct (finish text b) as [r| | |]; cbn [bind]; try reflexivity.
  rewrite block_cons. cbn [exec eval]. unfold getv. cbn [look]. rewrite var_refl. reflexivity.
Qed.
