(** Machine integers make no difference: the evaluation of RustW.v follows that of Rust.v when sums are only formed of positions in the text. *)
From Verif Require Export RustW PSound.
From Verif Require Import PRust.
From Coq Require Import ZifyBool ZifyNat ZifyN.
Open Scope nat_scope.
Open Scope list_scope.
Set Default Proof Using "All".

Definition rrel {A B} (P : A -> B -> Prop) (r : res A) (r' : res B) : Prop :=
  match r, r' with Ok x, Ok y => P x y | Panic, Panic | NoCompile, NoCompile | Fuel, Fuel => True | _, _ => False end.
Lemma rrel_bind {A B C D} (P : A -> B -> Prop) (Q : C -> D -> Prop) r r' k k' : rrel P r r' -> (forall x y, P x y -> rrel Q (k x) (k' y)) -> rrel Q (bind r k) (bind r' k').
Proof. destruct r, r'; cbn; try tauto. auto. Qed.
Lemma rrel_imp {A B} (P Q : A -> B -> Prop) r r' : rrel P r r' -> (forall x y, P x y -> Q x y) -> rrel Q r r'.
Proof. destruct r, r'; cbn; auto. Qed.
Lemma is_boundary_le s : forall i, is_boundary s i = true -> i <= blen s.
Proof.
  induction s as [|c s IH]; intros [|i] H; try lia; [discriminate H|]. cbn [is_boundary] in H. apply andb_true_iff in H as [H1 H2]. apply IH in H2. unfold blen in *. cbn [fold_right]. lia.
Qed.

Section Word.
  Variable over : nat -> nat -> res val.
  Variable top : nat.
  Variable text : list N.
  Hypothesis Htop : blen text < top.
  (** Values with [usize::MAX] apart, and the same as machine integers *)
  Inductive vrel : val -> val -> Prop :=
  | vr_bool b : vrel (VBool b) (VBool b)
  | vr_num n : n < top -> vrel (VNum n) (VNum n)
  | vr_max : vrel VMax (VNum top)
  | vr_byte c : vrel (VByte c) (VByte c)
  | vr_char c : vrel (VChar c) (VChar c)
  | vr_str s : vrel (VStr s) (VStr s)
  | vr_con l : vrel (VCon l None) (VCon l None)
  | vr_con_of l v w : vrel v w -> vrel (VCon l (Some v)) (VCon l (Some w))
  | vr_pair a b c d : vrel a c -> vrel b d -> vrel (VPair a b) (VPair c d)
  | vr_arr l m : Forall2 vrel l m -> vrel (VArr l) (VArr m)
  | vr_none : vrel (VOpt None) (VOpt None)
  | vr_some v w : vrel v w -> vrel (VOpt (Some v)) (VOpt (Some w)).
  (** What is known of a variable: any value, a number up to a bound, a number used as index only, an array of a certain length, a certain
      character *)
  Inductive kind := KAny | KLe (m : nat) | KIdx | KLong (n : nat) | KChr (c : N).
  Definition krel (k : kind) (v w : val) : Prop :=
    match k with
    | KAny => vrel v w
    | KLe m => exists i, v = VNum i /\ w = VNum i /\ i <= m
    | KIdx => exists i, v = VNum i /\ w = VNum i
    | KLong n => exists l m, v = VArr l /\ w = VArr m /\ Forall2 vrel l m /\ length l = n
    | KChr c => v = VChar c /\ w = VChar c
    end.
  Definition kctx := list (var * kind).
  Inductive erel : kctx -> env -> env -> Prop :=
  | er_nil : erel [] [] []
  | er_cons x k v w g e e' : krel k v w -> erel g e e' -> erel ((x, k) :: g) ((x, v) :: e) ((x, w) :: e').
  Lemma erel_look g e e' x : erel g e e' -> match look x g with None => look x e = None /\ look x e' = None | Some k => exists v w, look x e = Some v /\ look x e' = Some w /\ krel k v w end.
  Proof. induction 1 as [|y k v w g e e' Hk H IH]; cbn [look]; [auto|]. destruct (var_eqb x y); [eauto|exact IH]. Qed.
  Lemma erel_assign g e e' x v w : erel g e e' -> (look x g = Some KAny \/ look x g = None) -> vrel v w -> erel g (assign x v e) (assign x w e').
  Proof.
    induction 1 as [|y k v0 w0 g e e' Hk H IH]; cbn [look assign]; intros Hx Hv; [constructor|]. destruct (var_eqb x y); [|constructor; auto]. destruct Hx as [Hx|Hx]; [|discriminate Hx]. injection Hx as ->. constructor; auto.
  Qed.
  Lemma erel_len g e e' : erel g e e' -> length e = length g /\ length e' = length g.
  Proof. induction 1; cbn; lia. Qed.
  Lemma erel_app g e e' : erel g e e' -> forall h f f', erel h f f' -> erel (g ++ h) (e ++ f) (e' ++ f').
  Proof. induction 1; intros; cbn [app]; [assumption|]. constructor; auto. Qed.
  Lemma erel_skip b : forall g e e', erel (b ++ g) e e' -> erel g (skipn (length b) e) (skipn (length b) e').
  Proof. induction b as [|p b IH]; intros g e e' H; [exact H|]. inversion H; subst. cbn [length skipn]. now apply IH. Qed.
  Lemma krel_any k v w : krel k v w -> match k with KAny | KLong _ | KChr _ => True | KLe m => m < top | KIdx => False end -> vrel v w.
  Proof. destruct k; cbn [krel]; [auto| |intros _ []| |]; [intros (i & -> & -> & Hi) Hm; constructor; lia|intros (l & m & -> & -> & Hl & _) _; now constructor|intros [-> ->] _; constructor]. Qed.

  (** *** Expressions that can be evaluated with machine integers *)
  Definition idx_fine (g : kctx) (k : rexp) : bool :=
    match k with ENum _ => true | EVar x => match look x g with Some KAny | Some (KLong _) | Some (KChr _) => false | _ => true end | _ => false end.
  Definition le_fine (g : kctx) (x : var) (n : nat) : bool := match look x g with Some (KLe m) => m + n <? top | None => true | _ => false end.
  Fixpoint fine (g : kctx) (a : rexp) {struct a} : bool :=
    match a with
    | EVar x => match look x g with Some KAny | Some (KLong _) | Some (KChr _) | None => true | Some (KLe m) => m <? top | Some KIdx => false end
    | ENum n => n <? top
    | EBool _ | EMax | EByte _ | ELen | EVec | ENothing | EBytes => true
    | ECon _ None => true
    | ECon _ (Some a) | EField _ a | ERep a _ | ESome a | ENot a | ECheck _ a | EIsSome a | EAllNot a | EIsEmpty a | EExpect a | EFind a _ => fine g a
    | EIdx a k => fine g a && idx_fine g k
    | EArr l => (fix each (l : list rexp) : bool := match l with [] => true | a :: r => fine g a && each r end) l
    | EPair a b | EEq a b | EAnd a b | ELe a b | EGet a b | EBoth a b | ESlice a b => fine g a && fine g b
    | ESucc (EVar x) => le_fine g x 1
    | EWidth (EVar x) (EVar y) => match look y g with Some (KChr c) => le_fine g x (len_utf8 c) | _ => false end
    | EPlus (EVar x) (ENum n) => le_fine g x n
    | EPlus (ENum n) (EVar x) => le_fine g x n
    | ESucc _ | EWidth _ _ | EPlus _ _ => false
    end.
  Lemma as_bool_rel v w : vrel v w -> rrel (@eq bool) (as_bool v) (as_bool w).
  Proof. intros H. inversion H; subst; cbn; auto. Qed.
  Lemma as_list_rel v w : vrel v w -> rrel (Forall2 vrel) (as_list v) (as_list w).
  Proof. intros H. inversion H; subst; cbn; auto. Qed.
  Lemma index_rel l m i : Forall2 vrel l m -> rrel vrel (index l (VNum i)) (indexw m (VNum i)).
  Proof. intros H. cbn [index indexw]. revert i. induction H as [|v w l m Hv H IH]; intros [|i]; cbn [nth_error]; try exact I; [exact Hv|apply IH]. Qed.
  Lemma find_rel lb l m : Forall2 vrel l m -> rrel (fun o p => vrel (VOpt o) (VOpt p)) (find_state lb l) (find_state lb m).
  Proof.
    induction 1 as [|v w l m Hv H IH]; cbn [find_state]; [constructor|].
    assert (S : rrel (@eq bool) (state_is lb v) (state_is lb w)). { inversion Hv as [| | | | | | | |a b c d Hc Hd| | |]; subst; cbn [state_is]; try exact I. inversion Hc; subst; cbn; auto. }
    eapply rrel_bind; [exact S|]. intros b b' <-. destruct b; [|exact IH]. cbn [rrel]. now constructor.
  Qed.
  Lemma bools_rel l m : Forall2 vrel l m -> rrel (@eq (list bool)) (mapM as_bool l) (mapM as_bool m).
  Proof. induction 1 as [|v w l m Hv H IH]; cbn [mapM]; [reflexivity|]. eapply rrel_bind; [exact (as_bool_rel v w Hv)|]. intros b b' <-. eapply rrel_bind; [exact IH|]. intros bs bs' <-. reflexivity. Qed.
  Lemma getv_rel g e e' x : erel g e e' -> match look x g with Some KAny | Some (KLong _) | Some (KChr _) | None => true | Some (KLe m) => m <? top | Some KIdx => false end = true -> rrel vrel (getv x e) (getv x e').
  Proof.
    intros He H. assert (L := erel_look g e e' x He). unfold getv. destruct (look x g) as [k|]; [|destruct L as [-> ->]; exact I]. destruct L as (v & w & -> & -> & Hk). cbn [need rrel]. apply (krel_any k v w Hk). destruct k; auto; [now apply Nat.ltb_lt|discriminate H].
  Qed.
  Lemma getv_le g e e' x n : erel g e e' -> le_fine g x n = true -> (look x e = None /\ look x e' = None) \/ exists i, look x e = Some (VNum i) /\ look x e' = Some (VNum i) /\ i + n < top.
  Proof.
    intros He H. assert (L := erel_look g e e' x He). unfold le_fine in H. destruct (look x g) as [k|]; [|auto]. destruct k as [|m| |n0|c0]; try discriminate H. destruct L as (v & w & Ev & Ew & i & -> & -> & Hi). right. exists i. repeat split; auto. lia.
  Qed.
  Lemma idx_rel g e e' k : erel g e e' -> idx_fine g k = true -> rrel (fun v w => exists i, v = VNum i /\ w = VNum i) (eval text e k) (evalw over top text e' k).
  Proof.
    intros He H. destruct k; try discriminate H; cbn [eval evalw idx_fine] in *; [|cbn [rrel]; eauto]. assert (L := erel_look g e e' x He). unfold getv. destruct (look x g) as [k|]; [|destruct L as [-> ->]; exact I].
    destruct L as (v & w & -> & -> & Hk). cbn [need rrel]. destruct k; try discriminate H; cbn [krel] in Hk; destruct Hk as (i & Hk); exists i; tauto.
  Qed.
  Lemma eval_rel a : forall g e e', erel g e e' -> fine g a = true -> rrel vrel (eval text e a) (evalw over top text e' a).
  Proof.
    induction a as [a IH] using rexp_all. intros g e e' He H.
    destruct a; cbn [fine] in H; cbn [eval evalw]; try (solve [repeat constructor]).
    all: try (apply andb_true_iff in H as [H1 H2]; assert (I1 := IH a1 (or_introl eq_refl) g e e' He H1); try assert (I2 := IH a2 (or_intror (or_introl eq_refl)) g e e' He H2)).
    all: try (assert (I1 := IH a (or_introl eq_refl) g e e' He H)).
    - now apply (getv_rel g).
    - constructor. lia.
    - constructor. lia.
    - destruct o as [a|]; [|constructor]. eapply rrel_bind; [exact (IH a (or_introl eq_refl) g e e' He H)|]. intros v w Hv. now constructor.
    - eapply rrel_bind; [exact I1|]. intros v w Hv. eapply rrel_bind; [exact (as_list_rel v w Hv)|]. intros l m Hl. eapply rrel_bind; [exact (idx_rel g e e' a2 He H2)|]. intros x y (i & -> & ->). now apply index_rel.
    - eapply rrel_bind; [exact I1|]. intros v w Hv. inversion Hv; subst; cbn [rrel]; try exact I. destruct second; assumption.
    - match goal with |- rrel _ (bind (?F l) _) (bind (?G l) _) => set (each := F); set (each' := G) end. assert (S : rrel (Forall2 vrel) (each l) (each' l)).
      { revert IH H. induction l as [|a l IHl]; intros IH H; [constructor|]. apply andb_true_iff in H as [H1 H2]. unfold each, each'; fold each; fold each'. eapply rrel_bind; [exact (IH a (or_introl eq_refl) g e e' He H1)|].
        intros v w Hv. eapply rrel_bind; [apply IHl; [intros b Hb; apply IH; now right|exact H2]|]. intros vs ws Hvs. now constructor. }
      eapply rrel_bind; [exact S|]. intros vs ws Hvs. now constructor.
    - eapply rrel_bind; [exact I1|]. intros v w Hv. constructor. induction n; cbn [repeat]; constructor; auto.
    - eapply rrel_bind; [exact I1|]. intros v w Hv. eapply rrel_bind; [exact I2|]. intros x y Hx. now constructor.
    - eapply rrel_bind; [exact I1|]. intros v w Hv. now constructor.
    - eapply rrel_bind; [exact I1|]. intros v w Hv. eapply rrel_bind; [exact I2|]. intros x y Hx. inversion Hv; subst; inversion Hx; subst; cbn [num_eqb bind rrel]; try exact I; try constructor.
      + rewrite (proj2 (Nat.eqb_neq n top)) by lia. constructor.
      + rewrite (proj2 (Nat.eqb_neq top n)) by lia. constructor.
      + rewrite Nat.eqb_refl. constructor.
    - eapply rrel_bind; [exact I1|]. intros v w Hv. eapply rrel_bind; [exact (as_bool_rel v w Hv)|]. intros b b' <-. destruct b; [|constructor]. eapply rrel_bind; [exact I2|]. intros x y Hx. eapply rrel_bind; [exact (as_bool_rel x y Hx)|]. intros q q' <-. constructor.
    - eapply rrel_bind; [exact I1|]. intros v w Hv. eapply rrel_bind; [exact (as_bool_rel v w Hv)|]. intros b b' <-. constructor.
    - eapply rrel_bind; [exact I1|]. intros v w Hv. eapply rrel_bind; [exact I2|]. intros x y Hx. inversion Hv; subst; inversion Hx; subst; cbn [rrel]; try exact I; constructor.
    - destruct a; try discriminate H. cbn [eval evalw]. unfold getv. destruct (getv_le g e e' x 1 He H) as [[-> ->]|(i & -> & -> & Hi)]; [exact I|]. cbn [need bind]. unfold sum. rewrite Nat.add_1_r in *. rewrite (proj2 (Nat.leb_le _ _)) by lia. constructor. lia.
    - destruct a1; try discriminate H. destruct a2 as [y| | | | | | | | | | | | | | | | | | | | | | | | | | | | | | |]; try discriminate H. cbn [eval evalw]. unfold getv. assert (L := erel_look g e e' y He). destruct (look y g) as [[| | | |c]|]; try discriminate H. destruct L as (v & w & Ev & Ew & -> & ->).
      destruct (getv_le g e e' x (len_utf8 c) He H) as [[-> ->]|(i & -> & -> & Hi)]; [exact I|]. rewrite Ev, Ew. cbn [need bind]. unfold sum.
      rewrite (proj2 (Nat.leb_le _ _)) by lia. constructor. lia.
    - eapply rrel_bind; [exact I1|]. intros v w Hv. inversion Hv; subst; cbn [rrel]; try exact I. constructor.
    - eapply rrel_bind; [exact I1|]. intros v w Hv. eapply rrel_bind; [exact I2|]. intros x y Hx.
      assert (T : forall s, str_get_ok text s top = false). { intros s. unfold str_get_ok. destruct (is_boundary text top) eqn:Eb; [apply is_boundary_le in Eb; lia|apply andb_false_r]. }
      inversion Hv; subst; inversion Hx; subst; cbn [rrel]; try exact I.
      + destruct (str_get_ok text n n0); repeat constructor.
      + rewrite T. constructor.
      + unfold str_get_ok. rewrite (proj2 (Nat.leb_gt top n)) by lia. constructor.
      + rewrite T. constructor.
    - eapply rrel_bind; [exact I1|]. intros v w Hv. inversion Hv; subst; cbn [rrel]; try exact I; constructor.
    - eapply rrel_bind; [exact I1|]. intros v w Hv. eapply rrel_bind; [exact (as_list_rel v w Hv)|]. intros l m Hl. eapply rrel_bind; [exact (bools_rel l m Hl)|]. intros b b' <-. constructor.
    - eapply rrel_bind; [exact I1|]. intros v w Hv. eapply rrel_bind; [exact (as_list_rel v w Hv)|]. intros l m Hl. inversion Hl; subst; constructor.
    - assert (T : exists x n, le_fine g x n = true /\ ((a1 = EVar x /\ a2 = ENum n) \/ (a1 = ENum n /\ a2 = EVar x))) by (destruct a1; try discriminate H; destruct a2; try discriminate H; eauto 8).
      destruct T as (x & n & Hx & T). destruct (getv_le g e e' x n He Hx) as [[E1 E2]|(i & E1 & E2 & Hi)]; destruct T as [[-> ->]|[-> ->]]; cbn [eval evalw bind]; unfold getv; rewrite E1, E2; cbn [need bind]; try exact I;
        unfold sum; rewrite (proj2 (Nat.leb_le _ _)) by lia; constructor; lia.
    - eapply rrel_bind; [exact I1|]. intros v w Hv. eapply rrel_bind; [exact (as_bool_rel v w Hv)|]. intros b b' <-. eapply rrel_bind; [exact I2|]. intros x y Hx. eapply rrel_bind; [exact (as_bool_rel x y Hx)|]. intros q q' <-. constructor.
    - constructor. induction (utf8 text); cbn [map]; repeat constructor. assumption.
    - eapply rrel_bind; [exact I1|]. intros v w Hv. eapply rrel_bind; [exact I2|]. intros x y Hx.
      assert (T : forall s, str_get_ok text s top = false). { intros s. unfold str_get_ok. destruct (is_boundary text top) eqn:Eb; [apply is_boundary_le in Eb; lia|apply andb_false_r]. }
      inversion Hv; subst; inversion Hx; subst; cbn [rrel]; try exact I.
      + destruct (str_get_ok text n n0); repeat constructor.
      + rewrite T. exact I.
      + unfold str_get_ok. rewrite (proj2 (Nat.leb_gt top n)) by lia. exact I.
      + rewrite T. exact I.
    - eapply rrel_bind; [exact I1|]. intros v w Hv. inversion Hv; subst; cbn [rrel]; try exact I. assumption.
    - eapply rrel_bind; [exact I1|]. intros v w Hv. eapply rrel_bind; [exact (as_list_rel v w Hv)|]. intros vs ws Hvs. eapply rrel_bind; [exact (find_rel l vs ws Hvs)|]. intros o p Ho. exact Ho.
  Qed.

  (** *** Places, rounds and patterns *)
  Definition arel (a b : val + bool) : Prop := match a, b with inl v, inl w => exists i, v = VNum i /\ w = VNum i | inr s, inr t => s = t | _, _ => False end.
  Definition access_fine (g : kctx) (a : access) : bool := match a with AIdx k => idx_fine g k | AField _ => true end.
  Lemma upd_rel {A B} (P : A -> B -> Prop) n x y l m : Forall2 P l m -> P x y -> Forall2 P (upd n x l) (upd n y m).
  Proof. intros H Hx. revert n. induction H as [|a b l m Ha H IH]; intros [|n]; cbn [upd]; constructor; auto. Qed.
  Lemma store_rel q q' : Forall2 arel q q' -> forall v v' w w', vrel v v' -> vrel w w' -> rrel vrel (store v q w) (storew v' q' w').
  Proof.
    induction 1 as [|a b q q' Ha H IH]; intros v v' w w' Hv Hw; cbn [store storew]; [exact Hw|]. destruct a as [k|s], b as [k'|s']; cbn [arel] in Ha; try (now destruct Ha).
    - destruct Ha as (i & -> & ->). eapply rrel_bind; [exact (as_list_rel v v' Hv)|]. intros l m Hl. eapply rrel_bind; [exact (index_rel l m i Hl)|]. intros x y Hx. eapply rrel_bind; [exact (IH x y w w' Hx Hw)|]. intros x' y' Hx'. constructor. now apply upd_rel.
    - subst s'. inversion Hv; subst; cbn [rrel]; try exact I. destruct s; (eapply rrel_bind; [apply IH; eassumption|]); intros x y Hx; now constructor.
  Qed.
  Lemma accesses_rel g e e' p : erel g e e' -> forallb (access_fine g) p = true -> rrel (Forall2 arel) (mapM (access_val text e) p) (mapM (access_valw over top text e') p).
  Proof.
    intros He. induction p as [|a p IH]; intros H; cbn [mapM]; [constructor|]. cbn [forallb] in H. apply andb_true_iff in H as [H1 H2].
    eapply (rrel_bind arel); [|intros x y Hx; eapply rrel_bind; [exact (IH H2)|]; intros xs ys Hxs; now constructor]. destruct a as [k|s]; cbn [access_val access_valw]; [|reflexivity]. eapply rrel_bind; [exact (idx_rel g e e' k He H1)|]. intros x y Hx. exact Hx.
  Qed.
  Lemma evals_rel g e e' l : erel g e e' -> forallb (fine g) l = true -> rrel (Forall2 vrel) (mapM (eval text e) l) (mapM (evalw over top text e') l).
  Proof.
    intros He. induction l as [|a l IH]; intros H; cbn [mapM]; [constructor|]. cbn [forallb] in H. apply andb_true_iff in H as [H1 H2].
    eapply rrel_bind; [exact (eval_rel a g e e' He H1)|]. intros x y Hx. eapply rrel_bind; [exact (IH H2)|]. intros xs ys Hxs. now constructor.
  Qed.
  Definition iter_all (P : kctx -> bool) (g : kctx) (it : iter) : bool :=
    match it with
    | IBytes => P [(Xc, KAny)]
    | IEnum => forallb (fun p => P [(Xc, KAny); (Xi, KLe (fst p))]) (enumerate (utf8 text))
    | IChars => forallb (fun p => P [(Xc, KChr (snd p)); (Xi, KLe (fst p))]) (char_indices 0 text)
    | IEach x a => fine g a && P [(x, KAny)]
    | IPairs a => fine g a && P [(Xend, KAny); (Xstart, KAny); (Xi, KIdx)]
    end.
  Lemma indices_le l : forall k i c, In (i, c) (char_indices k l) -> i + len_utf8 c <= k + blen l.
  Proof. induction l as [|d l IH]; intros k i c H; [destruct H|]. cbn [char_indices] in H. unfold blen in *. cbn [fold_right]. destruct H as [H|H]; [injection H as <- <-; lia|]. apply IH in H. lia. Qed.
  Lemma map_self {A} (P : env -> env -> Prop) (f : A -> env) l : (forall x, In x l -> P (f x) (f x)) -> Forall2 P (map f l) (map f l).
  Proof. induction l as [|x l IH]; intros H; cbn [map]; constructor; [apply H; now left|apply IH; intros y Hy; apply H; now right]. Qed.
  Let Hbytes : length (utf8 text) = blen text := utf8_length text.
  Definition some_ctx (P : kctx -> bool) (e e' : env) : Prop := exists b, P b = true /\ erel b e e'.
  Lemma rounds_rel P g e e' it : erel g e e' -> iter_all P g it = true -> rrel (Forall2 (some_ctx P)) (rounds text e it) (roundsw over top text e' it).
  Proof.
    intros He E. destruct it as [| | |x a|a]; cbn [iter_all] in E; cbn [rounds roundsw].
    - apply map_self. intros c _. eexists. split; [exact E|]. repeat constructor.
    - apply map_self. intros [i c] Hin. rewrite forallb_forall in E. eexists. split; [exact (E _ Hin)|]. repeat constructor. exists i. cbn [fst]. auto.
    - apply map_self. intros [i c] Hin. rewrite forallb_forall in E. eexists. split; [exact (E _ Hin)|]. repeat constructor. exists i. cbn [fst]. auto.
    - apply andb_true_iff in E as [Ea E]. eapply rrel_bind; [exact (eval_rel a g e e' He Ea)|]. intros v w Hv. eapply rrel_bind; [exact (as_list_rel v w Hv)|]. intros l m Hl. cbn [rrel]. induction Hl; cbn [map]; constructor; [|assumption]. eexists. split; [exact E|]. repeat constructor. assumption.
    - apply andb_true_iff in E as [Ea E]. eapply rrel_bind; [exact (eval_rel a g e e' He Ea)|]. intros v w Hv. eapply rrel_bind; [exact (as_list_rel v w Hv)|]. intros l m Hl. clear v w Hv Ea He. unfold enumerate. generalize 0. induction Hl as [|v w l m Hv Hl IH]; intros k; cbn [length seq combine mapM]; [constructor|].
      eapply (rrel_bind (erel [(Xend, KAny); (Xstart, KAny); (Xi, KIdx)])); [inversion Hv; subst; cbn [rrel]; try exact I; repeat constructor; try assumption; exists k; auto|]. intros x y Hx. eapply rrel_bind; [exact (IH (S k))|]. intros xs ys Hxs. constructor; [|exact Hxs]. eexists. split; [exact E|exact Hx].
  Qed.
  Definition pat_kinds (p : pat) : kctx := match p_bind p with None => [] | Some x => [(x, KAny)] end.
  Definition orel {A} (P : A -> A -> Prop) (o o' : option A) : Prop := match o, o' with Some x, Some y => P x y | None, None => True | _, _ => False end.
  Lemma fit_rel v v' w w' p : vrel v v' -> orel vrel w w' -> rrel (orel (erel (pat_kinds p))) (fit v w p) (fit v' w' p).
  Proof.
    intros Hv Hw. unfold pat_kinds. inversion Hv; subst; cbn [fit rrel]; try exact I; (destruct (label_eqb l (p_label p)); [|exact I]); destruct (p_bind p); cbn [bind rrel]; try exact I;
      (destruct (p_range p) as [r|]; [|repeat constructor; assumption]); destruct w as [w|], w' as [w'|]; cbn [orel] in Hw; try (now destruct Hw); try exact I; inversion Hw; subst; cbn [rrel]; try exact I; destruct (in_range _ _); cbn [orel]; repeat constructor; assumption.
  Qed.

  (** *** Statements *)
  Definition any (g : kctx) (x : var) : bool := match look x g with Some KAny | None => true | _ => false end.
  Lemma any_or g x : any g x = true -> look x g = Some KAny \/ look x g = None.
  Proof. unfold any. destruct (look x g) as [[]|]; try discriminate; auto. Qed.
  Lemma getv_any g e e' x : erel g e e' -> any g x = true -> rrel vrel (getv x e) (getv x e').
  Proof. intros He H. apply (getv_rel g); [exact He|]. unfold any in H. destruct (look x g) as [[]|]; try discriminate H; reflexivity. Qed.
  Fixpoint sfine (s : stmt) (g : kctx) {struct s} : option kctx :=
    let sfines := fix sfines (l : list stmt) (g : kctx) {struct l} : bool :=
      match l with [] => true | s :: r => match sfine s g with Some g' => sfines r g' | None => false end end in
    match s with
    | SLet x _ a | STry x _ a => if fine g a then Some ((x, KAny) :: g) else None
    | SSet x p a => if fine g a && forallb (access_fine g) p && any g x then Some g else None
    | SRet a | SAssert a => if fine g a then Some g else None
    | SIf a l m => if fine g a && sfines l g && sfines m g then Some g else None
    | SFor it l => if iter_all (fun b => sfines l (b ++ g)) g it then Some g else None
    | SMatch a c arms other =>
        if fine g a && match c with None => true | Some c => fine g c end && match other with None => true | Some l => sfines l g end
           && (fix each (arms : list (pat * option rexp * list stmt)) : bool :=
                 match arms with
                 | [] => true
                 | (p, h, l) :: r => match h with None => true | Some h => fine (pat_kinds p ++ g) h end && sfines l (pat_kinds p ++ g) && each r
                 end) arms
        then Some g else None
    | SPush x a => if fine g a && any g x then Some g else None
    | SClear x | SFill x => if any g x then Some g else None
    | SSwap x y => if any g x && any g y then Some g else None
    | SCall _ refs vals => if forallb (any g) refs && forallb (fine g) vals then Some g else None
    end.
  Fixpoint sfines (l : list stmt) (g : kctx) {struct l} : bool :=
    match l with [] => true | s :: r => match sfine s g with Some g' => sfines r g' | None => false end end.
  Section Stmt.
    Variable call callw : nat -> list val -> list val -> res (list val).
    Hypothesis call_rel : forall f us us' vs vs', Forall2 vrel us us' -> Forall2 vrel vs vs' -> rrel (Forall2 vrel) (call f us vs) (callw f us' vs').
    Notation block := (Rust.block text call).
    Notation blockw := (RustW.blockw over top text callw).
    Definition ends2 (g : kctx) (o o' : env + val) : Prop := match o, o' with inl e, inl e' => erel g e e' | inr v, inr w => vrel v w | _, _ => False end.
    Definition ends_in2 (g : kctx) (o o' : env + val) : Prop := match o, o' with inl e, inl e' => exists b, erel (b ++ g) e e' | inr v, inr w => vrel v w | _, _ => False end.
    Definition steps2 (s : stmt) : Prop := forall g e e' g', erel g e e' -> sfine s g = Some g' -> (exists b, g' = b ++ g) /\ rrel (ends2 g') (exec text call s e) (execw over top text callw s e').
    Lemma block_rel l : Forall steps2 l -> forall g e e', erel g e e' -> sfines l g = true -> rrel (ends_in2 g) (block l e) (blockw l e').
    Proof.
      induction 1 as [|s l Hs H IH]; intros g e e' He Hg; cbn [Rust.block RustW.blockw].
      - exists []. exact He.
      - cbn [sfines] in Hg. destruct (sfine s g) as [g'|] eqn:Es; [|discriminate Hg]. destruct (Hs g e e' g' He Es) as [(b & ->) S]. eapply rrel_bind; [exact S|]. intros [e1|v] [e1'|w] Ho; cbn [ends2] in Ho; try (now destruct Ho); [|exact Ho].
        eapply rrel_imp; [exact (IH _ e1 e1' Ho Hg)|]. intros [e2|v] [e2'|w] Hx; cbn [ends_in2] in *; try (now destruct Hx); [|exact Hx]. destruct Hx as (b' & Hx). exists (b' ++ b). now rewrite <- app_assoc.
    Qed.
    Lemma leave_rel g e e' b r r' : erel g e e' -> rrel (ends_in2 (b ++ g)) r r' -> rrel (ends2 g) (leave e r) (leave e' r').
    Proof.
      intros He H. unfold leave. eapply rrel_bind; [exact H|]. intros [e1|v] [e1'|w] Ho; cbn [ends_in2] in Ho; try (now destruct Ho); [|exact Ho]. destruct Ho as (b' & Ho). cbn [rrel ends2]. destruct (erel_len _ _ _ Ho) as [L1 L2]. destruct (erel_len _ _ _ He) as [L3 L4]. rewrite app_assoc in Ho.
      rewrite L1, L2, L3, L4. replace (length (b' ++ b ++ g) - length g) with (length (b' ++ b)) by (rewrite !app_length; lia). now apply erel_skip.
    Qed.
    Lemma loop_rel P f f' g : (forall b e e', P b = true -> erel (b ++ g) e e' -> rrel (ends_in2 (b ++ g)) (f e) (f' e')) -> forall items items', Forall2 (some_ctx P) items items' -> forall e e', erel g e e' -> rrel (ends2 g) (loop f items e) (loop f' items' e').
    Proof.
      intros Hf. induction 1 as [|r r' items items' Hr H IH]; intros e e' He; cbn [loop]; [exact He|]. destruct Hr as (b & Hb & Hr). eapply rrel_bind; [apply (leave_rel g e e' b); [exact He|apply Hf; [exact Hb|now apply erel_app]]|]. intros [e1|v] [e1'|w] Ho; cbn [ends2] in Ho; try (now destruct Ho); [|exact Ho]. now apply IH.
    Qed.
    Lemma refs_rel g e e' refs : erel g e e' -> forallb (any g) refs = true -> rrel (Forall2 vrel) (mapM (fun x => getv x e) refs) (mapM (fun x => getv x e') refs).
    Proof.
      intros He. induction refs as [|x refs IH]; intros H; cbn [mapM]; [constructor|]. cbn [forallb] in H. apply andb_true_iff in H as [H1 H2]. eapply rrel_bind; [exact (getv_any g e e' x He H1)|]. intros v w Hv. eapply rrel_bind; [exact (IH H2)|]. intros vs ws Hvs. now constructor.
    Qed.
    Lemma assigns_rel g refs : forall us us' e e', erel g e e' -> forallb (any g) refs = true -> Forall2 vrel us us' ->
      erel g (fold_left (fun e p => assign (fst p) (snd p) e) (combine refs us) e) (fold_left (fun e p => assign (fst p) (snd p) e) (combine refs us') e').
    Proof.
      induction refs as [|x refs IH]; intros us us' e e' He H Hu; [exact He|]. cbn [forallb] in H. apply andb_true_iff in H as [H1 H2]. inversion Hu; subst; [exact He|]. cbn [combine fold_left fst snd]. apply IH; try assumption. apply erel_assign; [exact He|exact (any_or g x H1)|assumption].
    Qed.
    Lemma exec_rel s : steps2 s.
    Proof.
      induction s as [s IH] using stmt_all. intros g e e' g' He H.
      destruct s as [x t a|x t a|x p a|a|a|a l m|it l|a c arms other|x a|x|x|x y|f refs vals]; cbn [sfine] in H; cbn [Rust.exec RustW.execw subs] in *.
      - destruct (fine g a) eqn:Ea; [|discriminate H]. injection H as <-. split; [now exists [(x, KAny)]|]. eapply rrel_bind; [exact (eval_rel a g e e' He Ea)|]. intros v w Hv. now constructor.
      - destruct (fine g a) eqn:Ea; [|discriminate H]. injection H as <-. split; [now exists [(x, KAny)]|]. eapply rrel_bind; [exact (eval_rel a g e e' He Ea)|]. intros v w Hv. inversion Hv; subst; cbn [rrel]; try exact I; cbn [ends2]; now constructor.
      - destruct (fine g a) eqn:Ea; [|discriminate H]. cbn [andb] in H. destruct (forallb (access_fine g) p) eqn:Ep; [|discriminate H]. destruct (any g x) eqn:Ex; [|discriminate H]. injection H as <-. split; [now exists []|].
        eapply rrel_bind; [exact (eval_rel a g e e' He Ea)|]. intros v w Hv. eapply rrel_bind; [exact (getv_any g e e' x He Ex)|]. intros u u' Hu. eapply rrel_bind; [exact (accesses_rel g e e' p He Ep)|]. intros q q' Hq. eapply rrel_bind; [exact (store_rel q q' Hq u u' v w Hu Hv)|]. intros z z' Hz.
        cbn [rrel ends2]. apply erel_assign; [exact He|exact (any_or g x Ex)|exact Hz].
      - destruct (fine g a) eqn:Ea; [|discriminate H]. injection H as <-. split; [now exists []|]. eapply rrel_bind; [exact (eval_rel a g e e' He Ea)|]. intros v w Hv. exact Hv.
      - destruct (fine g a) eqn:Ea; [|discriminate H]. injection H as <-. split; [now exists []|]. eapply rrel_bind; [exact (eval_rel a g e e' He Ea)|]. intros v w Hv. eapply rrel_bind; [exact (as_bool_rel v w Hv)|]. intros b b' <-. destruct b; [exact He|exact I].
      - destruct (fine g a) eqn:Ea; [|discriminate H]. cbn [andb] in H. match type of H with (if ?A && ?B then _ else _) = _ => destruct A eqn:El; [|discriminate H]; destruct B eqn:Em; [|discriminate H] end. injection H as <-. split; [now exists []|].
        eapply rrel_bind; [exact (eval_rel a g e e' He Ea)|]. intros v w Hv. eapply rrel_bind; [exact (as_bool_rel v w Hv)|]. intros b b' <-. apply (leave_rel g e e' []); [exact He|]. destruct b.
        + exact (block_rel l (IH l (or_introl eq_refl)) g e e' He El).
        + exact (block_rel m (IH m (or_intror (or_introl eq_refl))) g e e' He Em).
      - match type of H with (if iter_all ?P _ _ then _ else _) = _ => set (Q := P) in H end. destruct (iter_all Q g it) eqn:El; [|discriminate H]. injection H as <-. split; [now exists []|].
        eapply rrel_bind; [exact (rounds_rel Q g e e' it He El)|]. intros items items' Hi. apply (loop_rel Q); try assumption. intros b e1 e1' Hb He1. exact (block_rel l (IH l (or_introl eq_refl)) (b ++ g) e1 e1' He1 Hb).
      - destruct (fine g a) eqn:Ea; [|discriminate H]. destruct (match c with None => true | Some c => fine g c end) eqn:Ec; [|discriminate H].
        match type of H with (if _ && _ && ?A && ?B then _ else _) = _ => destruct A eqn:Eo; [|discriminate H]; destruct B eqn:Em; [|discriminate H] end. injection H as <-. split; [now exists []|].
        eapply rrel_bind; [exact (eval_rel a g e e' He Ea)|]. intros v v' Hv.
        eapply (rrel_bind (orel vrel)); [destruct c as [c|]; [|exact I]; eapply rrel_bind; [exact (eval_rel c g e e' He Ec)|]; intros w w' Hw; exact Hw|]. intros w w' Hw.
        assert (IHo : match other with Some l => rrel (ends2 g) (leave e (block l e)) (leave e' (blockw l e')) | None => True end).
        { destruct other as [l|]; [|exact I]. apply (leave_rel g e e' []); [exact He|]. exact (block_rel l (IH l (or_introl eq_refl)) g e e' He Eo). }
        assert (IHa : forall l, In l (map snd arms) -> Forall steps2 l) by (intros l Hl; apply IH; apply in_app_iff; now right).
        clear IH Eo Ea. revert Em IHa. induction arms as [|[[p h] l] arms IHarms]; intros Em IHa.
        + destruct other as [l|]; [exact IHo|exact I].
        + apply andb_true_iff in Em as [E1 E2]. apply andb_true_iff in E1 as [Eh El]. assert (N : forall k, In k (map snd arms) -> Forall steps2 k) by (intros k Hk; apply IHa; now right).
          eapply rrel_bind; [exact (fit_rel v v' w w' p Hv Hw)|]. intros [b|] [b'|] Hb; cbn [orel] in Hb; try (now destruct Hb); [|now apply IHarms].
          assert (He1 : erel (pat_kinds p ++ g) (b ++ e) (b' ++ e')) by now apply erel_app.
          eapply (rrel_bind (@eq bool)).
          { destruct h as [h|]; [|reflexivity]. eapply rrel_bind; [exact (eval_rel h _ _ _ He1 Eh)|]. intros y y' Hy. exact (as_bool_rel y y' Hy). }
          intros ok ok' <-. destruct ok; [|now apply IHarms]. apply (leave_rel g e e' (pat_kinds p)); [exact He|]. exact (block_rel l (IHa l (or_introl eq_refl)) _ _ _ He1 El).
      - destruct (fine g a) eqn:Ea; [|discriminate H]. cbn [andb] in H. destruct (any g x) eqn:Ex; [|discriminate H]. injection H as <-. split; [now exists []|]. eapply rrel_bind; [exact (eval_rel a g e e' He Ea)|]. intros v w Hv. eapply rrel_bind; [exact (getv_any g e e' x He Ex)|]. intros u u' Hu. eapply rrel_bind; [exact (as_list_rel u u' Hu)|]. intros l m Hl.
        cbn [rrel ends2]. apply erel_assign; [exact He|exact (any_or g x Ex)|]. constructor. apply Forall2_app; [exact Hl|]. constructor; [exact Hv|constructor].
      - destruct (any g x) eqn:Ex; [|discriminate H]. injection H as <-. split; [now exists []|]. eapply rrel_bind; [exact (getv_any g e e' x He Ex)|]. intros u u' Hu. eapply rrel_bind; [exact (as_list_rel u u' Hu)|]. intros l m Hl. cbn [rrel ends2]. apply erel_assign; [exact He|exact (any_or g x Ex)|]. repeat constructor.
      - destruct (any g x) eqn:Ex; [|discriminate H]. injection H as <-. split; [now exists []|]. eapply rrel_bind; [exact (getv_any g e e' x He Ex)|]. intros u u' Hu. eapply rrel_bind; [exact (as_list_rel u u' Hu)|]. intros l m Hl. cbn [rrel ends2]. apply erel_assign; [exact He|exact (any_or g x Ex)|]. constructor. clear Hu. induction Hl; cbn [map]; repeat constructor. assumption.
      - destruct (any g x) eqn:Ex; [|discriminate H]. cbn [andb] in H. destruct (any g y) eqn:Ey; [|discriminate H]. injection H as <-. split; [now exists []|]. eapply rrel_bind; [exact (getv_any g e e' x He Ex)|]. intros u u' Hu. eapply rrel_bind; [exact (getv_any g e e' y He Ey)|]. intros v v' Hv.
        cbn [rrel ends2]. apply erel_assign; [|exact (any_or g y Ey)|exact Hu]. apply erel_assign; [exact He|exact (any_or g x Ex)|exact Hv].
      - destruct (forallb (any g) refs) eqn:Er; [|discriminate H]. cbn [andb] in H. destruct (forallb (fine g) vals) eqn:Ev; [|discriminate H]. injection H as <-. split; [now exists []|].
        eapply rrel_bind; [exact (refs_rel g e e' refs He Er)|]. intros us us' Hus. eapply rrel_bind; [exact (evals_rel g e e' vals He Ev)|]. intros vs vs' Hvs. eapply rrel_bind; [exact (call_rel f us us' vs vs' Hus Hvs)|]. intros rs rs' Hrs.
        assert (L : length rs = length rs') by (clear - Hrs; induction Hrs; cbn [length]; congruence). rewrite <- L. destruct (length rs =? length refs); [|exact I]. cbn [rrel ends2]. now apply assigns_rel.
    Qed.
    Lemma blocks_rel l g e e' : erel g e e' -> sfines l g = true -> rrel (ends_in2 g) (block l e) (blockw l e').
    Proof. apply block_rel. apply Forall_forall. intros s _. apply exec_rel. Qed.
  End Stmt.
  (** *** Functions *)
  Definition anys (ps : list (var * ty)) : kctx := rev (map (fun p => (fst p, KAny)) ps).
  Lemma params_rel ps vs vs' g e e' : erel g e e' -> Forall2 vrel vs vs' -> rrel (erel (anys ps ++ g)) (bind_params ps vs e) (bind_params ps vs' e').
  Proof.
    intros He H. unfold bind_params. assert (L : length vs = length vs') by (clear - H; induction H; cbn [length]; congruence). rewrite <- L. destruct (length ps =? length vs) eqn:E; [|exact I]. cbn [rrel]. apply erel_app; [|exact He]. apply Nat.eqb_eq in E. clear L He. revert ps E. induction H as [|v w vs vs' Hv H IH]; intros [|[x t] ps] E; cbn [length] in E; try lia; [constructor|].
    unfold anys. cbn [map fst combine rev]. apply erel_app; [apply IH; lia|]. repeat constructor. exact Hv.
  Qed.
  Definition proc_fine (p : proc) : bool := sfines (pr_body p) (anys (pr_vals p) ++ anys (pr_refs p)).
  Definition func_fine (f : func) : bool := forallb proc_fine (f_procs f) && sfines (f_body f) (anys (f_args f)).
  Lemma no_call_rel : forall f us us' vs vs', Forall2 vrel us us' -> Forall2 vrel vs vs' -> rrel (Forall2 vrel) (no_call f us vs) (no_call f us' vs').
  Proof. intros. exact I. Qed.
  Lemma look_anys x ps g : any g x = true -> any (anys ps ++ g) x = true.
  Proof.
    unfold anys. rewrite <- map_rev. generalize (rev ps). intros l H. induction l as [|[y t] l IH]; [exact H|]. unfold any in *. cbn [map app look fst]. destruct (var_eqb x y); [reflexivity|exact IH].
  Qed.
  Lemma proc_rel ps : forallb proc_fine ps = true -> forall f us us' vs vs', Forall2 vrel us us' -> Forall2 vrel vs vs' -> rrel (Forall2 vrel) (call_proc text ps f us vs) (call_procw over top text ps f us' vs').
  Proof.
    intros H f us us' vs vs' Hu Hv. unfold call_proc, call_procw. destruct (nth_error ps f) as [p|] eqn:Ep; [|exact I]. rewrite forallb_forall in H. specialize (H p (nth_error_In _ _ Ep)).
    eapply rrel_bind; [exact (params_rel (pr_refs p) us us' [] [] [] er_nil Hu)|]. intros e e' He. rewrite app_nil_r in He. eapply rrel_bind; [exact (params_rel (pr_vals p) vs vs' _ e e' He Hv)|]. intros e1 e1' He1.
    eapply rrel_bind; [apply (leave_rel no_call no_call no_call_rel (anys (pr_vals p) ++ anys (pr_refs p)) e1 e1' []); [exact He1|]; exact (blocks_rel no_call no_call no_call_rel (pr_body p) (anys (pr_vals p) ++ anys (pr_refs p)) e1 e1' He1 H)|]. intros [e2|v] [e2'|w] Ho; cbn [ends2] in Ho; try (now destruct Ho).
    assert (S := refs_rel no_call no_call no_call_rel (anys (pr_vals p) ++ anys (pr_refs p)) e2 e2' (map fst (pr_refs p)) Ho). 
    assert (M : forall (e : env), mapM (fun x : var * ty => getv (fst x) e) (pr_refs p) = mapM (fun x => getv x e) (map fst (pr_refs p))).
    { intros e0. clear. induction (pr_refs p) as [|x l IH]; [reflexivity|]. cbn [mapM map]. now rewrite IH. }
    rewrite !M. apply S. apply forallb_forall. intros x _. apply look_anys. rewrite <- (app_nil_r (anys (pr_refs p))). now apply look_anys.
  Qed.
  Lemma func_rel f vs vs' : func_fine f = true -> Forall2 vrel vs vs' -> rrel vrel (run_func f text vs) (run_funcw over top f text vs').
  Proof.
    unfold func_fine. intros H Hv. apply andb_true_iff in H as [H1 H2]. unfold run_func, run_funcw. eapply rrel_bind; [exact (params_rel (f_args f) vs vs' [] [] [] er_nil Hv)|]. intros e e' He. rewrite app_nil_r in He.
    eapply rrel_bind; [exact (blocks_rel _ _ (proc_rel (f_procs f) H1) (f_body f) _ e e' He H2)|]. intros [e1|v] [e1'|w] Ho; cbn [ends_in2] in Ho; try (now destruct Ho). exact Ho.
  Qed.
End Word.
(** Values without numbers are the same *)
Fixpoint no_num (t : ty) : bool :=
  match t with TNum | TEnum => false | TPair a b => no_num a && no_num b | TArr a _ | TVec a | TOpt a => no_num a | _ => true end.
Lemma vrel_same top enum t : no_num t = true -> forall v w, vty enum v t -> vrel top v w -> v = w.
Proof.
  induction t as [| | | | | |a IHa b IHb|a IHa n|a IHa|a IHa]; cbn [no_num]; intros H v w Hv Hw; try discriminate H; inversion Hv; subst; inversion Hw; subst; try reflexivity.
  - apply andb_true_iff in H as [G1 G2]. f_equal; auto.
  - f_equal. clear Hv Hw. match goal with HF : Forall2 _ _ _ |- _ => induction HF as [|x y l m Hx HF IH] end; [reflexivity|]. match goal with HA : Forall _ (_ :: _) |- _ => inversion HA; subst end. f_equal; auto.
  - f_equal. clear Hv Hw. match goal with HF : Forall2 _ _ _ |- _ => induction HF as [|x y l m Hx HF IH] end; [reflexivity|]. match goal with HA : Forall _ (_ :: _) |- _ => inversion HA; subst end. f_equal; auto.
  - f_equal. f_equal. auto.
Qed.
Lemma rrel_same top enum t r r' : no_num t = true -> safe (fun v => vty enum v t) r -> rrel (vrel top) r r' -> r' = r.
Proof. intros H S R. destruct r, r'; cbn [safe rrel] in *; try tauto. now rewrite (vrel_same top enum t H _ _ S R). Qed.
