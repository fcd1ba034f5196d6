(** Accepted functions do not get stuck: the checks of the compiler in Rust.v and RustFn.v rule out every state the evaluation does not define. *)
From Verif Require Export RustFn.
From Coq Require Import ZifyBool ZifyNat ZifyN.
Open Scope nat_scope.
Open Scope list_scope.
Set Default Proof Using "Type".

(** A result that is neither stuck nor missing *)
Definition safe {A} (P : A -> Prop) (r : res A) : Prop := match r with Ok x => P x | Panic => True | NoCompile | Fuel => False end.
Lemma safe_bind {A B} (P : A -> Prop) (Q : B -> Prop) r (k : A -> res B) : safe P r -> (forall x, P x -> safe Q (k x)) -> safe Q (bind r k).
Proof. destruct r; cbn; auto. Qed.
Lemma safe_imp {A} (P Q : A -> Prop) r : safe P r -> (forall x, P x -> Q x) -> safe Q r.
Proof. destruct r; cbn; auto. Qed.
Lemma safe_mapM {A B} (P : B -> Prop) (f : A -> res B) l : (forall x, In x l -> safe P (f x)) -> safe (Forall P) (mapM f l).
Proof.
  induction l as [|x l IH]; intros H; cbn [mapM]; [constructor|]. eapply safe_bind; [apply H; now left|]. intros y Hy. eapply safe_bind; [apply IH; intros z Hz; apply H; now right|]. intros ys Hys. now constructor.
Qed.
Lemma var_eqb_eq x y : var_eqb x y = true -> x = y.
Proof. destruct x, y; intros H; try discriminate H; reflexivity. Qed.
Lemma var_eqb_refl x : var_eqb x x = true.
Proof. destruct x; reflexivity. Qed.
Lemma ty_eqb_eq a : forall b, ty_eqb a b = true -> a = b.
Proof.
  induction a as [| | | | | |a IHa b IHb|a IHa n|a IHa|a IHa]; intros [| | | | | |c d|c m|c|c] H; try discriminate H; try reflexivity; cbn [ty_eqb] in H.
  - apply andb_true_iff in H as [H1 H2]. now rewrite (IHa _ H1), (IHb _ H2).
  - apply andb_true_iff in H as [H1 H2]. apply Nat.eqb_eq in H2. now rewrite (IHa _ H1), H2.
  - now rewrite (IHa _ H).
  - now rewrite (IHa _ H).
Qed.

Section Types.
  Variable enum : list (label * option ty).
  Notation variant := (variant enum).
  (** Values of a type; the length of an array does not matter, since an index out of range is a panic. *)
  Inductive vty : val -> ty -> Prop :=
  | vt_bool b : vty (VBool b) TBool
  | vt_num n : vty (VNum n) TNum
  | vt_max : vty VMax TNum
  | vt_byte c : vty (VByte c) TByte
  | vt_char c : vty (VChar c) TChar
  | vt_str s : vty (VStr s) TStr
  | vt_con l : variant l = Some None -> vty (VCon l None) TEnum
  | vt_con_of l u v : variant l = Some (Some u) -> vty v u -> vty (VCon l (Some v)) TEnum
  | vt_pair a b t u : vty a t -> vty b u -> vty (VPair a b) (TPair t u)
  | vt_arr l t n : Forall (fun v => vty v t) l -> vty (VArr l) (TArr t n)
  | vt_vec l t : Forall (fun v => vty v t) l -> vty (VArr l) (TVec t)
  | vt_none t : vty (VOpt None) (TOpt t)
  | vt_some v t : vty v t -> vty (VOpt (Some v)) (TOpt t).
  Definition env_ok (g : ctx) (e : env) : Prop := Forall2 (fun p q => fst p = fst q /\ vty (snd q) (snd p)) g e.

  Lemma look_ok g e x t : env_ok g e -> look x g = Some t -> exists v, look x e = Some v /\ vty v t.
  Proof.
    induction 1 as [|[y u] [z w] g e [H1 H2] H IH]; cbn [look]; intros E; [discriminate E|]. cbn [fst snd] in *. subst z. destruct (var_eqb x y); [|auto]. injection E as ->. eauto.
  Qed.
  Lemma getv_ok g e x t : env_ok g e -> look x g = Some t -> safe (fun v => vty v t) (getv x e).
  Proof. intros H E. destruct (look_ok g e x t H E) as (v & Ev & Hv). unfold getv. rewrite Ev. exact Hv. Qed.
  Lemma assign_ok g e x t v : env_ok g e -> look x g = Some t -> vty v t -> env_ok g (assign x v e).
  Proof.
    induction 1 as [|[y u] [z w] g e [H1 H2] H IH]; cbn [look assign]; intros E Hv; [constructor|]. cbn [fst snd] in *. subst z. destruct (var_eqb x y); [injection E as ->|]; (constructor; [cbn [fst snd]; auto|]); [assumption|]. apply IH; assumption.
  Qed.
  Lemma env_len g e : env_ok g e -> length g = length e.
  Proof. induction 1; cbn; congruence. Qed.
  Lemma env_app g e g' e' : env_ok g e -> env_ok g' e' -> env_ok (g ++ g') (e ++ e').
  Proof. unfold env_ok. apply Forall2_app. Qed.
  Lemma env_skip b : forall g e, env_ok (b ++ g) e -> env_ok g (skipn (length b) e).
  Proof. induction b as [|p b IH]; intros g e H; [exact H|]. inversion H; subst. cbn [length skipn]. now apply IH. Qed.

  (** *** Expressions *)
  Section Eval.
    Variable text : list N.
    Lemma as_bool_ok v : vty v TBool -> safe (fun _ => True) (as_bool v).
    Proof. intros H. inversion H; subst. exact I. Qed.
    Lemma as_list_ok v t : (vty v (TVec t) \/ exists n, vty v (TArr t n)) -> safe (Forall (fun v => vty v t)) (as_list v).
    Proof. intros [H|(n & H)]; inversion H; subst; assumption. Qed.
    Lemma index_ok l k t : Forall (fun v => vty v t) l -> vty k TNum -> safe (fun v => vty v t) (index l k).
    Proof.
      intros Hl Hk. inversion Hk; subst; cbn [index]; [|exact I]. destruct (nth_error l n) as [v|] eqn:E; [|exact I]. cbn [safe]. rewrite Forall_forall in Hl. apply Hl. eapply nth_error_In; eauto.
    Qed.
    Lemma find_ok l vs t : Forall (fun v => vty v (TPair TEnum t)) vs -> safe (fun o => vty (VOpt o) (TOpt (TPair TEnum t))) (find_state l vs).
    Proof.
      induction 1 as [|v vs Hv H IH]; cbn [find_state]; [constructor|]. inversion Hv as [| | | | | | | |a b ta tb Ha Hb| | | |]; subst. inversion Ha; subst; cbn [state_is bind]; destruct (label_eqb _ _); try exact IH; cbn [safe]; now constructor.
    Qed.
    (** Expressions whose type is evident, and those checked against a type *)
    Definition infers (a : rexp) : Prop := forall g e t, env_ok g e -> infer enum g a = Some t -> safe (fun v => vty v t) (eval text e a).
    Definition checks (a : rexp) : Prop := forall g e t, env_ok g e -> has enum g a t = true -> safe (fun v => vty v t) (eval text e a).
    Lemma by_infer a : infers a -> (forall g t, has enum g a t = match infer enum g a with Some u => ty_eqb u t | None => false end) -> checks a.
    Proof. intros H E g e t He Ht. rewrite E in Ht. destruct (infer enum g a) as [u|] eqn:Ei; [|discriminate Ht]. apply ty_eqb_eq in Ht. subst u. exact (H g e t He Ei). Qed.
    Ltac two H := let g := fresh "g" in let e := fresh "e" in let t := fresh "t" in let He := fresh "He" in
      intros g e t He H; cbn [infer] in H.
    Ltac arg IH t := match goal with |- safe _ (bind _ _) => eapply safe_bind; [eapply (IH _ _ t); eassumption|] end.
    Fixpoint rexp_all (P : rexp -> Prop) (HP : forall a, (forall b, In b (match a with
        | ECon _ (Some b) => [b] | EIdx b c => [b; c] | EField _ b => [b] | EArr l => l | ERep b _ => [b] | EPair b c => [b; c] | ESome b => [b]
        | EEq b c => [b; c] | EAnd b c => [b; c] | ENot b => [b] | ELe b c => [b; c] | ESucc b => [b] | EWidth b c => [b; c] | ECheck _ b => [b]
        | EGet b c => [b; c] | EIsSome b => [b] | EAllNot b => [b] | EIsEmpty b => [b] | EPlus b c => [b; c] | EBoth b c => [b; c] | ESlice b c => [b; c]
        | EExpect b => [b] | EFind b _ => [b] | _ => [] end) -> P b) -> P a) (a : rexp) {struct a} : P a.
    Proof.
      assert (H1 : forall b, P b -> forall x, In x [b] -> P x) by (intros b Hb x [<-|[]]; assumption).
      assert (H2 : forall b c, P b -> P c -> forall x, In x [b; c] -> P x) by (intros b c Hb Hc x [<-|[<-|[]]]; assumption).
      apply HP. destruct a; try (solve [intros ? []]); try (solve [apply H1; apply rexp_all; exact HP]); try (solve [apply H2; apply rexp_all; exact HP]).
      - destruct o as [b|]; [apply H1; apply rexp_all; exact HP|intros b []].
      - induction l as [|b l IH]; [intros b []|]. intros x [<-|Hx]; [apply rexp_all; exact HP|now apply IH].
    Defined.
    Lemma eval_ok a : infers a /\ checks a.
    Proof.
      induction a as [a IH] using rexp_all.
      assert (HI : infers a).
      { intros g e t He H.
        destruct a; cbn [infer] in H; try discriminate H; cbn [eval];
          try (injection H as <-; constructor).
        all: try (destruct (IH a1 (or_introl eq_refl)) as [I1 _]; destruct (IH a2 (or_intror (or_introl eq_refl))) as [I2 _]).
        all: try (destruct (IH a (or_introl eq_refl)) as [I1 _]).
        - now apply (getv_ok g).
        - destruct (infer enum g a1) as [[]|] eqn:E1; try discriminate H; destruct (infer enum g a2) as [[]|] eqn:E2; try discriminate H.
          + assert (Ht : a = t) by (destruct a2; try congruence; destruct (n0 <? n); congruence). subst a.
            eapply safe_bind; [exact (I1 g e _ He E1)|]. intros v Hv. eapply safe_bind; [apply as_list_ok; right; eexists; exact Hv|]. intros l Hl. eapply safe_bind; [exact (I2 g e _ He E2)|]. intros k Hk. now apply index_ok.
          + injection H as <-. eapply safe_bind; [exact (I1 g e _ He E1)|]. intros v Hv. eapply safe_bind; [apply as_list_ok; left; exact Hv|]. intros l Hl. eapply safe_bind; [exact (I2 g e _ He E2)|]. intros k Hk. now apply index_ok.
        - destruct (infer enum g a) as [[]|] eqn:E1; try discriminate H. injection H as <-. eapply safe_bind; [exact (I1 g e _ He E1)|]. intros v Hv. inversion Hv; subst. destruct second; assumption.
        - destruct (infer enum g a1) as [[]|] eqn:E1; try discriminate H; destruct (infer enum g a2) as [[]|] eqn:E2; try discriminate H. injection H as <-.
          eapply safe_bind; [exact (I1 g e _ He E1)|]. intros v Hv. eapply safe_bind; [exact (I2 g e _ He E2)|]. intros w Hw. inversion Hv; subst; inversion Hw; subst; constructor.
        - destruct (infer enum g a1) as [[]|] eqn:E1; try discriminate H; destruct (infer enum g a2) as [[]|] eqn:E2; try discriminate H. injection H as <-.
          eapply safe_bind; [exact (I1 g e _ He E1)|]. intros v Hv. inversion Hv; subst. cbn [as_bool bind]. destruct b; [|constructor]. eapply safe_bind; [exact (I2 g e _ He E2)|]. intros w Hw. inversion Hw; subst; constructor.
        - destruct (infer enum g a) as [[]|] eqn:E1; try discriminate H. injection H as <-. eapply safe_bind; [exact (I1 g e _ He E1)|]. intros v Hv. inversion Hv; subst. constructor.
        - destruct (infer enum g a1) as [[]|] eqn:E1; try discriminate H; destruct (infer enum g a2) as [[]|] eqn:E2; try discriminate H. injection H as <-.
          eapply safe_bind; [exact (I1 g e _ He E1)|]. intros v Hv. eapply safe_bind; [exact (I2 g e _ He E2)|]. intros w Hw. inversion Hv; subst; inversion Hw; subst; constructor.
        - destruct (infer enum g a) as [[]|] eqn:E1; try discriminate H. injection H as <-. eapply safe_bind; [exact (I1 g e _ He E1)|]. intros v Hv. inversion Hv; subst; constructor.
        - destruct (infer enum g a1) as [[]|] eqn:E1; try discriminate H; destruct (infer enum g a2) as [[]|] eqn:E2; try discriminate H. injection H as <-.
          eapply safe_bind; [exact (I1 g e _ He E1)|]. intros v Hv. eapply safe_bind; [exact (I2 g e _ He E2)|]. intros w Hw. inversion Hv; subst; inversion Hw; subst; constructor.
        - destruct (infer enum g a) as [[]|] eqn:E1; try discriminate H. destruct (atom_compiles s); [|discriminate H]. injection H as <-. eapply safe_bind; [exact (I1 g e _ He E1)|]. intros v Hv. inversion Hv; subst; constructor.
        - destruct (infer enum g a1) as [[]|] eqn:E1; try discriminate H; destruct (infer enum g a2) as [[]|] eqn:E2; try discriminate H. injection H as <-.
          eapply safe_bind; [exact (I1 g e _ He E1)|]. intros v Hv. eapply safe_bind; [exact (I2 g e _ He E2)|]. intros w Hw. inversion Hv; subst; inversion Hw; subst; cbn [safe]; try constructor. destruct (str_get_ok _ _ _); repeat constructor.
        - destruct (infer enum g a) as [[]|] eqn:E1; try discriminate H. injection H as <-. eapply safe_bind; [exact (I1 g e _ He E1)|]. intros v Hv. inversion Hv; subst; constructor.
        - assert (E : exists n, (infer enum g a = Some (TArr TBool n) \/ infer enum g a = Some (TVec TBool)) /\ t = TBool).
          { destruct (infer enum g a) as [[]|]; try discriminate H; destruct a0; try discriminate H; injection H as <-; [exists n|exists 0]; auto. }
          destruct E as (n & E1 & ->). assert (S : safe (fun v => vty v (TVec TBool) \/ exists n, vty v (TArr TBool n)) (eval text e a)) by (destruct E1 as [E1|E1]; (eapply safe_imp; [exact (I1 g e _ He E1)|]); cbv beta; eauto).
          eapply safe_bind; [exact S|]. intros v Hv. eapply safe_bind; [apply as_list_ok; exact Hv|]. intros l Hl. eapply safe_bind; [apply (safe_mapM (fun _ => True)); intros x Hx; rewrite Forall_forall in Hl; apply as_bool_ok; auto|]. intros; constructor.
        - destruct (infer enum g a) as [[]|] eqn:E1; try discriminate H. injection H as <-. eapply safe_bind; [exact (I1 g e _ He E1)|]. intros v Hv. eapply safe_bind; [apply as_list_ok; left; exact Hv|]. intros; constructor.
        - destruct (infer enum g a1) as [[]|] eqn:E1; try discriminate H; destruct (infer enum g a2) as [[]|] eqn:E2; try discriminate H. injection H as <-.
          eapply safe_bind; [exact (I1 g e _ He E1)|]. intros v Hv. eapply safe_bind; [exact (I2 g e _ He E2)|]. intros w Hw. inversion Hv; subst; inversion Hw; subst; constructor.
        - destruct (infer enum g a1) as [[]|] eqn:E1; try discriminate H; destruct (infer enum g a2) as [[]|] eqn:E2; try discriminate H. injection H as <-.
          eapply safe_bind; [exact (I1 g e _ He E1)|]. intros v Hv. inversion Hv; subst. cbn [as_bool bind]. eapply safe_bind; [exact (I2 g e _ He E2)|]. intros w Hw. inversion Hw; subst; constructor.
        - apply Forall_forall. intros v Hv. apply in_map_iff in Hv as (c & <- & _). constructor.
        - destruct (infer enum g a1) as [[]|] eqn:E1; try discriminate H; destruct (infer enum g a2) as [[]|] eqn:E2; try discriminate H. injection H as <-.
          eapply safe_bind; [exact (I1 g e _ He E1)|]. intros v Hv. eapply safe_bind; [exact (I2 g e _ He E2)|]. intros w Hw. inversion Hv; subst; inversion Hw; subst; try exact I. destruct (str_get_ok _ _ _); constructor.
        - destruct (infer enum g a) as [[]|] eqn:E1; try discriminate H. injection H as <-. eapply safe_bind; [exact (I1 g e _ He E1)|]. intros v Hv. inversion Hv; subst; [exact I|assumption].
        - destruct (infer enum g a) as [[]|] eqn:E1; try discriminate H. destruct a0; try discriminate H. destruct a0_1; try discriminate H. destruct (variant l) as [[]|]; try discriminate H. injection H as <-.
          eapply safe_bind; [exact (I1 g e _ He E1)|]. intros v Hv. eapply safe_bind; [apply as_list_ok; left; exact Hv|]. intros vs Hvs. eapply safe_bind; [apply find_ok; exact Hvs|]. intros o Ho. exact Ho. }
      split; [exact HI|]. destruct a; try (apply by_infer; [exact HI|reflexivity]); clear HI; intros g e t He H; cbn [has] in H; cbn [eval].
      - destruct t; try (destruct (variant l) as [[]|]; discriminate H). destruct (variant l) as [[u|]|] eqn:E; destruct o as [a|]; try discriminate H.
        + eapply safe_bind; [exact (proj2 (IH a (or_introl eq_refl)) g e u He H)|]. intros v Hv. cbn [safe]. econstructor; eauto.
        + now constructor.
      - destruct t; try discriminate H. apply andb_true_iff in H as [_ H].
        match goal with |- safe _ (bind (?F l) _) => set (each := F) end. assert (S : safe (Forall (fun v => vty v t)) (each l)).
        { clear n. revert IH H. induction l as [|a l IHl]; intros IH H; [constructor|]. apply andb_true_iff in H as [H1 H2]. unfold each; fold each. eapply safe_bind; [exact (proj2 (IH a (or_introl eq_refl)) g e t He H1)|].
          intros v Hv. eapply safe_bind; [apply IHl; [intros b Hb; apply IH; now right|exact H2]|]. intros vs Hvs. now constructor. }
        eapply safe_bind; [exact S|]. intros vs Hvs. now constructor.
      - destruct t; try discriminate H; [apply andb_true_iff in H as [_ H]|]; (eapply safe_bind; [exact (proj2 (IH a (or_introl eq_refl)) g e _ He H)|]; intros v Hv; constructor; apply Forall_forall; intros x Hx; apply repeat_spec in Hx; now subst).
      - destruct t; try discriminate H. repeat constructor.
      - destruct t; try discriminate H. apply andb_true_iff in H as [H1 H2]. eapply safe_bind; [exact (proj2 (IH a1 (or_introl eq_refl)) g e _ He H1)|]. intros v Hv. eapply safe_bind; [exact (proj2 (IH a2 (or_intror (or_introl eq_refl))) g e _ He H2)|]. intros w Hw. now constructor.
      - destruct t; try discriminate H. eapply safe_bind; [exact (proj2 (IH a (or_introl eq_refl)) g e _ He H)|]. intros v Hv. now constructor.
      - destruct t; try discriminate H. constructor.
    Qed.

    (** *** Places, patterns and rounds *)
    Definition access_ok (g : ctx) (a : access) (q : val + bool) : Prop :=
      match a, q with
      | AIdx k, inl v => infer enum g k = Some TNum -> vty v TNum
      | AField s, inr s' => s = s'
      | _, _ => False
      end.
    Lemma upd_forall {A} (P : A -> Prop) n x l : Forall P l -> P x -> Forall P (upd n x l).
    Proof. intros H Hx. revert n. induction H as [|y l Hy H IH]; intros [|n]; cbn [upd]; constructor; auto. Qed.
    Lemma store_ok g p : forall q t u v w, Forall2 (access_ok g) p q -> place enum g t p = Some u -> vty v t -> vty w u -> safe (fun v => vty v t) (store v q w).
    Proof.
      induction p as [|a p IH]; intros q t u v w Hq E Hv Hw; inversion Hq as [|a0 q0 p0 q' Ha Hr]; subst; cbn [place] in E; cbn [store].
      - injection E as <-. exact Hw.
      - destruct a as [k|s]; destruct q0 as [k'|s']; try (now destruct Ha); cbn [access_ok] in Ha.
        + assert (T : exists t', infer enum g k = Some TNum /\ place enum g t' p = Some u /\ (forall l, Forall (fun v => vty v t') l -> vty (VArr l) t) /\ exists l, v = VArr l /\ Forall (fun v => vty v t') l).
          { destruct t as [| | | | | |t1 t2|t1 n|t1|t1]; try discriminate E; destruct (infer enum g k) as [[]|] eqn:Ek; try discriminate E; exists t1.
            - split; [reflexivity|]. split; [destruct k; try exact E; destruct (n0 <? n); [exact E|discriminate E]|]. split; [intros l Hl; now constructor|]. inversion Hv; subst. eauto.
            - split; [reflexivity|]. split; [exact E|]. split; [intros l Hl; now constructor|]. inversion Hv; subst. eauto. }
          destruct T as (t' & Ek & Ep & Hmk & l & -> & Hl). cbn [as_list bind]. specialize (Ha Ek).
          destruct k' as [|m| | | | | | | |]; try (now inversion Ha); try exact I.
          eapply safe_bind; [apply (index_ok l (VNum m) t' Hl Ha)|]. intros x Hx. eapply safe_bind; [eapply IH; eassumption|]. intros y Hy. cbn [safe]. apply Hmk, upd_forall; assumption.
        + subst s'. destruct t as [| | | | | |t1 t2|t1 n|t1|t1]; try discriminate E. inversion Hv as [| | | | | | | |a b ta tb Hva Hvb| | | |]; subst.
          destruct s; (eapply safe_bind; [eapply IH; eassumption|]); intros y Hy; now constructor.
    Qed.
    Lemma access_val_ok g e a : env_ok g e -> (match a with AIdx k => infer enum g k = Some TNum | AField _ => True end) -> safe (access_ok g a) (access_val text e a).
    Proof.
      intros He Ha. destruct a as [k|s]; cbn [access_val]; [|reflexivity]. eapply safe_bind; [exact (proj1 (eval_ok k) g e TNum He Ha)|]. intros v Hv. cbn [safe access_ok]. auto.
    Qed.
    Lemma place_nums g p : forall t u, place enum g t p = Some u -> Forall (fun a => match a with AIdx k => infer enum g k = Some TNum | AField _ => True end) p.
    Proof.
      induction p as [|[k|s] p IH]; intros t u E; constructor; cbn [place] in E; auto.
      - destruct t; try discriminate E; destruct (infer enum g k) as [[]|]; try discriminate E; reflexivity.
      - destruct t as [| | | | | |t1 t2|t1 n|t1|t1]; try discriminate E; destruct (infer enum g k) as [[]|]; try discriminate E; [|eauto]. apply (IH t1 u). destruct k; try exact E. destruct (n0 <? n); [exact E|discriminate E].
      - destruct t; try discriminate E. eauto.
    Qed.
    Lemma accesses_ok g e p : env_ok g e -> Forall (fun a => match a with AIdx k => infer enum g k = Some TNum | AField _ => True end) p -> safe (fun q => Forall2 (access_ok g) p q) (mapM (access_val text e) p).
    Proof.
      intros He H. induction H as [|a p Ha H IH]; cbn [mapM]; [constructor|]. eapply safe_bind; [apply (access_val_ok g e a He Ha)|]. intros q Hq. eapply safe_bind; [exact IH|]. intros qs Hqs. now constructor.
    Qed.
    Lemma evals_ok g e l : forall ts, env_ok g e -> all2 (has enum g) l ts = true -> safe (fun vs => Forall2 vty vs ts) (mapM (eval text e) l).
    Proof.
      induction l as [|a l IH]; intros [|t ts] He H; try discriminate H; cbn [mapM]; [constructor|]. cbn [all2] in H. apply andb_true_iff in H as [H1 H2].
      eapply safe_bind; [exact (proj2 (eval_ok a) g e t He H1)|]. intros v Hv. eapply safe_bind; [exact (IH ts He H2)|]. intros vs Hvs. now constructor.
    Qed.
    Lemma rounds_ok g e it b : env_ok g e -> iter_ctx enum g it = Some b -> safe (Forall (env_ok b)) (rounds text e it).
    Proof.
      intros He E. destruct it as [| | |x a|a]; cbn [iter_ctx] in E; cbn [rounds].
      - injection E as <-. apply Forall_forall. intros r Hr. apply in_map_iff in Hr as (c & <- & _). repeat constructor.
      - injection E as <-. apply Forall_forall. intros r Hr. apply in_map_iff in Hr as ([i c] & <- & _). repeat constructor.
      - injection E as <-. apply Forall_forall. intros r Hr. apply in_map_iff in Hr as ([i c] & <- & _). repeat constructor.
      - assert (T : exists t, b = [(x, t)] /\ safe (fun v => vty v (TVec t) \/ exists n, vty v (TArr t n)) (eval text e a)).
        { destruct (infer enum g a) as [[]|] eqn:Ea; try discriminate E; injection E as <-; eexists; (split; [reflexivity|]); (eapply safe_imp; [exact (proj1 (eval_ok a) g e _ He Ea)|]); cbv beta; eauto. }
        destruct T as (t & -> & S). eapply safe_bind; [exact S|]. intros v Hv. eapply safe_bind; [apply as_list_ok; exact Hv|]. intros l Hl. cbn [safe]. apply Forall_forall. intros r Hr. apply in_map_iff in Hr as (c & <- & Hc). rewrite Forall_forall in Hl. repeat constructor. auto.
      - destruct (infer enum g a) as [t|] eqn:Ea; [|discriminate E]. destruct t as [| | | | | |t1 t2|t n|t1|t1]; try discriminate E. destruct t as [| | | | | |t1 t2|t n0|t1|t1]; try discriminate E. injection E as <-.
        eapply safe_bind; [exact (proj1 (eval_ok a) g e _ He Ea)|]. intros v Hv. eapply safe_bind; [apply as_list_ok; right; eexists; exact Hv|]. intros l Hl. apply safe_mapM. intros [i w] Hw.
        assert (G : vty w (TPair t1 t2)). { rewrite Forall_forall in Hl. apply Hl. unfold enumerate in Hw. apply in_combine_r in Hw. exact Hw. }
        inversion G; subst. cbn [safe]. repeat constructor; assumption.
    Qed.
    Lemma label_eqb_eq a b : label_eqb a b = true -> a = b.
    Proof. destruct a, b; cbn [label_eqb]; intros H; try discriminate H; [reflexivity|]. apply Nat.eqb_eq in H. now subst. Qed.
    Definition byte_ok (c : option rexp) (w : option val) : Prop := match c, w with None, None => True | Some _, Some v => vty v TByte | _, _ => False end.
    Lemma fit_ok c w v p b : vty v TEnum -> byte_ok c w -> pat_ctx enum (match c with None => false | Some _ => true end) p = Some b ->
      safe (fun o => match o with Some e => env_ok b e | None => True end) (fit v w p).
    Proof.
      intros Hv Hw E. unfold pat_ctx in E. destruct v; try (now inversion Hv). cbn [fit]. destruct (label_eqb l (p_label p)) eqn:El; [|exact I]. apply label_eqb_eq in El. subst l.
      destruct (variant (p_label p)) as [ot|] eqn:Ev; [|discriminate E].
      destruct (match p_range p with None => true | Some r => match c with None => false | Some _ => true end && (fst r <=? snd r)%N end) eqn:Er; [|discriminate E].
      assert (T : safe (env_ok b) (match p_bind p, o with None, None => Ok [] | Some x, Some u => Ok [(x, u)] | _, _ => NoCompile end)).
      { inversion Hv as [| | | | | |l Hl|l u v Hl Hu| | | | |]; subst; rewrite Ev in Hl; injection Hl as ->; destruct (p_bind p); try discriminate E; injection E as <-; cbn [safe]; repeat constructor; assumption. }
      eapply safe_bind; [exact T|]. intros e He. destruct (p_range p) as [r|]; [|exact He]. destruct c as [c|]; [|discriminate Er]. destruct w as [w|]; [|now destruct Hw]. cbn [byte_ok] in Hw. inversion Hw; subst. cbn [safe]. destruct (in_range _ _); [exact He|exact I].
    Qed.

    (** *** Statements *)
    Definition subs (s : stmt) : list (list stmt) :=
      match s with
      | SIf _ l m => [l; m]
      | SFor _ l => [l]
      | SMatch _ _ arms other => match other with Some l => [l] | None => [] end ++ map snd arms
      | _ => []
      end.
    Fixpoint stmt_all (P : stmt -> Prop) (HP : forall s, (forall l, In l (subs s) -> Forall P l) -> P s) (s : stmt) {struct s} : P s.
    Proof.
      assert (HL : forall l (f : forall x, P x), Forall P l) by (intros l f; induction l; constructor; auto).
      apply HP. destruct s as [x t a|x t a|x p a|a|a|a l m|it l|a c arms other|x a|x|x|x y|f refs vals]; cbn [subs]; try (solve [intros ? []]); clear HL.
      - intros k [<-|[<-|[]]]; [induction l as [|x l IH]|induction m as [|x m IH]]; constructor; try assumption; apply stmt_all; exact HP.
      - intros k [<-|[]]. induction l as [|x l IH]; constructor; try assumption; apply stmt_all; exact HP.
      - intros k Hk. apply in_app_iff in Hk as [Hk|Hk].
        + destruct other as [l|]; [|now destruct Hk]. destruct Hk as [<-|Hk]; [|now destruct Hk]. induction l as [|x l IH]; constructor; try assumption; apply stmt_all; exact HP.
        + induction arms as [|[[p h] l] arms IH]; [now destruct Hk|]. destruct Hk as [<-|Hk]; [|now apply IH]. cbn [snd]. clear IH. induction l as [|x l IH]; constructor; try assumption; apply stmt_all; exact HP.
    Defined.
    Lemma passes_iff u t v : passes u t = true -> vty v u <-> vty v t.
    Proof.
      unfold passes. intros H. apply orb_true_iff in H as [H|H]; [apply ty_eqb_eq in H; now subst|]. destruct u; try discriminate H. destruct t; try discriminate H. apply ty_eqb_eq in H. subst. split; intros G; inversion G; subst; now constructor.
    Qed.
    Section Stmt.
      Variable result : option ty.
      Variable procs : list (list ty * list ty).
      Variable call : nat -> list val -> list val -> res (list val).
      Hypothesis call_ok : forall f ts us rs vs, nth_error procs f = Some (ts, us) -> Forall2 vty rs ts -> Forall2 vty vs us ->
        safe (fun rs' => Forall2 vty rs' ts) (call f rs vs).
      Notation good := (Rust.good enum result procs).
      Notation goods := (Rust.goods enum result procs).
      Notation exec := (exec text call).
      Notation block := (Rust.block text call).
      Definition ends (g : ctx) (o : env + val) : Prop := match o with inl e => env_ok g e | inr v => exists t, result = Some t /\ vty v t end.
      Definition steps (s : stmt) : Prop := forall g e g', env_ok g e -> good s g = Some g' -> (exists b, g' = b ++ g) /\ safe (ends g') (exec s e).
      Definition ends_in (g : ctx) (o : env + val) : Prop := match o with inl e => exists b, env_ok (b ++ g) e | inr v => exists t, result = Some t /\ vty v t end.
      Lemma block_ok l : Forall steps l -> forall g e, env_ok g e -> goods l g = true -> safe (ends_in g) (block l e).
      Proof using Type.
        induction 1 as [|s l Hs H IH]; intros g e He Hg; cbn [Rust.block].
        - exists []. exact He.
        - cbn [Rust.goods] in Hg. destruct (good s g) as [g'|] eqn:Es; [|discriminate Hg]. destruct (Hs g e g' He Es) as [(b & ->) S]. eapply safe_bind; [exact S|]. intros [e'|v] Ho; [|exact Ho].
          eapply safe_imp; [exact (IH _ e' Ho Hg)|]. intros [e2|v] Hx; [|exact Hx]. destruct Hx as (b' & Hx). exists (b' ++ b). now rewrite <- app_assoc.
      Qed.
      Lemma leave_ok g e b r : env_ok g e -> safe (ends_in (b ++ g)) r -> safe (ends g) (leave e r).
      Proof using Type.
        intros He H. unfold leave. eapply safe_bind; [exact H|]. intros [e'|v] Ho; [|exact Ho]. destruct Ho as (b' & Ho). cbn [safe ends]. assert (L := env_len _ _ Ho). assert (L2 := env_len _ _ He). rewrite app_assoc in Ho.
        replace (length e' - length e) with (length (b' ++ b)); [now apply env_skip|]. rewrite app_assoc, app_length in L. lia.
      Qed.
      Lemma loop_ok f g b : (forall e, env_ok (b ++ g) e -> safe (ends_in (b ++ g)) (f e)) -> forall items e, Forall (env_ok b) items -> env_ok g e -> safe (ends g) (loop f items e).
      Proof using Type.
        intros Hf. induction items as [|r items IH]; intros e Hi He; cbn [loop]; [exact He|]. inversion Hi; subst. eapply safe_bind; [apply (leave_ok g e b); [exact He|apply Hf; now apply env_app]|]. intros [e'|v] Ho; [|exact Ho]. now apply IH.
      Qed.
      Lemma refs_ok g e refs : forall ts, env_ok g e -> all2 (fun x t => match look x g with Some u => passes u t | None => false end) refs ts = true ->
        safe (fun rs => Forall2 vty rs ts) (mapM (fun x => getv x e) refs).
      Proof using Type.
        induction refs as [|x refs IH]; intros [|t ts] He H; try discriminate H; cbn [mapM]; [constructor|]. cbn [all2] in H. apply andb_true_iff in H as [H1 H2]. destruct (look x g) as [u|] eqn:Eu; [|discriminate H1].
        eapply safe_bind; [exact (getv_ok g e x u He Eu)|]. intros v Hv. eapply safe_bind; [exact (IH ts He H2)|]. intros vs Hvs. constructor; [|assumption]. now apply (passes_iff u t v H1).
      Qed.
      Lemma assigns_ok g refs : forall ts rs e, env_ok g e -> all2 (fun x t => match look x g with Some u => passes u t | None => false end) refs ts = true -> Forall2 vty rs ts ->
        env_ok g (fold_left (fun e p => assign (fst p) (snd p) e) (combine refs rs) e).
      Proof using Type.
        induction refs as [|x refs IH]; intros [|t ts] rs e He H Hr; try discriminate H; [inversion Hr; subst; exact He|]. inversion Hr as [|v t' rs' ts' Hv Hr']; subst. cbn [all2] in H. apply andb_true_iff in H as [H1 H2]. destruct (look x g) as [u|] eqn:Eu; [|discriminate H1].
        cbn [combine fold_left fst snd]. apply (IH ts); try assumption. apply (assign_ok g e x u); try assumption. now apply (passes_iff u t v H1).
      Qed.
      Lemma all2_len {X Y} (f : X -> Y -> bool) l : forall m, all2 f l m = true -> length l = length m.
      Proof using Type. induction l as [|x l IH]; intros [|y m] H; try discriminate H; [reflexivity|]. cbn [all2] in H. apply andb_true_iff in H as [_ H]. cbn [length]. f_equal. auto. Qed.
      Lemma exec_block l m : (fix block (l : list stmt) (e : env) {struct l} : res (env + val) :=
        match l with [] => Ok (inl e) | s :: r => do o <- exec s e; match o with inl e' => block r e' | inr v => Ok (inr v) end end) l m = block l m.
      Proof using Type. reflexivity. Qed.
      Lemma matched_in arms v : vty v TEnum -> Rust.covered enum arms = true -> exists p l o u, In (p, None, l) arms /\ p_range p = None /\ v = VCon o u /\ label_eqb (p_label p) o = true.
      Proof using Type.
        intros Hv H. unfold covered in H. rewrite forallb_forall in H. assert (E : exists o u t, v = VCon o u /\ In (o, t) enum).
        { assert (F : forall l t, variant l = Some t -> In (l, t) enum).
          { intros l t E. unfold variant in E. destruct (find (fun p => label_eqb (fst p) l) enum) as [[l' t']|] eqn:Ef; [|discriminate E]. injection E as <-. apply find_some in Ef as [Hin El]. apply label_eqb_eq in El. cbn [fst] in El. now subst. }
          inversion Hv as [| | | | | |l Hl|l u w Hl Hu| | | | |]; subst; eauto 6. }
        destruct E as (o & u & t & -> & Hin). specialize (H _ Hin). apply existsb_exists in H as ([[p h] l] & Hp & E). apply andb_true_iff in E as [El E]. destruct h; [discriminate E|]. destruct (p_range p) eqn:Er; [discriminate E|]. exists p, l, o, u. auto.
      Qed.
      Lemma exec_ok s : steps s.
      Proof using call_ok.
        induction s as [s IH] using stmt_all. intros g e g' He H.
        destruct s as [x t a|x t a|x p a|a|a|a l m|it l|a c arms other|x a|x|x|x y|f refs vals]; cbn [Rust.good] in H; cbn [Rust.exec subs] in *.
        - destruct (has enum g a t) eqn:Ea; [|discriminate H]. injection H as <-. split; [now exists [(x, t)]|]. eapply safe_bind; [exact (proj2 (eval_ok a) g e t He Ea)|]. intros v Hv. constructor; auto.
        - destruct (infer enum g a) as [[]|] eqn:Ea; try discriminate H. destruct result as [[]|] eqn:Er; try discriminate H. destruct (ty_eqb a0 t) eqn:Et; [|discriminate H]. apply ty_eqb_eq in Et. subst a0. injection H as <-. split; [now exists [(x, t)]|].
          eapply safe_bind; [exact (proj1 (eval_ok a) g e _ He Ea)|]. intros v Hv. inversion Hv; subst; cbn [safe ends]; [|constructor; auto]. rewrite Er. eexists. split; [reflexivity|constructor].
        - destruct (look x g) as [t|] eqn:Ex; [|discriminate H]. destruct (place enum g t p) as [u|] eqn:Ep; [|discriminate H]. destruct (has enum g a u) eqn:Ea; [|discriminate H]. injection H as <-. split; [now exists []|].
          eapply safe_bind; [exact (proj2 (eval_ok a) g e u He Ea)|]. intros v Hv. eapply safe_bind; [exact (getv_ok g e x t He Ex)|]. intros w Hw. eapply safe_bind; [exact (accesses_ok g e p He (place_nums g p t u Ep))|]. intros q Hq.
          eapply safe_bind; [exact (store_ok g p q t u w v Hq Ep Hw Hv)|]. intros w' Hw'. exact (assign_ok g e x t w' He Ex Hw').
        - destruct result as [t|] eqn:Er; [|discriminate H]. destruct (has enum g a t) eqn:Ea; [|discriminate H]. injection H as <-. split; [now exists []|]. eapply safe_bind; [exact (proj2 (eval_ok a) g e t He Ea)|]. intros v Hv. cbn [safe ends]. rewrite Er. eauto.
        - destruct (has enum g a TBool) eqn:Ea; [|discriminate H]. injection H as <-. split; [now exists []|]. eapply safe_bind; [exact (proj2 (eval_ok a) g e TBool He Ea)|]. intros v Hv. inversion Hv; subst. cbn [as_bool bind]. destruct b; [exact He|exact I].
        - destruct (has enum g a TBool) eqn:Ea; [|discriminate H]. cbn [andb] in H.
          match type of H with (if ?A && ?B then _ else _) = _ => destruct A eqn:El; [|discriminate H]; destruct B eqn:Em; [|discriminate H] end. injection H as <-. split; [now exists []|].
          eapply safe_bind; [exact (proj2 (eval_ok a) g e TBool He Ea)|]. intros v Hv. inversion Hv; subst. cbn [as_bool bind]. apply (leave_ok g e []); [exact He|]. destruct b.
          + exact (block_ok l (IH l (or_introl eq_refl)) g e He El).
          + exact (block_ok m (IH m (or_intror (or_introl eq_refl))) g e He Em).
        - destruct (iter_ctx enum g it) as [b|] eqn:Eb; [|discriminate H]. match type of H with (if ?A then _ else _) = _ => destruct A eqn:El; [|discriminate H] end. injection H as <-. split; [now exists []|].
          eapply safe_bind; [exact (rounds_ok g e it b He Eb)|]. intros items Hi. apply (loop_ok _ g b); try assumption. intros e' He'. exact (block_ok l (IH l (or_introl eq_refl)) (b ++ g) e' He' El).
        - destruct (has enum g a TEnum) eqn:Ea; [|discriminate H]. destruct (match c with None => true | Some c => has enum g c TByte end) eqn:Ec; [|discriminate H].
          match type of H with (if _ && _ && ?A && ?B then _ else _) = _ => destruct A eqn:Eo; [|discriminate H]; destruct B eqn:Em; [|discriminate H] end. injection H as <-. split; [now exists []|].
          eapply safe_bind; [exact (proj2 (eval_ok a) g e TEnum He Ea)|]. intros v Hv.
          assert (S : safe (byte_ok c) (match c with None => Ok None | Some c => do w <- eval text e c; Ok (Some w) end)).
          { destruct c as [c|]; [|exact I]. eapply safe_bind; [exact (proj2 (eval_ok c) g e TByte He Ec)|]. intros w Hw. exact Hw. }
          eapply safe_bind; [exact S|]. intros w Hw. clear S.
          assert (C : other = None -> exists p l o u, In (p, None, l) arms /\ p_range p = None /\ v = VCon o u /\ label_eqb (p_label p) o = true).
          { intros ->. exact (matched_in arms v Hv Eo). }
          assert (IHo : forall l, other = Some l -> safe (ends g) (leave e (block l e))).
          { intros l ->. apply (leave_ok g e []); [exact He|]. exact (block_ok l (IH l (or_introl eq_refl)) g e He Eo). }
          assert (IHa : forall l, In l (map snd arms) -> Forall steps l) by (intros l Hl; apply IH; apply in_app_iff; now right).
          clear IH Eo Ea. revert Em C IHa. induction arms as [|[[p h] l] arms IHarms]; intros Em C IHa.
          + destruct other as [l|]; [exact (IHo l eq_refl)|]. destruct (C eq_refl) as (p & l & o & u & Hin & _). destruct Hin.
          + apply andb_true_iff in Em as [E1 E2]. destruct (pat_ctx enum (match c with None => false | Some _ => true end) p) as [b|] eqn:Ep; [|discriminate E1]. apply andb_true_iff in E1 as [Eh El].
            assert (F := fit_ok c w v p b Hv Hw Ep).
            assert (N : (forall p0 l0 o u, p0 = p -> None = h -> l0 = l -> p_range p0 = None -> v = VCon o u -> label_eqb (p_label p0) o = true -> False) ->
              safe (ends g) ((fix try (arms : list (pat * option rexp * list stmt)) : res (env + val) :=
               match arms with
               | [] => match other with Some l => leave e (block l e) | None => NoCompile end
               | (p, g, l) :: r =>
                   do o <- fit v w p;
                   match o with
                   | None => try r
                   | Some b => do ok <- match g with None => Ok true | Some g => do x <- eval text (b ++ e) g; as_bool x end;
                               if ok then leave e (block l (b ++ e)) else try r
                   end
               end) arms)).
            { intros Hno. apply IHarms; [exact E2| |intros l0 Hl0; apply IHa; now right]. intros Eo. destruct (C Eo) as (p0 & l0 & o & u & Hin & Hr & Hvc & Hlab). destruct Hin as [Hin|Hin]; [|now exists p0, l0, o, u]. injection Hin as -> -> ->. exfalso. eapply Hno; eauto. }
            destruct (fit v w p) as [ob| | |] eqn:Ef; try (now destruct F); try exact I. cbn [bind]. destruct ob as [b0|].
            * cbn [safe] in F. assert (He' : env_ok (b ++ g) (b0 ++ e)) by now apply env_app.
              destruct h as [h|].
              { eapply safe_bind; [eapply safe_bind; [exact (proj2 (eval_ok h) _ _ TBool He' Eh)|]; intros y Hy; apply as_bool_ok; exact Hy|]. intros ok _. destruct ok.
                - apply (leave_ok g e b); [exact He|]. exact (block_ok l (IHa l (or_introl eq_refl)) _ _ He' El).
                - apply N. intros p0 l0 o u _ E3. discriminate E3. }
              cbn [bind]. apply (leave_ok g e b); [exact He|]. exact (block_ok l (IHa l (or_introl eq_refl)) _ _ He' El).
            * apply N. intros p0 l0 o u -> _ _ Hr -> Hlab. cbn [fit] in Ef. apply label_eqb_eq in Hlab. subst o. assert (R : label_eqb (p_label p) (p_label p) = true) by (destruct (p_label p); [reflexivity|apply Nat.eqb_refl]). rewrite R in Ef. rewrite Hr in Ef. destruct (p_bind p), u; discriminate Ef.
        - destruct (look x g) as [[]|] eqn:Ex; try discriminate H. destruct (has enum g a a0) eqn:Ea; [|discriminate H]. injection H as <-. split; [now exists []|]. eapply safe_bind; [exact (proj2 (eval_ok a) g e _ He Ea)|]. intros v Hv. eapply safe_bind; [exact (getv_ok g e x _ He Ex)|]. intros w Hw.
          inversion Hw; subst. cbn [as_list bind safe ends]. apply (assign_ok g e x (TVec a0)); try assumption. constructor. apply Forall_app. split; [assumption|]. constructor; [exact Hv|constructor].
        - destruct (look x g) as [[]|] eqn:Ex; try discriminate H. injection H as <-. split; [now exists []|]. eapply safe_bind; [exact (getv_ok g e x _ He Ex)|]. intros w Hw. inversion Hw; subst. cbn [as_list bind safe ends]. apply (assign_ok g e x (TVec a)); try assumption. constructor. constructor.
        - destruct (look x g) as [t|] eqn:Ex; try discriminate H. destruct t as [| | | | | |t1 t2|t n|t1|t1]; try discriminate H. destruct t; try discriminate H. injection H as <-. split; [now exists []|]. eapply safe_bind; [exact (getv_ok g e x _ He Ex)|]. intros w Hw. inversion Hw; subst. cbn [as_list bind safe ends]. apply (assign_ok g e x (TArr TBool n)); try assumption. constructor.
          apply Forall_forall. intros v Hv. apply in_map_iff in Hv as (? & <- & _). constructor.
        - destruct (look x g) as [t|] eqn:Ex; try discriminate H. destruct (look y g) as [u|] eqn:Ey; try discriminate H. destruct (ty_eqb t u) eqn:Et; [|discriminate H]. apply ty_eqb_eq in Et. subst u. injection H as <-. split; [now exists []|].
          eapply safe_bind; [exact (getv_ok g e x _ He Ex)|]. intros v Hv. eapply safe_bind; [exact (getv_ok g e y _ He Ey)|]. intros w Hw. cbn [safe ends]. eapply assign_ok; try eassumption. eapply assign_ok; eassumption.
        - destruct (nth_error procs f) as [[ts us]|] eqn:Ef; [|discriminate H]. match type of H with (if ?A && ?B then _ else _) = _ => destruct A eqn:Er; [|discriminate H]; destruct B eqn:Ev; [|discriminate H] end. injection H as <-. split; [now exists []|].
          eapply safe_bind; [exact (refs_ok g e refs ts He Er)|]. intros rs Hrs. eapply safe_bind; [exact (evals_ok g e vals us He Ev)|]. intros vs Hvs. eapply safe_bind; [exact (call_ok f ts us rs vs Ef Hrs Hvs)|]. intros rs' Hrs'.
          rewrite (proj2 (Nat.eqb_eq _ _)); [|rewrite (all2_len _ _ _ Er); clear - Hrs'; induction Hrs'; cbn [length]; congruence]. exact (assigns_ok g refs ts rs' e He Er Hrs').
      Qed.
      Lemma blocks_ok l g e : env_ok g e -> goods l g = true -> safe (ends_in g) (block l e).
      Proof using call_ok. apply block_ok. apply Forall_forall. intros s _. apply exec_ok. Qed.
    End Stmt.
  End Eval.
End Types.

(** *** Statements that return *)
Definition leaves {A B} (r : res (A + B)) : Prop := match r with Ok (inl _) => False | _ => True end.
Lemma leaves_bind {A B C} (r : res A) (k : A -> res (B + C)) : (forall x, leaves (k x)) -> leaves (bind r k).
Proof. destruct r; cbn; auto. Qed.
Lemma leave_leaves e r : leaves r -> leaves (leave e r).
Proof. destruct r as [[]| | |]; cbn; auto. Qed.
Lemma returns_block text call l : Forall (fun s => returns s = true -> forall e, leaves (exec text call s e)) l -> existsb returns l = true -> forall e, leaves (Rust.block text call l e).
Proof.
  induction 1 as [|s l Hs H IH]; intros E e; [discriminate E|]. cbn [existsb] in E. cbn [Rust.block]. apply orb_true_iff in E as [E|E].
  - specialize (Hs E e). destruct (exec text call s e) as [[]| | |]; [destruct Hs|exact I..].
  - apply leaves_bind. intros [e'|v]; [now apply IH|exact I].
Qed.
Lemma returns_leaves text call s : returns s = true -> forall e, leaves (exec text call s e).
Proof.
  induction s as [s IH] using stmt_all. destruct s as [x t a|x t a|x p a|a|a|a l m|it l|a c arms other|x a|x|x|x y|f refs vals]; cbn [returns]; intros H e; try discriminate H.
  - cbn [exec]. apply leaves_bind. intros v. exact I.
  - cbn [exec]. apply leaves_bind. intros v. apply leaves_bind. intros w. apply andb_true_iff in H as [Ha Ho]. cbn [subs] in IH.
    assert (IHo : forall l, other = Some l -> leaves (leave e (Rust.block text call l e))).
    { intros l ->. apply leave_leaves, returns_block; [apply IH; now left|exact Ho]. }
    assert (IHa : forall l, In l (map snd arms) -> Forall (fun s => returns s = true -> forall e, leaves (exec text call s e)) l) by (intros l Hl; apply IH; apply in_app_iff; now right).
    clear IH Ho. revert Ha IHa. induction arms as [|[[p h] l] arms IHarms]; intros Ha IHa.
    + destruct other as [l|]; [exact (IHo l eq_refl)|exact I].
    + apply andb_true_iff in Ha as [Hl Ha]. apply leaves_bind. intros [b|].
      * apply leaves_bind. intros [|].
        -- apply leave_leaves. apply (returns_block text call l); [apply IHa; now left|exact Hl].
        -- apply IHarms; [exact Ha|intros l0 Hl0; apply IHa; now right].
      * apply IHarms; [exact Ha|intros l0 Hl0; apply IHa; now right].
Qed.
Lemma body_leaves text call l e : existsb returns l = true -> leaves (Rust.block text call l e).
Proof. intros H. apply returns_block; [|exact H]. apply Forall_forall. intros s _. apply returns_leaves. Qed.

(** *** Functions *)
Lemma params_ok enum ps : forall vs g e, env_ok enum g e -> Forall2 (vty enum) vs (map snd ps) -> safe (env_ok enum (rev ps ++ g)) (bind_params ps vs e).
Proof.
  intros vs g e He H. unfold bind_params. assert (L : length ps = length vs) by (rewrite <- (map_length snd ps); symmetry; clear - H; induction H; cbn [length]; congruence).
  rewrite (proj2 (Nat.eqb_eq _ _) L). cbn [safe]. apply env_app; [|exact He]. clear L He. revert vs H. induction ps as [|[x t] ps IH]; intros vs H; cbn [map snd] in H; inversion H as [|v t' vs' ts' Hv Hr]; subst; [constructor|].
  cbn [map fst combine rev]. apply env_app; [now apply IH|]. constructor; [auto|constructor].
Qed.
Lemma distinct_notin l x : existsb (var_eqb x) l = false -> ~ In x l.
Proof. intros H Hin. assert (E : existsb (var_eqb x) l = true) by (apply existsb_exists; exists x; split; [exact Hin|apply var_eqb_refl]). congruence. Qed.
Lemma look_distinct x t (l : ctx) : NoDup (map fst l) -> In (x, t) l -> look x l = Some t.
Proof.
  induction l as [|[y u] l IH]; intros Hd Hin; [destruct Hin|]. cbn [map fst] in Hd. inversion Hd; subst. cbn [look]. destruct Hin as [Hin|Hin].
  - injection Hin as -> ->. now rewrite var_eqb_refl.
  - destruct (var_eqb x y) eqn:E; [|auto]. apply var_eqb_eq in E. subst y. exfalso. apply H1. now apply (in_map fst) in Hin.
Qed.
Lemma distinct_nodup l : distinct_vars l = true -> NoDup l.
Proof. induction l as [|x l IH]; intros H; constructor; cbn [distinct_vars] in H; apply andb_true_iff in H as [H1 H2]; [|auto]. apply distinct_notin. now apply negb_true_iff. Qed.
Lemma proc_ok text enum ps : forallb (fun p => distinct_vars (map fst (pr_refs p ++ pr_vals p)) && Rust.goods enum None [] (pr_body p) (rev (pr_vals p) ++ rev (pr_refs p))) ps = true ->
  forall f ts us rs vs, nth_error (map (fun p => (map snd (pr_refs p), map snd (pr_vals p))) ps) f = Some (ts, us) -> Forall2 (vty enum) rs ts -> Forall2 (vty enum) vs us ->
    safe (fun rs' => Forall2 (vty enum) rs' ts) (call_proc text ps f rs vs).
Proof.
  intros H f ts us rs vs Ef Hrs Hvs. unfold call_proc. rewrite nth_error_map in Ef. destruct (nth_error ps f) as [p|] eqn:Ep; [|discriminate Ef]. cbn [option_map] in Ef. injection Ef as <- <-.
  rewrite forallb_forall in H. specialize (H p (nth_error_In _ _ Ep)). apply andb_true_iff in H as [Hd Hg]. apply distinct_nodup in Hd.
  eapply safe_bind; [apply (params_ok enum (pr_refs p) rs []); [constructor|exact Hrs]|]. intros e He. rewrite app_nil_r in He. eapply safe_bind; [exact (params_ok enum (pr_vals p) vs _ e He Hvs)|]. intros e' He'.
  eapply safe_bind; [apply (leave_ok enum None (rev (pr_vals p) ++ rev (pr_refs p)) e' []); [exact He'|]|].
  - apply (blocks_ok enum text None [] no_call); [|exact He'|exact Hg]. intros f0 ts us rs0 vs0 E0. destruct f0; discriminate E0.
  - intros [e2|v] Ho; [|destruct Ho as (t & Et & _); discriminate Et]. cbn [ends] in Ho.
    assert (G : forall x t, In (x, t) (pr_refs p) -> look x (rev (pr_vals p) ++ rev (pr_refs p)) = Some t).
    { intros x t Hin. apply look_distinct.
      - rewrite <- rev_app_distr, map_rev. apply NoDup_rev. exact Hd.
      - apply in_app_iff. right. now apply -> in_rev. }
    clear - Ho G. revert Ho G. generalize (rev (pr_vals p) ++ rev (pr_refs p)). intros g Ho G. induction (pr_refs p) as [|[x t] l IH]; cbn [mapM map snd fst]; [constructor|].
    eapply safe_bind; [apply (getv_ok enum g e2 x t Ho); apply G; now left|]. intros v Hv. eapply safe_bind; [apply IH; intros y u Hin; apply G; now right|]. intros ws Hws. now constructor.
Qed.
(** An accepted function, given arguments of the types of its parameters, ends with a value of its result type or panics *)
Lemma func_sound f text vs : accepts f = true -> Forall2 (vty (f_enum f)) vs (map snd (f_args f)) -> safe (fun v => vty (f_enum f) v (f_result f)) (run_func f text vs).
Proof.
  unfold accepts. intros H Hvs. apply andb_true_iff in H as [H Hr]. apply andb_true_iff in H as [H Hg]. apply andb_true_iff in H as [_ Hp]. unfold run_func.
  eapply safe_bind; [apply (params_ok (f_enum f) (f_args f) vs []); [constructor|exact Hvs]|]. intros e He. rewrite app_nil_r in He.
  assert (S := blocks_ok (f_enum f) text (Some (f_result f)) _ (call_proc text (f_procs f)) (proc_ok text (f_enum f) (f_procs f) Hp) (f_body f) _ e He Hg).
  assert (L := body_leaves text (call_proc text (f_procs f)) (f_body f) e Hr).
  destruct (Rust.block text (call_proc text (f_procs f)) (f_body f) e) as [[e'|v]| | |]; try exact I; try (now destruct L); try (now destruct S). cbn [safe ends_in] in S. destruct S as (t & E & Hv). injection E as <-. exact Hv.
Qed.

(** *** Functions that call one another *)
Definition fsubs (s : fstmt) : list (list fstmt) :=
  match s with
  | FIf _ l m => [l; m]
  | FSplit _ l => [l]
  | FNext none arms other => none :: other :: map snd arms
  | _ => []
  end.
Fixpoint fstmt_all (P : fstmt -> Prop) (HP : forall s, (forall l, In l (fsubs s) -> Forall P l) -> P s) (s : fstmt) {struct s} : P s.
Proof.
  apply HP. destruct s as [s|a l m|n l|none arms other|f args|]; cbn [fsubs]; try (solve [intros ? []]).
  - intros k [<-|[<-|[]]]; [induction l as [|x l IH]|induction m as [|x m IH]]; constructor; try assumption; apply fstmt_all; exact HP.
  - intros k [<-|[]]. induction l as [|x l IH]; constructor; try assumption; apply fstmt_all; exact HP.
  - intros k [<-|[<-|Hk]].
    + induction none as [|x l IH]; constructor; try assumption; apply fstmt_all; exact HP.
    + induction other as [|x l IH]; constructor; try assumption; apply fstmt_all; exact HP.
    + induction arms as [|[[p h] l] arms IH]; [now destruct Hk|]. destruct Hk as [<-|Hk]; [|now apply IH]. cbn [snd]. clear IH. induction l as [|x l IH]; constructor; try assumption; apply fstmt_all; exact HP.
Defined.
Lemma fleave_leaves e r : leaves r -> leaves (fleave e r).
Proof. destruct r as [[]| | |]; cbn; auto. Qed.
Lemma freturns_block text l : Forall (fun s => freturns s = true -> forall e, leaves (fexec text s e)) l -> existsb freturns l = true -> forall e, leaves (RustFn.fblock text l e).
Proof.
  induction 1 as [|s l Hs H IH]; intros E e; [discriminate E|]. cbn [existsb] in E. cbn [RustFn.fblock]. apply orb_true_iff in E as [E|E].
  - specialize (Hs E e). destruct (fexec text s e) as [[]| | |]; [destruct Hs|exact I..].
  - apply leaves_bind. intros [e'|v]; [now apply IH|exact I].
Qed.
Lemma freturns_leaves text s : freturns s = true -> forall e, leaves (fexec text s e).
Proof.
  induction s as [s IH] using fstmt_all. destruct s as [s|a l m|n l|none arms other|f args|]; cbn [freturns]; intros H e; try discriminate H.
  - cbn [fexec]. assert (L := returns_leaves text no_call s H e). destruct (exec text no_call s e) as [[]| | |]; [destruct L|exact I..].
  - cbn [fexec]. apply andb_true_iff in H as [Hl Hm]. apply leaves_bind. intros v. apply leaves_bind. intros b. apply fleave_leaves. destruct b; [apply (freturns_block text l)|apply (freturns_block text m)]; try assumption; apply IH; cbn [fsubs In]; auto.
  - cbn [fexec]. apply andb_true_iff in H as [H Ha]. apply andb_true_iff in H as [Hn Ho]. apply leaves_bind. intros v. apply leaves_bind. intros bs. destruct bs as [|[] bs]; try exact I.
    + apply fleave_leaves, (freturns_block text none); [apply IH; now left|exact Hn].
    + assert (IHo : forall e, leaves (RustFn.fblock text other e)) by (intros e'; apply freturns_block; [apply IH; right; now left|exact Ho]).
      assert (IHa : forall l, In l (map snd arms) -> Forall (fun s => freturns s = true -> forall e, leaves (fexec text s e)) l) by (intros l Hl; apply IH; right; now right).
      cbv zeta. generalize (assign Xbytes (VArr bs) e). intros e'. clear IH Ho Hn. revert Ha IHa. induction arms as [|[[p h] l] arms IHarms]; intros Ha IHa; [apply fleave_leaves, IHo|].
      apply andb_true_iff in Ha as [Hl Ha]. assert (N : forall k, In k (map snd arms) -> Forall (fun s => freturns s = true -> forall e, leaves (fexec text s e)) k) by (intros k Hk; apply IHa; now right).
      destruct (in_range c p); [|now apply IHarms]. apply leaves_bind. intros [|]; [|now apply IHarms]. apply fleave_leaves, (freturns_block text l); [apply IHa; now left|exact Hl].
  - cbn [fexec]. apply leaves_bind. intros vs. exact I.
  - exact I.
Qed.
Section Fn.
  Variable text : list N.
  Variable fs : list sfun.
  Variable result : ty.
  Notation vt := (vty []).
  Notation envs := (env_ok []).
  Notation fgood := (RustFn.fgood fs result).
  Notation fgoods := (RustFn.fgoods fs result).
  Notation fexec := (RustFn.fexec text).
  Notation fblock := (RustFn.fblock text).
  Definition goes (o : outcome) : Prop :=
    match o with
    | Ret v => vt v result
    | Go f vs => exists sf, find (fun sf => sf_id sf =? f) fs = Some sf /\ Forall2 vt vs (map snd (sf_args sf))
    end.
  Definition fends (g : ctx) (o : env + outcome) : Prop := match o with inl e => envs g e | inr o => goes o end.
  Definition fends_in (g : ctx) (o : env + outcome) : Prop := match o with inl e => exists b, envs (b ++ g) e | inr o => goes o end.
  Definition fsteps (s : fstmt) : Prop := forall g e g', envs g e -> fgood s g = Some g' -> (exists b, g' = b ++ g) /\ safe (fends g') (fexec s e).
  Lemma fblock_ok l : Forall fsteps l -> forall g e, envs g e -> fgoods l g = true -> safe (fends_in g) (fblock l e).
  Proof using Type.
    induction 1 as [|s l Hs H IH]; intros g e He Hg; cbn [RustFn.fblock].
    - exists []. exact He.
    - cbn [RustFn.fgoods] in Hg. destruct (fgood s g) as [g'|] eqn:Es; [|discriminate Hg]. destruct (Hs g e g' He Es) as [(b & ->) S]. eapply safe_bind; [exact S|]. intros [e'|v] Ho; [|exact Ho].
      eapply safe_imp; [exact (IH _ e' Ho Hg)|]. intros [e2|v] Hx; [|exact Hx]. destruct Hx as (b' & Hx). exists (b' ++ b). now rewrite <- app_assoc.
  Qed.
  Lemma fleave_ok g e r : envs g e -> safe (fends_in g) r -> safe (fends g) (fleave e r).
  Proof using Type.
    intros He H. unfold fleave. eapply safe_bind; [exact H|]. intros [e'|v] Ho; [|exact Ho]. destruct Ho as (b' & Ho). cbn [safe fends]. assert (L := env_len _ _ _ Ho). assert (L2 := env_len _ _ _ He).
    replace (length e' - length e) with (length b'); [now apply env_skip|]. rewrite app_length in L. lia.
  Qed.
  Lemma is_bytes_look g : is_bytes g = true -> look Xbytes g = Some (TVec TByte).
  Proof using Type. unfold is_bytes. destruct (look Xbytes g) as [[]|]; try discriminate; destruct a; try discriminate; reflexivity. Qed.
  Lemma no_call_ok : forall f ts us rs vs, nth_error (@nil (list ty * list ty)) f = Some (ts, us) -> Forall2 vt rs ts -> Forall2 vt vs us -> safe (fun rs' => Forall2 vt rs' ts) (no_call f rs vs).
  Proof using Type. intros [] ts us rs vs E; discriminate E. Qed.
  Lemma fexec_ok s : fsteps s.
  Proof using Type.
    induction s as [s IH] using fstmt_all. intros g e g' He H.
    destruct s as [s|a l m|n l|none arms other|f args|]; cbn [RustFn.fgood] in H; cbn [RustFn.fexec fsubs] in *.
    - destruct (exec_ok [] text (Some result) [] no_call no_call_ok s g e g' He H) as [Hb S]. split; [exact Hb|]. eapply safe_bind; [exact S|]. intros [e'|v] Ho; [exact Ho|]. cbn [ends] in Ho. destruct Ho as (t & E & Hv). injection E as <-. exact Hv.
    - destruct (has [] g a TBool) eqn:Ea; [|discriminate H]. cbn [andb] in H. match type of H with (if ?A && ?B then _ else _) = _ => destruct A eqn:El; [|discriminate H]; destruct B eqn:Em; [|discriminate H] end. injection H as <-. split; [now exists []|].
      eapply safe_bind; [exact (proj2 (eval_ok [] text a) g e TBool He Ea)|]. intros v Hv. inversion Hv; subst. cbn [as_bool bind]. apply (fleave_ok g e); [exact He|]. destruct b.
      + exact (fblock_ok l (IH l (or_introl eq_refl)) g e He El).
      + exact (fblock_ok m (IH m (or_intror (or_introl eq_refl))) g e He Em).
    - destruct (is_bytes g) eqn:Eb; [|discriminate H]. cbn [andb] in H. match type of H with (if ?A && ?B then _ else _) = _ => destruct A eqn:El; [|discriminate H]; destruct B eqn:Em; [|discriminate H] end. injection H as <-. split; [now exists [(Xrest, TVec TByte); (Xrun_part, TVec TByte)]|].
      eapply safe_bind; [exact (getv_ok [] g e Xbytes _ He (is_bytes_look g Eb))|]. intros v Hv. eapply safe_bind; [apply (as_list_ok [] v TByte); now left|]. intros bs Hbs. destruct (n <=? length bs).
      + cbn [safe fends]. assert (Hf : Forall (fun v => vt v TByte) (firstn n bs ++ skipn n bs)) by now rewrite firstn_skipn. apply Forall_app in Hf as [Hf1 Hf2]. repeat (constructor; [cbn [fst snd]; split; [reflexivity|now constructor]|]). exact He.
      + assert (S := fblock_ok l (IH l (or_introl eq_refl)) g e He El). assert (L : leaves (fblock l e)) by (apply freturns_block; [apply Forall_forall; intros s _; apply freturns_leaves|exact Em]).
        match goal with |- safe _ (bind ?X _) => change X with (fblock l e) end. destruct (fblock l e) as [[e'|v']| | |]; try exact I; try (now destruct L); try (now destruct S).
    - destruct (is_bytes g) eqn:Eb; [|discriminate H]. cbn [andb] in H. match type of H with (if ?A && ?B && ?C then _ else _) = _ => destruct A eqn:En; [|discriminate H]; destruct B eqn:Eo; [|discriminate H]; destruct C eqn:Em; [|discriminate H] end. injection H as <-. split; [now exists []|].
      eapply safe_bind; [exact (getv_ok [] g e Xbytes _ He (is_bytes_look g Eb))|]. intros v Hv. eapply safe_bind; [apply (as_list_ok [] v TByte); now left|]. intros bs Hbs. destruct bs as [|b bs].
      + apply (fleave_ok g e _ He). exact (fblock_ok none (IH none (or_introl eq_refl)) g e He En).
      + inversion Hbs as [|b' bs' Hb Hr]; subst. inversion Hb; subst. cbv zeta.
        assert (He' : envs g (assign Xbytes (VArr bs) e)) by (apply (assign_ok [] g e Xbytes (TVec TByte)); [exact He|exact (is_bytes_look g Eb)|now constructor]).
        revert He'. generalize (assign Xbytes (VArr bs) e). intros e' He'. assert (IHa : forall l, In l (map snd arms) -> Forall fsteps l) by (intros l Hl; apply IH; right; now right).
        assert (So : safe (fends g) (fleave e' (fblock other e'))) by (apply (fleave_ok g e' _ He'); exact (fblock_ok other (IH other (or_intror (or_introl eq_refl))) g e' He' Eo)).
        clear IH. revert Em IHa. induction arms as [|[[r h] l] arms IHarms]; intros Em IHa; [exact So|].
        apply andb_true_iff in Em as [Em E2]. apply andb_true_iff in Em as [Em El]. apply andb_true_iff in Em as [_ Eh]. assert (N : forall k, In k (map snd arms) -> Forall fsteps k) by (intros k Hk; apply IHa; now right).
        destruct (in_range c r); [|now apply IHarms].
        apply (safe_bind (fun _ => True)); [destruct h as [h|]; [|exact I]; eapply safe_bind; [exact (proj2 (eval_ok [] text h) g e' TBool He' Eh)|]; intros y Hy; apply (as_bool_ok []); exact Hy|].
        intros [|] _; [|now apply IHarms]. apply (fleave_ok g e' _ He'). exact (fblock_ok l (IHa l (or_introl eq_refl)) g e' He' El).
    - destruct (find (fun sf => sf_id sf =? f) fs) as [sf|] eqn:Ef; [|discriminate H]. destruct (all2 (has [] g) args (map snd (sf_args sf))) eqn:Ea; [|discriminate H]. injection H as <-. split; [now exists []|].
      eapply safe_bind; [exact (evals_ok [] text g e args _ He Ea)|]. intros vs Hvs. cbn [safe fends goes]. eauto.
    - discriminate H.
  Qed.
  Lemma fbody_ok l g e : envs g e -> fgoods l g = true -> existsb freturns l = true -> safe (fun o => match o with inl _ => False | inr o => goes o end) (fblock l e).
  Proof using Type.
    intros He Hg Hr. assert (S := fblock_ok l (proj2 (Forall_forall _ _) (fun s _ => fexec_ok s)) g e He Hg).
    assert (L : leaves (fblock l e)) by (apply freturns_block; [apply Forall_forall; intros s _; apply freturns_leaves|exact Hr]). destruct (fblock l e) as [[]| | |]; auto.
  Qed.
  Hypothesis Hfs : forallb (fun sf => fgoods (sf_body sf) (rev (sf_args sf)) && existsb freturns (sf_body sf)) fs = true.
  Lemma go_ok k : forall f vs, goes (Go f vs) -> go text k fs f vs = Fuel \/ safe (fun v => vt v result) (go text k fs f vs).
  Proof using Hfs.
    induction k as [|k IH]; intros f vs H; cbn [go]; [now left|]. cbn [goes] in H. destruct H as (sf & Ef & Hvs). rewrite Ef. rewrite forallb_forall in Hfs. assert (G := Hfs sf (proj1 (find_some _ _ Ef))). apply andb_true_iff in G as [Hg Hr].
    assert (S := params_ok [] (sf_args sf) vs [] [] ltac:(constructor) Hvs). destruct (bind_params (sf_args sf) vs []) as [e| | |]; try (now destruct S); [|now right]. cbn [safe] in S. rewrite app_nil_r in S. cbn [bind].
    assert (B := fbody_ok _ _ e S Hg Hr). destruct (fblock (sf_body sf) e) as [[e'|[v|f' ws]]| | |]; try (now destruct B); try (right; exact B); try (right; exact I). cbn [bind]. apply IH. exact B.
  Qed.
End Fn.
Lemma prog_sound p text : accepts_prog p = true -> run_prog text p = Fuel \/ safe (fun v => vty [] v (g_result p)) (run_prog text p).
Proof.
  unfold accepts_prog. intros H. apply andb_true_iff in H as [H Hr]. apply andb_true_iff in H as [H Hg]. apply andb_true_iff in H as [_ Hp]. unfold run_prog.
  assert (B := fbody_ok text (g_states p) (g_result p) (g_body p) [] [] ltac:(constructor) Hg Hr). destruct (fblock text (g_body p) []) as [[e'|[v|f ws]]| | |]; try (now destruct B); try (now right). cbn [bind]. exact (go_ok text (g_states p) (g_result p) Hp _ f ws B).
Qed.

(** Types that do not mention the enum have the same values whatever the enum is *)
Fixpoint no_enum (t : ty) : bool :=
  match t with TEnum => false | TPair a b => no_enum a && no_enum b | TArr a _ | TVec a | TOpt a => no_enum a | _ => true end.
Lemma vty_any enum enum' t : no_enum t = true -> forall v, vty enum v t -> vty enum' v t.
Proof.
  induction t as [| | | | | |a IHa b IHb|a IHa n|a IHa|a IHa]; cbn [no_enum]; intros H v Hv; try discriminate H; inversion Hv; subst; try (now constructor).
  - apply andb_true_iff in H as [H1 H2]. constructor; auto.
  - constructor. eapply Forall_impl; [|eassumption]. auto.
  - constructor. eapply Forall_impl; [|eassumption]. auto.
  - constructor. auto.
Qed.
