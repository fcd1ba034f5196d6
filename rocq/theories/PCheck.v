(** The compiler's checks on generated code: how they compose. *)
From Verif Require Export PRust.
From Coq Require Import ZifyBool ZifyNat ZifyN.
Open Scope nat_scope.
Open Scope list_scope.
Set Default Proof Using "Type".

Lemma ty_refl t : ty_eqb t t = true.
Proof. induction t; cbn; rewrite ?IHt, ?IHt1, ?IHt2, ?Nat.eqb_refl; reflexivity. Qed.
Lemma distinct_iff l : distinct_labels l = true <-> NoDup l.
Proof.
  induction l as [|a l IH]; cbn; [split; constructor|]. rewrite andb_true_iff, IH, negb_true_iff. split.
  - intros [H1 H2]. constructor; [|assumption]. intros Hi. assert (existsb (label_eqb a) l = true) by (apply existsb_exists; exists a; split; [assumption|apply label_refl]). congruence.
  - intros H. inversion H as [|? ? Hn Hl]; subst. split; [|assumption]. destruct (existsb (label_eqb a) l) eqn:E; [|reflexivity].
    apply existsb_exists in E as (x & Hx & Ex). apply label_eqb_iff in Ex. subst x. contradiction.
Qed.
Lemma variant_In enum l o : NoDup (map fst enum) -> In (l, o) enum -> variant enum l = Some o.
Proof.
  unfold variant. induction enum as [|[m p] enum IH]; cbn; [contradiction|]. intros HN HI. inversion HN as [|? ? Hm HN']; subst.
  destruct HI as [E|HI]; [injection E as -> ->; now rewrite label_refl|].
  destruct (label_eqb m l) eqn:E; [apply label_eqb_iff in E; subst m; exfalso; apply Hm; apply in_map_iff; now exists (l, o)|]. now apply IH.
Qed.

Section Check.
  Variable enum : list (label * option ty).
  Variable result : option ty.
  Variable procs : list (list ty * list ty).
  Notation good := (good enum result procs).
  Notation goods := (goods enum result procs).
  Definition arm_ok (g : ctx) (paired : bool) (a : arm) : bool :=
    let '(p, h, l) := a in
    match pat_ctx enum paired p with
    | Some b => match h with None => true | Some h => Rust.has enum (b ++ g) h TBool end && goods l (b ++ g)
    | None => false
    end.
  Definition paired {X} (c : option X) : bool := match c with None => false | Some _ => true end.
  Lemma good_match a c arms other g : good (SMatch a c arms other) g =
    if Rust.has enum g a TEnum
       && match c with None => true | Some c => Rust.has enum g c TByte end
       && match other with Some l => goods l g | None => covered enum arms end
       && forallb (arm_ok g (paired c)) arms
    then Some g else None.
  Proof.
    cbn [Rust.good]. set (E := fix each (arms : list (pat * option rexp * list stmt)) : bool := _).
    assert (G : forall arms, E arms = forallb (arm_ok g (paired c)) arms); [|rewrite (G arms); reflexivity].
    induction arms0 as [|[[p h] l] r IH]; [reflexivity|]. cbn [forallb arm_ok]. rewrite <- IH. reflexivity.
  Qed.
  Lemma good_if a l m g : good (SIf a l m) g = if Rust.has enum g a TBool && goods l g && goods m g then Some g else None.
  Proof. reflexivity. Qed.
  Lemma good_for it l g : good (SFor it l) g = match iter_ctx enum g it with Some b => if goods l (b ++ g) then Some g else None | None => None end.
  Proof. reflexivity. Qed.
  Lemma goods_cons s r g : goods (s :: r) g = match good s g with Some g' => goods r g' | None => false end.
  Proof. reflexivity. Qed.
  Lemma goods_ret a g t : result = Some t -> Rust.has enum g a t = true -> goods [SRet a] g = true.
  Proof. intros Hr Ha. rewrite goods_cons. cbn [Rust.good]. rewrite Hr, Ha. reflexivity. Qed.
  Lemma good_let x t a g : Rust.has enum g a t = true -> good (SLet x t a) g = Some ((x, t) :: g).
  Proof. intros Ha. cbn [Rust.good]. now rewrite Ha. Qed.
  (** Statements that declare nothing *)
  Lemma goods_app l m g : Forall (fun s => good s g = Some g) l -> goods (l ++ m) g = goods m g.
  Proof. induction 1 as [|s l Hs Hl IH]; [reflexivity|]. cbn [app]. rewrite goods_cons, Hs. exact IH. Qed.
  Lemma goods_all l g : Forall (fun s => good s g = Some g) l -> goods l g = true.
  Proof. intros H. rewrite <- (app_nil_r l), goods_app by assumption. reflexivity. Qed.
  Lemma place_app g p q : forall t, place enum g t (p ++ q) = match place enum g t p with Some u => place enum g u q | None => None end.
  Proof.
    induction p as [|[k|s] p IH]; intros t; [reflexivity| |]; cbn [app place].
    - destruct t; try reflexivity; destruct (infer enum g k) as [[]|]; try reflexivity; try apply IH. destruct k; try apply IH. destruct (_ <? _); [apply IH|reflexivity].
    - destruct t; try reflexivity; apply IH.
  Qed.
  Lemma good_set_tag x p a t g u k : look x g = Some u -> place enum g u p = Some (t_bounds k) -> tag_group t < k -> infer enum g a = Some TNum ->
    (exists y, a = EVar y) \/ a = ELen -> good (set_tag x p a t) g = Some g.
  Proof.
    intros Hl Hp Ht Ha Hs. assert (Hh : Rust.has enum g a TNum = true) by (destruct Hs as [[y ->]| ->]; cbn [Rust.has]; rewrite Ha; reflexivity).
    apply Nat.ltb_lt in Ht.
    destruct t as [i|i]; cbn [set_tag Rust.good tag_group] in *; rewrite Hl, place_app, Hp; cbn [place t_bounds infer t_pair]; rewrite Ht; rewrite Hh; reflexivity.
  Qed.
  Lemma goods_tags x p a ts g u k : look x g = Some u -> place enum g u p = Some (t_bounds k) -> Forall (fun t => tag_group t < k) ts -> infer enum g a = Some TNum ->
    (exists y, a = EVar y) \/ a = ELen -> Forall (fun s => good s g = Some g) (map (set_tag x p a) ts).
  Proof.
    intros Hl Hp Ht Ha Hs. apply Forall_forall. intros s Hin. apply in_map_iff in Hin as (t & <- & Hin). rewrite Forall_forall in Ht. eapply good_set_tag; eauto.
  Qed.
  Lemma good_finish out k a g : result = Some (t_result k) -> (out = Xcapture_strs \/ out = Xcaptures) ->
    (forall t, infer enum ((out, t) :: g) a = Some (t_bounds k)) ->
    goods (finish_code out k a) g = true.
  Proof.
    intros Hr Ho Ha. unfold finish_code. rewrite goods_cons. cbn [Rust.good Rust.has]. rewrite Nat.eqb_refl. cbn [andb].
    rewrite goods_cons, good_for. cbn [iter_ctx]. rewrite Ha. cbn [t_bounds t_pair].
    rewrite goods_cons, good_if. rewrite !goods_cons. destruct Ho as [->| ->]; cbn; rewrite Hr; cbn; rewrite Nat.eqb_refl; reflexivity.
  Qed.
End Check.
