(** Epsilon propagation lists its results in order of preference. *)
From Verif Require Export PPrioWorking PFlat.
From Verif Require Export PPrio.
From Coq Require Import ZifyBool ZifyNat ZifyN Relation_Operators.
Open Scope nat_scope.
Open Scope list_scope.
Set Default Proof Using "Type".

(** ** The first result in a list *)
Section First.
  Context {X B : Type}.
  Variable V : X -> option B -> Prop.
  Inductive first : list X -> option B -> Prop :=
  | f_nil : first [] None
  | f_cons : forall x l r r', V x r -> first l r' -> first (x :: l) (orelse r r').
  Lemma first_one x r : V x r -> first [x] r.
  Proof. intros H. rewrite <- (orelse_none r). constructor; [assumption|constructor]. Qed.
  Lemma first_app l1 l2 r1 r2 : first l1 r1 -> first l2 r2 -> first (l1 ++ l2) (orelse r1 r2).
  Proof. intros H1 H2. induction H1 as [|x l r r' Hx Hl IH]; [exact H2|]. cbn. rewrite orelse_assoc. now constructor. Qed.
  Lemma first_app_inv l1 : forall l2 r, first (l1 ++ l2) r -> exists r1 r2, first l1 r1 /\ first l2 r2 /\ r = orelse r1 r2.
  Proof.
    induction l1 as [|x l1 IH]; intros l2 r H; cbn in H.
    - exists None, r. repeat split; [constructor|assumption].
    - inversion H as [|? ? r1 r' H1 H2]; subst. apply IH in H2 as (r3 & r4 & H3 & H4 & ->).
      exists (orelse r1 r3), r4. repeat split; [now constructor|assumption|now rewrite orelse_assoc].
  Qed.
  Lemma first_In l r x : first l r -> In x l -> exists rx, V x rx /\ (rx <> None -> r <> None).
  Proof.
    induction 1 as [|y l r r' Hy Hl IH]; intros Hx; [destruct Hx|]. destruct Hx as [->|Hx].
    - exists r. split; [assumption|]. now destruct r.
    - destruct (IH Hx) as (rx & H1 & H2). exists rx. split; [assumption|]. intros H. destruct r; [discriminate|]. auto.
  Qed.
  Lemma first_some l b : first l (Some b) -> exists x, In x l /\ V x (Some b).
  Proof.
    intros H. remember (Some b) as r eqn:E. induction H as [|x l r r' Hx Hl IH]; [discriminate|]. destruct r as [c|]; cbn in E.
    - injection E as ->. exists x. split; [now left|assumption].
    - destruct (IH E) as (y & H1 & H2). exists y. split; [now right|assumption].
  Qed.
  Lemma first_none l : (forall x, In x l -> V x None) -> first l None.
  Proof. induction l as [|x l IH]; intros H; [constructor|]. change None with (orelse (@None B) None). constructor; [apply H; now left|]. apply IH. intros; apply H; now right. Qed.
  Hypothesis Vdet : forall x r r', V x r -> V x r' -> r = r'.
  Lemma first_det l r r' : first l r -> first l r' -> r = r'.
  Proof using Vdet.
    intros H. revert r'. induction H as [|x l r r1 Hx Hl IH]; intros r2 H2; inversion H2; subst; [reflexivity|]. f_equal; eauto.
  Qed.
  (** Elements without result may be dropped. *)
  Lemma first_filter f l r : first l r -> (forall x, In x l -> f x = false -> V x None) -> first (filter f l) r.
  Proof using Vdet.
    induction 1 as [|x l r r' Hx Hl IH]; intros H; [constructor|]. cbn [filter].
    assert (IH' := IH (fun y Hy => H y (or_intror Hy))). destruct (f x) eqn:E.
    - now constructor.
    - assert (r = None) as -> by (eapply Vdet; [exact Hx|]; apply H; [now left|assumption]). exact IH'.
  Qed.
End First.

Section Eps.
  Context {A : Type}.
  Variable check : A -> N -> bool.
  Variable width : N -> nat.
  Variable T : list N.
  Variable n : nfa A.
  Variable K : nat -> option word -> Prop.
  Hypothesis Kdet : kdet K.
  Notation ev_ := (ev check T n K).

  Definition nowalts (s : nat) : list (alt A) := (if s =? length n - 1 then [AAcc] else []) ++ map (fun t => ASym (fst t) (snd t)) (trans (get n s)).
  Lemma alts_now s : alts n s = nowalts s ++ map (fun e => AEps (fst e) (snd e)) (eps (get n s)).
  Proof. unfold alts, edges, nowalts. now rewrite app_assoc. Qed.

  Variable j : nat.
  Notation P := (pos width T j).
  (** Edges that can be passed at [j]; there are no cycles of them where [ev] has a value. *)
  Definition estep (t s : nat) : Prop := exists e, In (t, e) (eps (get n s)) /\ on T j e = true.
  Lemma ev_acc_ : (forall x i r, ev1 check T n K x i r -> i = j -> match x with AEps t e => on T j e = true -> Acc estep t | _ => True end) /\
    (forall l i r, ev_ l i r -> i = j -> forall t e, In (AEps t e) l -> on T j e = true -> Acc estep t).
  Proof.
    apply ev_ind2; try (intros; exact I).
    - intros t e i He -> H. congruence.
    - intros t e i r He Hev IH -> _. constructor. intros t' (e' & H1 & H2). eapply IH; eauto. rewrite alts_now. apply in_or_app. right.
      apply in_map_iff. exists (t', e'). auto.
    - intros i -> t e [].
    - intros x l i r r' H1 IH1 H2 IH2 -> t e [->|Hin] He; [now apply IH1|eauto].
  Qed.
  Lemma ev_acc s r : ev_ (alts n s) j r -> Acc estep s.
  Proof.
    intros H. constructor. intros t (e & H1 & H2). eapply (proj2 ev_acc_); [exact H|reflexivity| |exact H2]. rewrite alts_now. apply in_or_app. right.
    apply in_map_iff. exists (t, e). auto.
  Qed.
  (** [ereach s t]: from [s] to [t]. *)
  Inductive ereach (s : nat) : nat -> Prop :=
  | er_refl : ereach s s
  | er_step : forall t u, ereach s t -> estep u t -> ereach s u.
  Lemma no_cycle s t : Acc estep s -> estep t s -> ereach t s -> False.
  Proof.
    intros HA. revert t. induction HA as [s Hs IH]. intros t Ht Hr.
    assert (G : forall a b, ereach a b -> forall c, estep a c -> a = b \/ exists d, estep d a /\ ereach d b).
    { clear. induction 1 as [|t u H IH H']; intros c Hc; [now left|]. destruct (IH c Hc) as [->|(d & H1 & H2)].
      - right. exists u. split; [assumption|constructor].
      - right. exists d. split; [assumption|]. econstructor; eauto. }
    destruct (G t s Hr s Ht) as [->|(d & H1 & H2)].
    - apply (IH s Ht s Ht). constructor.
    - apply (IH t Ht d H1). econstructor; eauto.
  Qed.

  Variable b : bounds.
  Definition fin_bounds (p : eprop) (r : option word) : option bounds :=
    option_map (fun w => run_marks width P w (apply_tags P (ep_tags p) b)) r.
  Inductive pv (p : eprop) : option bounds -> Prop :=
  | pv_dead : ~ PFlat.live T j p -> pv p None
  | pv_live : forall r, PFlat.live T j p -> ev_ (nowalts (ep_state p)) j r -> pv p (fin_bounds p r).
  Lemma pv_det p r r' : pv p r -> pv p r' -> r = r'.
  Proof using Kdet. intros [H1|r1 H1 H2] [H3|r3 H3 H4]; try tauto. f_equal. eapply (proj2 (ev_det check T n K Kdet)); eauto. Qed.
  Lemma live_dec p : PFlat.live T j p \/ ~ PFlat.live T j p.
  Proof. unfold PFlat.live. destruct (ep_start p), (ep_end p), (Nat.eq_dec j 0), (Nat.eq_dec j (length T)); intuition (try discriminate; auto). Qed.
  Lemma live_step p t e : PFlat.live T j (ep_step p (t, e)) <-> PFlat.live T j p /\ on T j e = true.
  Proof.
    unfold PFlat.live. destruct e; cbn; rewrite ?Nat.eqb_eq; intuition.
  Qed.
  Lemma step_state p t e : ep_state (ep_step p (t, e)) = t. Proof. destruct e; reflexivity. Qed.
  Lemma fin_step p t e r : fin_bounds p (pre (mark e) r) = fin_bounds (ep_step p (t, e)) r.
  Proof.
    destruct r as [w|]; [|reflexivity]. cbn [pre option_map]. unfold fin_bounds. cbn [option_map]. f_equal.
    destruct e; cbn [mark app run_marks ep_step snd fst ep_tags]; try reflexivity.
    - now rewrite apply_add_tag.
    - now rewrite apply_add_tag.
  Qed.

  (** A dead thread leads to dead threads. *)
  Lemma traverse_dead fuel : forall th out out', ~ PFlat.live T j th -> traverse fuel n th out = Ok out' ->
    exists add, out' = out ++ add /\ Forall (fun p => ~ PFlat.live T j p) add.
  Proof.
    induction fuel as [|f IH]; intros th out out' Hd E; [discriminate|]. cbn [traverse] in E.
    set (F := fun o e => _) in E.
    assert (G : forall es o o', foldM F es o = Ok o' -> exists add, o' = o ++ add /\ Forall (fun p => ~ PFlat.live T j p) add).
    { induction es as [|[t e] es IHes]; intros o o' E1; cbn [foldM] in E1.
      - injection E1 as <-. exists []. rewrite app_nil_r. auto.
      - destruct (F o (t, e)) as [o1| | |] eqn:E2; cbn [bind] in E1; try discriminate.
        assert (G1 : exists add, o1 = o ++ add /\ Forall (fun p => ~ PFlat.live T j p) add).
        { unfold F in E2. cbn zeta in E2. destruct (existsb _ _); [injection E2 as <-; exists []; rewrite app_nil_r; auto|].
          eapply IH; [|exact E2]. rewrite live_step. tauto. }
        destruct G1 as (a1 & -> & H1). destruct (IHes _ _ E1) as (a2 & -> & H2). exists (a1 ++ a2). rewrite app_assoc. split; [reflexivity|]. now apply Forall_app. }
    destruct (G _ _ _ E) as (a & -> & H). exists (th :: a). rewrite <- app_assoc. split; [reflexivity|]. now constructor.
  Qed.

  Definition done (ro : option bounds) (p : eprop) : Prop := forall w, ev_ (alts n (ep_state p)) j (Some w) -> ro <> None.
  Lemma done_mono ro x p : done ro p -> done (orelse ro x) p.
  Proof. intros H w Hw. apply H in Hw. now destruct ro. Qed.
  Lemma traverse_first fuel : forall th out out' r ro, PFlat.live T j th -> ev_ (alts n (ep_state th)) j r ->
    (forall p, In p out -> PFlat.live T j p -> done ro p \/ ereach (ep_state p) (ep_state th)) ->
    first pv out ro -> traverse fuel n th out = Ok out' ->
    first pv out' (orelse ro (fin_bounds th r)) /\
    (forall p, In p out' -> PFlat.live T j p -> In p out \/ done (orelse ro (fin_bounds th r)) p).
  Proof using Kdet.
    induction fuel as [|f IH]; intros th out out' r ro Hl Hev HI HF E; [discriminate|]. cbn [traverse] in E.
    set (F := fun o e => _) in E. assert (Hac := ev_acc _ _ Hev). assert (Hev0 := Hev).
    rewrite alts_now in Hev. apply ev_app_inv in Hev as (rn & re & H1 & H2 & ->).
    assert (G : forall es o o' re ro1, incl es (eps (get n (ep_state th))) -> foldM F es o = Ok o' ->
      ev_ (map (fun e => AEps (fst e) (snd e)) es) j re -> first pv o ro1 ->
      (forall p, In p o -> PFlat.live T j p -> done ro1 p \/ ereach (ep_state p) (ep_state th)) ->
      first pv o' (orelse ro1 (fin_bounds th re)) /\
      (forall p, In p o' -> PFlat.live T j p -> In p o \/ done (orelse ro1 (fin_bounds th re)) p)).
    { induction es as [|[t e] es IHes]; intros o o' re0 ro1 Hin E1 He Hf Hi; cbn [foldM] in E1.
      - injection E1 as <-. inversion He; subst. cbn. rewrite orelse_none. split; [assumption|]. auto.
      - destruct (F o (t, e)) as [o1| | |] eqn:E2; cbn [bind] in E1; try discriminate. cbn [map fst snd] in He.
        inversion He as [|? ? ? r1 r2 He1 He2]; subst.
        assert (Hed : In (t, e) (eps (get n (ep_state th)))) by (apply Hin; now left).
        assert (G1 : first pv o1 (orelse ro1 (fin_bounds th r1)) /\ (forall p, In p o1 -> PFlat.live T j p -> In p o \/ done (orelse ro1 (fin_bounds th r1)) p)).
        { unfold F in E2. cbn zeta in E2. destruct (on T j e) eqn:Eon.
          - inversion He1 as [| | |? ? ? X|? ? ? r3 X Hev3]; subst; [congruence|].
            assert (Hst : estep t (ep_state th)) by (exists e; auto).
            assert (Hl' : PFlat.live T j (ep_step th (t, e))) by (apply live_step; auto).
            rewrite (fin_step th t e r3). destruct (existsb (eprop_eqb (ep_step th (t, e))) o) eqn:Eex.
            + injection E2 as <-. apply (existsb_eqb_iff _ _ _ eprop_eqb_iff) in Eex.
              destruct (Hi _ Eex Hl') as [Hd|Hr].
              * assert (Hro : orelse ro1 (fin_bounds (ep_step th (t, e)) r3) = ro1).
                { destruct ro1 as [x|]; [reflexivity|]. destruct r3 as [w|]; [|reflexivity]. exfalso. apply (Hd w); [|reflexivity]. now rewrite step_state. }
                rewrite Hro. split; [assumption|]. auto.
              * exfalso. rewrite step_state in Hr. exact (no_cycle _ _ Hac Hst Hr).
            + eapply IH; eauto; [now rewrite step_state|]. intros p Hp Hlp. destruct (Hi p Hp Hlp) as [?|Hr]; [now left|right].
              rewrite step_state. econstructor; eauto.
          - assert (r1 = None) as -> by (inversion He1; subst; congruence). cbn. rewrite orelse_none.
            destruct (existsb (eprop_eqb (ep_step th (t, e))) o); [injection E2 as <-; auto|].
            apply traverse_dead in E2 as (add & -> & Hadd); [|rewrite live_step; intros [_ X]; congruence]. rewrite Forall_forall in Hadd. split.
            + rewrite <- (orelse_none ro1). apply first_app; [assumption|]. apply first_none. intros p Hp. apply pv_dead. auto.
            + intros p Hp Hlp. apply in_app_or in Hp as [Hp|Hp]; [auto|]. exfalso. eapply Hadd; eauto. }
        destruct G1 as [Gf Gd].
        destruct (IHes o1 o' r2 (orelse ro1 (fin_bounds th r1))) as [Rf Rd]; auto.
        { intros x Hx. apply Hin. now right. }
        { intros p Hp Hlp. destruct (Gd p Hp Hlp) as [Hp'|Hd]; [|now left]. destruct (Hi p Hp' Hlp) as [Hd|Hr]; [left; now apply done_mono|now right]. }
        assert (EE : orelse ro1 (fin_bounds th (orelse r1 r2)) = orelse (orelse ro1 (fin_bounds th r1)) (fin_bounds th r2)).
        { rewrite orelse_assoc. f_equal. now destruct r1. }
        rewrite EE. split; [exact Rf|]. intros p Hp Hlp. destruct (Rd p Hp Hlp) as [Hp'|Hd]; [|now right].
        destruct (Gd p Hp' Hlp) as [?|Hd]; [now left|right; now apply done_mono]. }
    destruct (G _ (out ++ [th]) out' re (orelse ro (fin_bounds th rn)) (incl_refl _) E H2) as [R1 R2].
    - apply first_app; [assumption|]. apply first_one. now apply pv_live.
    - intros p Hp Hlp. apply in_app_or in Hp as [Hp|[<-|[]]]; [|right; constructor]. destruct (HI p Hp Hlp) as [Hd|Hr]; [left; now apply done_mono|now right].
    - assert (EE : orelse ro (fin_bounds th (orelse rn re)) = orelse (orelse ro (fin_bounds th rn)) (fin_bounds th re)).
      { rewrite orelse_assoc. f_equal. now destruct rn. }
      rewrite EE. split; [exact R1|]. intros p Hp Hlp. destruct (R2 p Hp Hlp) as [Hp'|Hd]; [|now right].
      apply in_app_or in Hp' as [Hp'|[<-|[]]]; [now left|]. right. intros w Hw.
      assert (X : orelse rn re = Some w) by (eapply (proj2 (ev_det check T n K Kdet)); eauto).
      rewrite <- EE, X. destruct ro; discriminate.
  Qed.
  Lemma props_first s l r : ev_ (alts n s) j r -> eps_props n s = Ok l -> first pv l (option_map (fun w => run_marks width P w b) r).
  Proof using Kdet.
    intros Hev E. unfold eps_props in E. apply (traverse_first _ _ [] l r None) in E as [E _].
    - exact E.
    - split; discriminate.
    - exact Hev.
    - intros p [].
    - constructor.
  Qed.
End Eps.
