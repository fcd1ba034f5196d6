(** Threads are kept in the order of the start of their match: invariants of one step. *)
From Verif Require Export PLazyRun.
From Coq Require Import ZifyBool ZifyNat.
Open Scope nat_scope.
Open Scope list_scope.
Set Default Proof Using "Type".

(** A path is a zero-width path, or one that reads a last symbol and is followed by a zero-width path. *)
Lemma path_last {A} (check : A -> N -> bool) (n : nfa A) s w t : path check n s w t ->
  zpath n s w t \/ exists w1 q a c q' w2, w = (w1 ++ [IC c]) ++ w2 /\ path check n s w1 q /\ In (q', a) (trans (get n q)) /\ check a c = true /\ zpath n q' w2 t.
Proof.
  induction 1 as [s|s t e w u He Hp IH|s t a c w u He Hc Hp IH].
  - left. constructor.
  - destruct IH as [IH|(w1 & q & a & c & q' & w2 & -> & H1 & H2 & H3 & H4)]; [left; eapply zpath_cons; eauto|].
    right. exists (mark e ++ w1), q, a, c, q', w2. split; [now rewrite !app_assoc|]. split; [eapply p_eps; eauto|auto].
  - right. destruct IH as [IH|(w1 & q & a' & c' & q' & w2 & -> & H1 & H2 & H3 & H4)].
    + exists [], s, a, c, t, w. split; [reflexivity|]. split; [constructor|auto].
    + exists (IC c :: w1), q, a', c', q', w2. split; [reflexivity|]. split; [eapply p_sym; eauto|auto].
Qed.

Set Default Proof Using "All".
Section Threads.
  Context {A B : Type}.
  Variable key : A -> B.
  Variable D : B -> B -> Prop.
  Variable P : B -> Prop.
  Variable check : A -> N -> bool.
  Hypothesis HD : forall a b c, D (key a) (key b) -> check a c = true -> check b c = true -> False.
  Variable width : N -> nat.
  Variable T : list N.
  Variable n : nfa A.
  Hypothesis Hwf : wf n.
  Hypothesis Hlen : 1 <= length n.
  Variable g : nat.
  Hypothesis Hg : 1 <= g.
  Hypothesis Hone : forall W, lang check n W -> opens0 W = 1.
  Hypothesis Hmost : forall u s, s < length n -> path check n 0 u s -> opens0 u <= 1.
  Variable E : nat -> Prop.
  Hypothesis HE : forall s, E s -> lazy_at key D P n E s.
  Notation acc_st := (length n - 1).
  Notation th := (nat * bounds)%type.
  Notation k_ x := (key0 (snd x)).

  Definition apartc (a b : A) : Prop := D (key a) (key b).
  (** Where a thread may have come from. *)
  Definition came (i : nat) (x : th) : Prop := fst x < length n /\ exists u, path check n 0 u (fst x) /\ snd x = run_marks width 0 u (no_bounds g) /\ wwidth width u = i.
  Definition sorted (l : list th) : Prop := FOP (fun x y => kle (k_ x) (k_ y)) l.
  Definition pre_inv (i : nat) (l : list th) : Prop :=
    (forall x, In x l -> came i x) /\ sorted l /\ FOP (fun x y => k_ x = None -> k_ y = None -> False) l /\ forall x, In x l -> k_ x = None -> E (fst x).
  Definition post_inv (i : nat) (l : list th) : Prop :=
    (forall x, In x l -> came i x) /\ sorted l /\
    FOP (fun x y => k_ x = None -> k_ y = None -> forall a b, In a (trans (get n (fst x))) -> In b (trans (get n (fst y))) -> apartc (snd a) (snd b)) l /\
    forall x, In x l -> k_ x = None -> FOP (fun a b => apartc (snd a) (snd b)) (trans (get n (fst x))) /\ forall t, In t (trans (get n (fst x))) -> E (fst t).

  Lemma came_once i x w t : came i x -> zpath n (fst x) w t -> opens0 w <> 0 -> k_ x = None.
  Proof.
    intros (Hx & u & Hu & -> & _) Hz Hw. assert (Ht : t < length n) by (clear - Hz Hwf Hx; induction Hz; [assumption|]; eapply wf_eps; eauto).
    assert (HL : path check n 0 (u ++ w) t) by (eapply path_app; [exact Hu|apply zpath_path; exact Hz]).
    apply (Hmost _ _ Ht) in HL. rewrite !opens0_app in HL. rewrite key0_run_none by lia. destruct g; [lia|reflexivity].
  Qed.
  Lemma came_none i x : came i x -> k_ x = None -> exists u, path check n 0 u (fst x) /\ opens0 u = 0.
  Proof.
    intros (Hx & u & Hu & E1 & E2) Hk. exists u. split; [assumption|]. destruct (Nat.eq_dec (opens0 u) 0) as [H|H]; [assumption|exfalso].
    destruct (key0_run_one width u 0 (no_bounds g)) as (k & Ek & _); [destruct g; [lia|discriminate]|assumption|]. rewrite E1 in Hk. congruence.
  Qed.
  Lemma came_le i x k : came i x -> k_ x = Some k -> k <= i.
  Proof.
    intros (Hx & u & Hu & E1 & E2) Hk. destruct (Nat.eq_dec (opens0 u) 0) as [H|H].
    - rewrite E1, key0_run_none in Hk by assumption. destruct g; [lia|discriminate].
    - destruct (key0_run_one width u 0 (no_bounds g)) as (k' & Ek & Hle); [destruct g; [lia|discriminate]|assumption|]. rewrite E1 in Hk. assert (k' = k) by congruence. subst. lia.
  Qed.
  Lemma came_ne i x : came i x -> snd x <> [].
  Proof. intros (_ & u & _ & -> & _). apply run_marks_ne. destruct g; [lia|discriminate]. Qed.

  Definition gprops (k : nat) : list eprop := match eps_props n k with Ok l => l | _ => [] end.
  Lemma gprops_ok k : k < length n -> eps_props n k = Ok (gprops k).
  Proof. intros Hk. unfold gprops. now destruct (eps_props_spec n Hwf k Hk) as (l & -> & _). Qed.
  Lemma gprops_spec k p : k < length n -> In p (gprops k) <-> exists t w, zpath n k w t /\ p = ep_of t w.
  Proof. intros Hk. unfold gprops. destruct (eps_props_spec n Hwf k Hk) as (l & -> & _ & Hl). apply Hl. Qed.

  (** The threads of a propagation. *)
  Definition adv (i : nat) (b : bounds) (p : eprop) : th := (ep_state p, apply_tags i (ep_tags p) b).
  Lemma adv_came i x t w : came i x -> zpath n (fst x) w t -> came i (adv i (snd x) (ep_of t w)).
  Proof.
    intros (Hx & u & Hu & E1 & E2) Hz. split.
    - cbn. clear - Hz Hwf Hx. induction Hz; [assumption|]. eapply wf_eps; eauto.
    - exists (u ++ w). cbn [adv fst snd ep_state ep_of ep_tags]. split; [eapply path_app; [exact Hu|apply zpath_path; exact Hz]|].
      assert (Hc := zpath_chars _ _ _ _ Hz). split.
      + rewrite run_marks_app, E2, <- E1. now apply apply_tags_of.
      + unfold wwidth in *. now rewrite chars_app, Hc, app_nil_r.
  Qed.
  Lemma adv_key i x t w : came i x -> zpath n (fst x) w t -> k_ (adv i (snd x) (ep_of t w)) = if startedb (ep_of t w) then Some i else k_ x.
  Proof.
    intros Hx Hz. cbn [adv fst snd ep_tags ep_of]. assert (Hc := zpath_chars _ _ _ _ Hz). rewrite (apply_tags_of width) by assumption.
    destruct (startedb (ep_of t w)) eqn:Es.
    - apply started_word in Es. apply key0_zero; [assumption|eapply came_ne; eauto|assumption].
    - apply key0_run_none. destruct (Nat.eq_dec (opens0 w) 0) as [H|H]; [assumption|]. apply (started_word t) in H. congruence.
  Qed.

  (** The order of the propagations of a state before the match. *)
  Definition porder (l : list eprop) : Prop :=
    FOP (fun p q => (startedb q = true -> startedb p = true) /\
      (startedb p = false -> startedb q = false -> forall a b, In a (trans (get n (ep_state p))) -> In b (trans (get n (ep_state q))) -> apartc (snd a) (snd b))) l /\
    forall p, In p l -> startedb p = false -> fresh p /\ FOP (fun a b => apartc (snd a) (snd b)) (trans (get n (ep_state p))) /\ forall t, In t (trans (get n (ep_state p))) -> E (fst t).
  Lemma props_order s l u : E s -> s < length n -> path check n 0 u s -> opens0 u = 0 -> eps_props n s = Ok l -> porder (filter (retained n) l).
  Proof.
    intros Es Hs Hu Hu0 El. destruct (HE s Es) as (r & Hfl & HO & HC). unfold eps_props in El.
    destruct (traverse_fresh n _ (mkEp s [] false false) [] l r eq_refl Hfl El) as (new & E1 & HS & HF). cbn in E1. subst new.
    assert (HS' : sb key eq (flat_map (levp n) l) r).
    { clear - HS. induction HS; [constructor|now constructor|apply sb_sym; congruence|now apply sb_start|now apply sb_more]. }
    assert (HO' := sb_fop key D eq _ _ HS' HO). apply fop_flat_map_inv in HO' as [O1 O2].
    destruct (eps_props_spec n Hwf s Hs) as (l' & El' & _ & Hl'). unfold eps_props in El'. rewrite El in El'. injection El' as <-.
    assert (Hfr : forall p, In p (filter (retained n) l) -> startedb p = false -> fresh p /\ trans (get n (ep_state p)) <> []).
    { intros p Hp Hns. apply filter_In in Hp as [Hp Hret]. rewrite Forall_forall in HF. destruct (HF p Hp) as [H|H]; [congruence|]. split; [assumption|].
      intros Et. unfold retained in Hret. rewrite Et in Hret. apply Hl' in Hp as (t & w & Hz & ->). cbn [ep_state ep_of] in Hret.
      assert (t = acc_st) by lia. subst t. assert (HL : lang check n (u ++ w)) by (eapply path_app; [exact Hu|apply zpath_path; exact Hz]).
      apply Hone in HL. rewrite opens0_app in HL. destruct (Nat.eq_dec (opens0 w) 0) as [X|X]; [lia|]. apply (started_word acc_st) in X. congruence. }
    assert (Hin : forall p a, startedb p = false -> In a (trans (get n (ep_state p))) -> In (LC (fst a) (snd a)) (levp n p)).
    { intros p a Hp Ha. unfold levp. rewrite Hp. apply in_map_iff. exists a. auto. }
    split.
    - apply (fop_filter _ (retained n)) in O2. eapply fop_impl; [|exact O2]. cbv beta. intros p q Hp Hq H. split.
      + intros Hst. destruct (startedb p) eqn:Ep; [reflexivity|exfalso]. destruct (Hfr p Hp Ep) as [_ Hne]. destruct (trans (get n (ep_state p))) as [|a ta] eqn:Et; [congruence|].
        refine (H (LC (fst a) (snd a)) LS _ _); [apply Hin; [assumption|rewrite Et; now left]|unfold levp; rewrite Hst; now left].
      + intros Ep Eq a b Ha Hb. exact (H (LC (fst a) (snd a)) (LC (fst b) (snd b)) (Hin _ _ Ep Ha) (Hin _ _ Eq Hb)).
    - intros p Hp Ep. destruct (Hfr p Hp Ep) as [F1 _]. split; [assumption|]. apply filter_In in Hp as [Hp _]. split.
      + specialize (O1 p Hp). unfold levp in O1. rewrite Ep in O1. apply (proj2 (fop_map _ _ _)) in O1. exact O1.
      + intros a Ha. destruct (sb_In key eq _ _ (fst a) (snd a) HS') as (t & a' & X1 & X2 & X3).
        * apply in_flat_map. exists p. auto.
        * apply HC in X1 as [X1 _]. now subst t.
  Qed.

  (** Selections of propagations that keep the order. *)
  Definition sel_ok (sel : list eprop -> list eprop) : Prop :=
    (forall l p, In p (sel l) -> In p l) /\ (forall l, porder l -> porder (sel l)).
  Lemma sel_filter f : sel_ok (filter f).
  Proof.
    split; [intros l p Hp; now apply filter_In in Hp|]. intros l [H1 H2]. split; [now apply fop_filter|]. intros p Hp. apply filter_In in Hp as [Hp _]. auto.
  Qed.
  Lemma sel_id : sel_ok (fun l => l).
  Proof. split; auto. Qed.
  Lemma sel_ordered i j : sel_ok (ordered i j).
  Proof.
    split.
    - intros l p Hp. unfold ordered in Hp. rewrite !in_app_iff in Hp.
      destruct Hp as [Hp|[Hp|[Hp|Hp]]]; [destruct (i && j)|destruct i|destruct j|]; try (destruct Hp; fail); now apply filter_In in Hp.
    - intros l [H1 H2]. unfold ordered. set (R := fun p q => _) in H1.
      assert (HF : forall f, FOP R (filter f l)) by (intros f; now apply fop_filter).
      assert (HS : forall f, (forall p, f p = true -> ep_start p || ep_end p = true) -> forall p, In p (filter f l) -> startedb p = true).
      { intros f Hf p Hp. apply filter_In in Hp as [Hp Hfp]. destruct (startedb p) eqn:Es; [reflexivity|]. destruct (H2 p Hp Es) as [Fr _]. apply Hf in Hfp. rewrite Fr in Hfp. discriminate. }
      assert (HR : forall p q, startedb p = true -> R p q) by (intros p q Hp; split; [auto|congruence]).
      split.
      + apply fop_app; [destruct (i && j); [apply HF|constructor]| |].
        * apply fop_app; [destruct i; [apply HF|constructor]| |].
          -- apply fop_app; [destruct j; [apply HF|constructor]|apply HF|]. intros p q Hp _. apply HR. destruct j; [|destruct Hp]. refine (HS _ _ p Hp). intros x. now destruct (ep_start x), (ep_end x).
          -- intros p q Hp _. apply HR. destruct i; [|destruct Hp]. refine (HS _ _ p Hp). intros x. now destruct (ep_start x), (ep_end x).
        * intros p q Hp _. apply HR. destruct (i && j); [|destruct Hp]. refine (HS _ _ p Hp). intros x. now destruct (ep_start x), (ep_end x).
      + intros p Hp. apply H2. rewrite !in_app_iff in Hp.
        destruct Hp as [Hp|[Hp|[Hp|Hp]]]; [destruct (i && j)|destruct i|destruct j|]; try (destruct Hp; fail); now apply filter_In in Hp.
  Qed.

  (** *** Epsilon step *)
  Definition raw (sel : list eprop -> list eprop) (i : nat) (ths : list th) : list th :=
    flat_map (fun x => map (adv i (snd x)) (sel (filter (retained n) (gprops (fst x))))) ths.
  Lemma raw_inv sel i ths : sel_ok sel -> pre_inv i ths -> post_inv i (raw sel i ths).
  Proof.
    intros [S1 S2] (C & SO & NN & HEs).
    assert (Hin : forall x p, In x ths -> In p (sel (filter (retained n) (gprops (fst x)))) -> exists t w, zpath n (fst x) w t /\ p = ep_of t w).
    { intros x p Hx Hp. apply S1, filter_In in Hp as [Hp _]. apply (gprops_spec); [|assumption]. now apply C. }
    assert (HA : forall x p, In x ths -> In p (sel (filter (retained n) (gprops (fst x)))) ->
      came i (adv i (snd x) p) /\ k_ (adv i (snd x) p) = (if startedb p then Some i else k_ x) /\ (startedb p = true -> k_ x = None)).
    { intros x p Hx Hp. destruct (Hin x p Hx Hp) as (t & w & Hz & ->). assert (Cx := C x Hx). split; [now apply adv_came|]. split; [now apply adv_key|].
      intros Hs. apply started_word in Hs. eapply came_once; eauto. }
    assert (HO : forall x, In x ths -> k_ x = None -> porder (sel (filter (retained n) (gprops (fst x))))).
    { intros x Hx Hk. apply S2. assert (Cx := C x Hx). destruct (came_none _ _ Cx Hk) as (u & Hu & Hu0). apply (props_order (fst x) (gprops (fst x)) u); auto; [apply Cx|apply gprops_ok; apply Cx]. }
    split; [|split; [|split]].
    - intros y Hy. apply in_flat_map in Hy as (x & Hx & Hy). apply in_map_iff in Hy as (p & <- & Hp). now apply HA.
    - apply fop_flat_map.
      + intros x Hx. refine (proj1 (fop_map _ (adv i (snd x)) _) _). cbv beta. destruct (k_ x) as [k|] eqn:Ek.
        * assert (X : forall p, In p (sel (filter (retained n) (gprops (fst x)))) -> k_ (adv i (snd x) p) = Some k).
          { intros p Hp. destruct (HA x p Hx Hp) as (_ & -> & Hs). destruct (startedb p); [specialize (Hs eq_refl); congruence|assumption]. }
          clear - X. induction (sel _) as [|p l IH]; constructor; [|apply IH; intros; apply X; now right].
          apply Forall_forall. intros q Hq. rewrite (X p), (X q) by (cbn; auto). apply kle_refl.
        * destruct (HO x Hx Ek) as [O1 _]. eapply fop_impl; [|exact O1]. intros p q Hp Hq [H _]. cbv beta.
          destruct (HA x p Hx Hp) as (_ & -> & _), (HA x q Hx Hq) as (_ & -> & _). rewrite Ek. destruct (startedb q); [rewrite H by reflexivity; apply kle_refl|]. destruct (startedb p); exact I.
      + assert (X : FOP (fun x y => kle (k_ x) (k_ y) /\ (k_ x = None -> k_ y = None -> False)) ths).
        { now apply fop_and. }
        eapply fop_impl; [|exact X]. cbv beta. intros x y Hx Hy [K1 K2] a b Ha Hb. apply in_map_iff in Ha as (p & <- & Hp). apply in_map_iff in Hb as (q & <- & Hq).
        destruct (HA x p Hx Hp) as (_ & -> & Sp), (HA y q Hy Hq) as (_ & -> & Sq).
        destruct (k_ x) as [k|] eqn:Ek; [|exfalso; destruct (k_ y); [exact K1|now apply K2]].
        destruct (startedb p); [specialize (Sp eq_refl); congruence|]. destruct (startedb q); [|assumption]. cbn. eapply came_le; [|exact Ek]. now apply C.
    - apply fop_flat_map.
      + intros x Hx. refine (proj1 (fop_map _ (adv i (snd x)) _) _). cbv beta. destruct (k_ x) as [k|] eqn:Ek.
        * assert (X : forall p, In p (sel (filter (retained n) (gprops (fst x)))) -> k_ (adv i (snd x) p) = Some k).
          { intros p Hp. destruct (HA x p Hx Hp) as (_ & -> & Hs). destruct (startedb p); [specialize (Hs eq_refl); congruence|assumption]. }
          clear - X. induction (sel _) as [|p l IH]; constructor; [|apply IH; intros; apply X; now right].
          apply Forall_forall. intros q Hq. rewrite (X p) by (cbn; auto). discriminate.
        * destruct (HO x Hx Ek) as [O1 _]. eapply fop_impl; [|exact O1]. intros p q Hp Hq [_ H]. cbv beta.
          destruct (HA x p Hx Hp) as (_ & -> & _), (HA x q Hx Hq) as (_ & -> & _). destruct (startedb p); [discriminate|]. destruct (startedb q); [discriminate|].
          intros _ _. exact (H eq_refl eq_refl).
      + eapply fop_impl; [|exact NN]. cbv beta. intros x y Hx Hy K a b Ha Hb. apply in_map_iff in Ha as (p & <- & Hp). apply in_map_iff in Hb as (q & <- & Hq).
        destruct (HA x p Hx Hp) as (_ & -> & Sp), (HA y q Hy Hq) as (_ & -> & Sq). destruct (startedb p); [discriminate|]. destruct (startedb q); [discriminate|]. intros X1 X2. exfalso. auto.
    - intros y Hy Hk. apply in_flat_map in Hy as (x & Hx & Hy). apply in_map_iff in Hy as (p & <- & Hp). destruct (HA x p Hx Hp) as (_ & Ek & _). rewrite Ek in Hk.
      destruct (startedb p) eqn:Ep; [discriminate|]. destruct (HO x Hx Hk) as [_ O2]. now apply O2.
  Qed.
  Lemma dedup_post i l : post_inv i l -> post_inv i (dedup_by (fun a b : th => fst a =? fst b) [] l).
  Proof.
    intros (H1 & H2 & H3 & H4). split; [|split; [|split]]; try now apply fop_dedup.
    - intros x Hx. apply PDfa.dedup_In in Hx as [Hx _]. auto.
    - intros x Hx. apply PDfa.dedup_In in Hx as [Hx _]. auto.
  Qed.
  Lemma dedup_pre i l : pre_inv i l -> pre_inv i (dedup_by (fun a b : th => fst a =? fst b) [] l).
  Proof.
    intros (H1 & H2 & H3 & H4). split; [|split; [|split]]; try now apply fop_dedup.
    - intros x Hx. apply PDfa.dedup_In in Hx as [Hx _]. auto.
    - intros x Hx. apply PDfa.dedup_In in Hx as [Hx _]. auto.
  Qed.
  (** *** Reading *)
  Lemma sym_inv i l c : post_inv i l -> pre_inv (i + width c) (flat_sym_exec check n l c).
  Proof.
    intros (C & SO & NN & HEs). unfold flat_sym_exec. set (f := fun t : nat * A => check (snd t) c).
    split; [|split; [|split]].
    - intros y Hy. apply in_flat_map in Hy as (x & Hx & Hy). apply in_map_iff in Hy as (t & <- & Ht). apply filter_In in Ht as [Ht Hc]. cbn [fst snd].
      destruct (C x Hx) as (Hlt & u & Hu & E1 & E2). destruct t as [t a]. split; [eapply wf_trans; eauto|]. exists (u ++ [IC c]). split; [|split].
      + eapply path_app; [exact Hu|]. eapply path_sym1; eauto.
      + rewrite run_marks_app. cbn. exact E1.
      + unfold wwidth in *. rewrite chars_app, total_width_app, E2. unfold total_width. cbn. lia.
    - apply fop_flat_map.
      + intros x Hx. refine (proj1 (fop_map _ (fun t => (fst t, snd x)) _) _). cbn [snd]. induction (filter f (trans (get n (fst x)))) as [|t ts IH]; constructor; [|assumption]. apply Forall_forall. intros; apply kle_refl.
      + eapply fop_impl; [|exact SO]. cbv beta. intros x y Hx Hy K a b Ha Hb. apply in_map_iff in Ha as (t & <- & _). apply in_map_iff in Hb as (t' & <- & _). exact K.
    - apply fop_flat_map.
      + intros x Hx. refine (proj1 (fop_map _ (fun t => (fst t, snd x)) _) _). cbn [snd]. destruct (k_ x) as [k|] eqn:Ek.
        * induction (filter f (trans (get n (fst x)))) as [|t ts IH]; constructor; [|assumption]. apply Forall_forall. intros; discriminate.
        * destruct (HEs x Hx Ek) as [H _]. apply (fop_filter _ f) in H. eapply fop_impl; [|exact H]. cbv beta. intros a b Ha Hb K _ _. apply filter_In in Ha as [_ Ha]. apply filter_In in Hb as [_ Hb]. eapply HD; eauto.
      + eapply fop_impl; [|exact NN]. cbv beta. intros x y Hx Hy K a b Ha Hb. apply in_map_iff in Ha as (t & <- & Ht). apply in_map_iff in Hb as (t' & <- & Ht'). cbn [snd]. intros K1 K2.
        apply filter_In in Ht as [Ht Hc]. apply filter_In in Ht' as [Ht' Hc']. eapply HD; [exact (K K1 K2 t t' Ht Ht')|eauto|eauto].
    - intros y Hy Hk. apply in_flat_map in Hy as (x & Hx & Hy). apply in_map_iff in Hy as (t & <- & Ht). apply filter_In in Ht as [Ht _]. cbn [fst snd] in *. now apply (HEs x Hx Hk).
  Qed.

  (** *** No path started before the thread at its end *)
  Definition keyw (u : word) : option nat := key0 (run_marks width 0 u (no_bounds g)).
  Definition arrives (j : nat) (u : word) (s : nat) : Prop :=
    reads T 0 u j /\ ((u = [] /\ s = 0) \/ exists u' q a c, u = u' ++ [IC c] /\ path check n 0 u' q /\ In (s, a) (trans (get n q)) /\ check a c = true).
  Definition pre_dom (j : nat) (l : list th) : Prop := forall u s, arrives j u s -> exists b, In (s, b) l /\ kle (key0 b) (keyw u).
  Definition post_dom (j : nat) (l : list th) : Prop := forall u s, path check n 0 u s -> reads T 0 u j -> (trans (get n s) <> [] \/ s = acc_st) -> exists b, In (s, b) l /\ kle (key0 b) (keyw u).
  Lemma arrives_path j u s : arrives j u s -> path check n 0 u s.
  Proof. intros [_ [[-> ->]|(u' & q & a & c & -> & H1 & H2 & H3)]]; [constructor|]. eapply path_app; [exact H1|eapply path_sym1; eauto]. Qed.
  Lemma arrives_split j u s : path check n 0 u s -> reads T 0 u j -> exists u1 s1 w, u = u1 ++ w /\ arrives j u1 s1 /\ zpath n s1 w s /\ reads T j w j.
  Proof.
    intros Hp Hr. destruct (path_last check n 0 u s Hp) as [Hz|(w1 & q & a & c & q' & w2 & -> & H1 & H2 & H3 & H4)].
    - exists [], 0, u. assert (Hc := zpath_chars _ _ _ _ Hz). assert (j = 0) as -> by (destruct (reads_chars _ _ _ _ Hr) as [X _]; rewrite Hc in X; cbn in X; lia).
      split; [reflexivity|]. split; [|split; assumption]. split; [constructor; lia|now left].
    - exists (w1 ++ [IC c]), q', w2. apply reads_app in Hr as (m & R1 & R2). assert (m = j) as -> by (destruct (reads_chars _ _ _ _ R2) as [X _]; rewrite (zpath_chars _ _ _ _ H4) in X; cbn in X; lia).
      split; [reflexivity|]. split; [|split; assumption]. split; [assumption|]. right. exists w1, q, a, c. auto.
  Qed.
  Lemma reads_width j u : reads T 0 u j -> wwidth width u = pos width T j.
  Proof. intros H. destruct (reads_chars _ _ _ _ H) as [E1 E2]. unfold wwidth, pos. rewrite E2. cbn. now rewrite Nat.sub_0_r. Qed.
  Lemma raw_dom sel j ths : sel_ok sel -> (forall l p, In p l -> PFlat.live T j p -> In p (sel l)) -> j <= length T -> pre_inv (pos width T j) ths -> pre_dom j ths -> post_dom j (raw sel (pos width T j) ths).
  Proof.
    intros _ HS Hj (C & _) Hd u s Hp Hr Hret. destruct (arrives_split j u s Hp Hr) as (u1 & s1 & w & -> & Ha & Hz & Hw). destruct (Hd u1 s1 Ha) as (b & Hb & Hk).
    exists (snd (adv (pos width T j) b (ep_of s w))). assert (Cx := C _ Hb). assert (Hs1 : s1 < length n) by apply Cx. split.
    - apply in_flat_map. exists (s1, b). split; [assumption|]. apply in_map_iff. exists (ep_of s w). split; [reflexivity|]. cbn [fst]. apply HS.
      + apply filter_In. split; [apply (gprops_spec); eauto|]. unfold retained. cbn [ep_state ep_of]. destruct (trans (get n s)); [|reflexivity]. destruct Hret as [H| ->]; [congruence|lia].
      + apply (live_reads T n j s1 w s Hz Hj). assumption.
    - assert (Eb := adv_key (pos width T j) (s1, b) s w Cx Hz). cbn [snd] in Eb. rewrite Eb. assert (Hu1 := arrives_path _ _ _ Ha). assert (Hc := zpath_chars _ _ _ _ Hz).
      assert (Cu : came (pos width T j) (s1, run_marks width 0 u1 (no_bounds g))).
      { split; [assumption|]. exists u1. split; [assumption|]. split; [reflexivity|]. apply reads_width. apply Ha. }
      assert (Ek := adv_key _ _ s w Cu Hz). cbn [adv snd ep_tags ep_of fst] in Ek. rewrite (apply_tags_of width) in Ek by assumption.
      assert (Ew : keyw (u1 ++ w) = if startedb (ep_of s w) then Some (pos width T j) else keyw u1).
      { unfold keyw. rewrite run_marks_app, (reads_width j u1) by apply Ha. exact Ek. }
      rewrite Ew. destruct (startedb (ep_of s w)); [apply kle_refl|exact Hk].
  Qed.
  Lemma dedup_dom_post i j l : post_inv i l -> post_dom j l -> post_dom j (dedup_by (fun a b : th => fst a =? fst b) [] l).
  Proof.
    intros (_ & SO & _) Hd u s Hp Hr Hret. destruct (Hd u s Hp Hr Hret) as (b & Hb & Hk).
    destruct (dedup_dom (fun x y : th => kle (k_ x) (k_ y)) (fun a b : th => fst a =? fst b) fst l) with (x := (s, b)) as ((t & b') & Hy & Ey & Hle); auto.
    - intros x. apply kle_refl.
    - intros x y. apply Nat.eqb_eq.
    - cbn in *. subst t. exists b'. split; [assumption|]. eapply kle_trans; eauto.
  Qed.
  Lemma dedup_dom_pre i j l : pre_inv i l -> pre_dom j l -> pre_dom j (dedup_by (fun a b : th => fst a =? fst b) [] l).
  Proof.
    intros (_ & SO & _) Hd u s Hp. destruct (Hd u s Hp) as (b & Hb & Hk).
    destruct (dedup_dom (fun x y : th => kle (k_ x) (k_ y)) (fun a b : th => fst a =? fst b) fst l) with (x := (s, b)) as ((t & b') & Hy & Ey & Hle); auto.
    - intros x. apply kle_refl.
    - intros x y. apply Nat.eqb_eq.
    - cbn in *. subst t. exists b'. split; [assumption|]. eapply kle_trans; eauto.
  Qed.
  Lemma sym_dom j l c : nth_error T j = Some c -> post_dom j l -> pre_dom (S j) (flat_sym_exec check n l c).
  Proof.
    intros Hc Hd u s [Hr [[-> ->]|(u' & q & a & c' & -> & H1 & H2 & H3)]].
    - exfalso. destruct (reads_chars _ _ _ _ Hr) as [X _]. discriminate.
    - apply reads_app in Hr as (m & R1 & R2). apply reads_char_inv in R2 as [R2 R3]. apply reads_nil_inv in R3 as [R3 _]. injection R3 as ->. assert (c' = c) by congruence. subst c'.
      destruct (Hd u' q H1 R1) as (b & Hb & Hk); [left; intros X; rewrite X in H2; destruct H2|].
      exists b. split; [apply flat_sym_exec_In; exists q, a; auto|]. unfold keyw in *. rewrite run_marks_app. cbn. exact Hk.
  Qed.
  (** The first thread at the accept state started first. *)
  Lemma end_dom i l b : post_inv i l -> post_dom (length T) l -> option_map snd (find (fun x : th => fst x + 1 =? length n) l) = Some b ->
    forall W, lang check n W -> reads T 0 W (length T) -> kle (key0 b) (keyw W).
  Proof.
    intros (_ & SO & _) Hd Hf W HW Hr. destruct (Hd W acc_st HW Hr (or_intror eq_refl)) as (b' & Hb' & Hk). eapply kle_trans; [|exact Hk]. clear - Hlen SO Hf Hb'.
    induction SO as [|x l H1 H2 IH]; [destruct Hb'|]. cbn [find] in Hf. destruct (fst x + 1 =? length n) eqn:Ex.
    - cbn in Hf. injection Hf as <-. destruct Hb' as [->|Hb']; [apply kle_refl|]. rewrite Forall_forall in H1. exact (H1 _ Hb').
    - destruct Hb' as [->|Hb']; [|auto]. cbn [fst] in Ex. lia.
  Qed.
  Lemma init_inv : E 0 -> pre_inv 0 [(0, no_bounds g)] /\ pre_dom 0 [(0, no_bounds g)].
  Proof.
    intros E0. split.
    - split; [|split; [|split]].
      + intros x [<-|[]]. split; [cbn; lia|]. exists []. split; [constructor|]. split; reflexivity.
      + repeat constructor.
      + repeat constructor.
      + intros x [<-|[]] _. exact E0.
    - intros u s [Hr Ha]. exists (no_bounds g). destruct Ha as [[-> ->]|(u' & q & a & c & -> & _)]; [split; [now left|apply kle_refl]|].
      exfalso. apply reads_app in Hr as (m & R1 & R2). apply reads_char_inv in R2 as [_ R2]. apply reads_nil_inv in R2 as [R2 _]. discriminate.
  Qed.
End Threads.
