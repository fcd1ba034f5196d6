(** Epsilon propagation returns exactly the summaries of the zero-width paths. *)
From Verif Require Export PTest EpsProp.
From Coq Require Import ZifyBool ZifyNat Relation_Operators Operators_Properties.
Open Scope nat_scope.
Open Scope list_scope.
Set Default Proof Using "Type".

Lemma tag_eqb_iff a b : tag_eqb a b = true <-> a = b.
Proof. destruct a, b; cbn; try (split; congruence); rewrite Nat.eqb_eq; split; congruence. Qed.
Lemma list_eqb_eq {A} (f : A -> A -> bool) : (forall x y, f x y = true <-> x = y) -> forall l m, list_eqb f l m = true <-> l = m.
Proof.
  intros H. induction l as [|x l IH]; intros [|y m]; cbn; try (split; congruence).
  rewrite andb_true_iff, H, IH. split; [intros [-> ->]; reflexivity|intros [= -> ->]; auto].
Qed.
Lemma eprop_eqb_iff a b : eprop_eqb a b = true <-> a = b.
Proof.
  unfold eprop_eqb. rewrite !andb_true_iff, Nat.eqb_eq, (list_eqb_eq tag_eqb tag_eqb_iff), !Bool.eqb_true_iff.
  destruct a, b; cbn. split; [intros [[[-> ->] ->] ->]; reflexivity|intros [= -> -> -> ->]; auto].
Qed.
Lemma existsb_eqb_iff {A} (eqb : A -> A -> bool) (x : A) l : (forall a b, eqb a b = true <-> a = b) -> existsb (eqb x) l = true <-> In x l.
Proof.
  intros H. rewrite existsb_exists. split.
  - intros (y & Hy & E). apply H in E. now subst.
  - intros Hx. exists x. split; [assumption|]. now apply H.
Qed.
Lemma existsb_eqb_false {A} (eqb : A -> A -> bool) (x : A) l : (forall a b, eqb a b = true <-> a = b) -> existsb (eqb x) l = false <-> ~ In x l.
Proof. intros H. rewrite <- not_true_iff_false, (existsb_eqb_iff eqb x l H). reflexivity. Qed.

(** ** Summaries of words *)
Definition tag_of (i : item) : list tag := match i with IM (ESC k) => [TagS k] | IM (EEC k) => [TagE k] | _ => [] end.
Definition add_item (ts : list tag) (i : item) : list tag := fold_left (fun ts t => add_tag t ts) (tag_of i) ts.
Definition tags_of (w : word) : list tag := fold_left add_item w [].
Definition is_item (m : epsk) (i : item) : bool := match i with IM e => epsk_eqb e m | IC _ => false end.
Definition has (m : epsk) (w : word) : bool := existsb (is_item m) w.
Definition ep_of (t : nat) (w : word) : eprop := mkEp t (tags_of w) (has EStart w) (has EEnd w).
Lemma has_app m u v : has m (u ++ v) = has m u || has m v.
Proof. apply existsb_app. Qed.
Lemma has_iff m w : has m w = true <-> In (IM m) w.
Proof.
  unfold has. rewrite existsb_exists. split.
  - intros ([c|e] & Hi & E); cbn in E; [discriminate|]. apply epsk_eqb_iff in E. now subst.
  - intros H. exists (IM m). split; [assumption|]. cbn. now apply epsk_eqb_iff.
Qed.
Lemma ep_step_of t w u e : ep_step (ep_of t w) (u, e) = ep_of u (w ++ mark e).
Proof.
  unfold ep_of, tags_of. rewrite fold_left_app, !has_app.
  destruct e; cbn; rewrite ?orb_false_r, ?orb_true_r; reflexivity.
Qed.
Lemma In_add_tag t x ts : In t (add_tag x ts) <-> t = x \/ In t ts.
Proof.
  unfold add_tag. destruct (existsb (tag_eqb x) ts) eqn:E.
  - apply (existsb_eqb_iff _ _ _ tag_eqb_iff) in E. intuition (subst; auto).
  - rewrite in_app_iff. cbn. intuition.
Qed.
Lemma NoDup_add_tag x ts : NoDup ts -> NoDup (add_tag x ts).
Proof.
  unfold add_tag. destruct (existsb (tag_eqb x) ts) eqn:E; [auto|]. intros H.
  apply (existsb_eqb_false _ _ _ tag_eqb_iff) in E. rewrite <- (rev_involutive (ts ++ [x])), rev_app_distr. apply NoDup_rev. cbn.
  constructor; [now rewrite <- in_rev|now apply NoDup_rev].
Qed.

(** Applying each tag once has the effect of applying all marks, at one position. *)
Section Apply.
  Variable width : N -> nat.
  Lemma apply_tag_length i b t : length (apply_tag i b t) = length b.
  Proof. destruct t; [apply set_start_length|apply set_end_length]. Qed.
  Lemma apply_tag_idem i b t : apply_tag i (apply_tag i b t) t = apply_tag i b t.
  Proof.
    destruct t; cbn; unfold set_start, set_end; revert k; induction b as [|x b IH]; intros [|k]; cbn; auto; now rewrite IH.
  Qed.
  Lemma apply_tag_comm i b t u : apply_tag i (apply_tag i b t) u = apply_tag i (apply_tag i b u) t.
  Proof.
    destruct t, u; cbn; unfold set_start, set_end; revert k k0; induction b as [|x b IH]; intros [|k] [|k0]; cbn; auto; now rewrite IH.
  Qed.
  Lemma apply_tags_app i ts us b : apply_tags i (ts ++ us) b = apply_tags i us (apply_tags i ts b).
  Proof. apply fold_left_app. Qed.
  Lemma apply_tags_In i ts t : In t ts -> forall b, apply_tags i ts (apply_tag i b t) = apply_tags i ts b.
  Proof.
    induction ts as [|x ts IH]; cbn; [tauto|]. intros [->|H] b.
    - now rewrite apply_tag_idem.
    - rewrite apply_tag_comm. now apply IH.
  Qed.
  Lemma apply_tags_tag i ts t : forall b, apply_tag i (apply_tags i ts b) t = apply_tags i ts (apply_tag i b t).
  Proof. induction ts as [|x ts IH]; intros b; [reflexivity|].
    change (apply_tag i (apply_tags i ts (apply_tag i b x)) t = apply_tags i ts (apply_tag i (apply_tag i b t) x)). now rewrite IH, apply_tag_comm. Qed.
  Lemma apply_add_tag i t ts b : apply_tags i (add_tag t ts) b = apply_tag i (apply_tags i ts b) t.
  Proof.
    unfold add_tag. destruct (existsb (tag_eqb t) ts) eqn:E.
    - apply (existsb_eqb_iff _ _ _ tag_eqb_iff) in E. now rewrite apply_tags_tag, apply_tags_In.
    - now rewrite apply_tags_app.
  Qed.
  Lemma apply_tags_marks w : chars w = [] -> forall i ts b,
    apply_tags i (fold_left add_item w ts) b = run_marks width i w (apply_tags i ts b).
  Proof.
    induction w as [|[c|e] w IH]; intros Hc i ts b; cbn [fold_left]; [reflexivity|discriminate|].
    cbn in Hc. rewrite IH by assumption. destruct e; try reflexivity.
    - unfold add_item. cbn [tag_of fold_left]. now rewrite apply_add_tag.
    - unfold add_item. cbn [tag_of fold_left]. now rewrite apply_add_tag.
  Qed.
  Lemma apply_tags_of w i b : chars w = [] -> apply_tags i (tags_of w) b = run_marks width i w b.
  Proof. intros H. unfold tags_of. now rewrite apply_tags_marks. Qed.
End Apply.

Section Props.
  Context {A : Type}.
  Variable n : nfa A.
  (** Zero-width paths with their marks. *)
  Inductive zpath (s : nat) : word -> nat -> Prop :=
  | z_nil : zpath s [] s
  | z_step : forall w t e u, zpath s w t -> In (u, e) (eps (get n t)) -> zpath s (w ++ mark e) u.
  Lemma zpath_chars s w t : zpath s w t -> chars w = [].
  Proof. induction 1; [reflexivity|]. now rewrite chars_app, IHzpath, chars_mark. Qed.
  Lemma zpath_path check s w t : zpath s w t -> path check n s w t.
  Proof. induction 1; [constructor|]. eapply path_app; [eassumption|now apply path_eps1]. Qed.
  Lemma zpath_cons s e t w u : In (t, e) (eps (get n s)) -> zpath t w u -> zpath s (mark e ++ w) u.
  Proof.
    intros He H. induction H as [|w t' e' u H IH Hi].
    - rewrite app_nil_r. change (mark e) with ([] ++ mark e). eapply z_step; [constructor|eassumption].
    - rewrite app_assoc. eapply z_step; eauto.
  Qed.
  Lemma zpath_app s u t v q : zpath s u t -> zpath t v q -> zpath s (u ++ v) q.
  Proof. intros H1 H2. induction H2; [now rewrite app_nil_r|]. rewrite app_assoc. econstructor; eauto. Qed.
  Lemma path_zpath check s w t : path check n s w t -> chars w = [] -> zpath s w t.
  Proof.
    induction 1 as [s|s t e w u He Hp IH|s t a c w u He Hc Hp IH]; intros Hw.
    - constructor.
    - rewrite chars_app, chars_mark in Hw. eapply zpath_cons; eauto.
    - discriminate.
  Qed.

  Variable Hwf : wf n.
  Definition atags : list tag := flat_map (fun st => flat_map (fun e => tag_of (IM (snd e))) (eps st)) n.
  Lemma atags_In s u e t : In (u, e) (eps (get n s)) -> In t (tag_of (IM e)) -> In t atags.
  Proof.
    intros He Ht. unfold atags. apply in_flat_map. exists (get n s). split; [apply get_In; eapply eps_range; eauto|].
    apply in_flat_map. exists (u, e). auto.
  Qed.
  Lemma atags_length : length atags <= nfa_size n.
  Proof.
    unfold atags, nfa_size. clear Hwf. induction n as [|st l IH]; cbn [flat_map fold_right length]; [lia|]. rewrite app_length.
    assert (length (flat_map (fun e => tag_of (IM (snd e))) (eps st)) <= length (eps st)).
    { induction (eps st) as [|[u e] r IH']; cbn [flat_map length]; [lia|]. rewrite app_length. cbn [snd].
      assert (length (tag_of (IM e)) <= 1) by (destruct e; cbn; lia). lia. }
    lia.
  Qed.

  Definition good_ep (p : eprop) : Prop := ep_state p < length n /\ NoDup (ep_tags p) /\ incl (ep_tags p) atags.
  Definition nxt (p q : eprop) : Prop := exists e, In e (eps (get n (ep_state p))) /\ q = ep_step p e.
  Lemma good_step p q : good_ep p -> nxt p q -> good_ep q.
  Proof using Hwf.
    intros (H1 & H2 & H3) ([u e] & He & ->). assert (Hu := wf_eps _ _ _ _ Hwf He).
    assert (Ha := fun t => atags_In _ _ _ t He).
    destruct e; cbn in *; (split; [exact Hu|]); cbn; auto.
    - split; [now apply NoDup_add_tag|]. intros t Ht. apply In_add_tag in Ht as [->|Ht]; auto.
    - split; [now apply NoDup_add_tag|]. intros t Ht. apply In_add_tag in Ht as [->|Ht]; auto.
  Qed.

  (** *** Termination measure *)
  Definition same_key (p q : eprop) : Prop := ep_tags p = ep_tags q /\ ep_start p = ep_start q /\ ep_end p = ep_end q.
  Definition left_ (p : eprop) : nat :=
    (length atags - length (ep_tags p)) + (if ep_start p then 0 else 1) + (if ep_end p then 0 else 1).
  Definition unvisited (p : eprop) (out : list eprop) : nat :=
    length (filter (fun t => negb (existsb (eprop_eqb (mkEp t (ep_tags p) (ep_start p) (ep_end p))) out)) (seq 0 (length n))).
  Definition mu (p : eprop) (out : list eprop) : nat := left_ p * S (length n) + unvisited p out.
  Lemma unvisited_le p out : unvisited p out <= length n.
  Proof.
    unfold unvisited. rewrite <- (seq_length (length n) 0) at 2. induction (seq 0 (length n)) as [|x l IH]; cbn [filter length]; [lia|]; destruct (negb _); cbn [length]; lia.
  Qed.
  Lemma left_step p q : good_ep p -> nxt p q -> same_key p q \/ left_ q < left_ p.
  Proof using Hwf.
    intros Hg Hn. assert (Hq := good_step _ _ Hg Hn). destruct Hg as (H1 & H2 & H3), Hq as (Q1 & Q2 & Q3).
    assert (L2 := NoDup_incl_length Q2 Q3).
    destruct Hn as ([u e] & He & ->). unfold left_, same_key. destruct e; cbn in *.
    - auto.
    - destruct (ep_start p); [auto|right; lia].
    - destruct (ep_end p); [auto|right; lia].
    - unfold add_tag in *. destruct (existsb (tag_eqb (TagS k)) (ep_tags p)); [auto|]. right. rewrite app_length in *. cbn in *. lia.
    - unfold add_tag in *. destruct (existsb (tag_eqb (TagE k)) (ep_tags p)); [auto|]. right. rewrite app_length in *. cbn in *. lia.
  Qed.
  Lemma filter_le {X} (f g : X -> bool) l : (forall x, In x l -> f x = true -> g x = true) -> length (filter f l) <= length (filter g l).
  Proof.
    induction l as [|x l IH]; intros H; cbn; [lia|]. assert (IH' := IH (fun y Hy => H y (or_intror Hy))).
    assert (Hx := H x (or_introl eq_refl)). destruct (f x), (g x); cbn; try lia.
  Qed.
  Lemma filter_lt {X} (f g : X -> bool) l x : (forall x, In x l -> f x = true -> g x = true) -> In x l -> f x = false -> g x = true ->
    length (filter f l) < length (filter g l).
  Proof.
    induction l as [|y l IH]; intros H Hx Hf Hgx; cbn; [destruct Hx|]. assert (H' := fun z Hz => H z (or_intror Hz)).
    destruct Hx as [->|Hx].
    - rewrite Hf, Hgx. cbn. assert (L := filter_le f g l H'). lia.
    - assert (L := IH H' Hx Hf Hgx). assert (Hy := H y (or_introl eq_refl)). destruct (f y), (g y); cbn; try lia.
  Qed.
  Lemma mu_step p q out out' : good_ep p -> nxt p q -> ~ In p out -> incl out out' -> In p out' -> mu q out' < mu p out.
  Proof using Hwf.
    intros Hg Hn Hp Hi Hp'. assert (Hq := good_step _ _ Hg Hn). destruct (left_step _ _ Hg Hn) as [(K1 & K2 & K3)|HL].
    - assert (El : left_ q = left_ p) by (unfold left_; now rewrite K1, K2, K3). unfold mu. rewrite El.
      assert (unvisited q out' < unvisited p out); [|lia]. unfold unvisited. rewrite <- K1, <- K2, <- K3.
      apply filter_lt with (x := ep_state p).
      + intros t _ Ht. apply negb_true_iff in Ht. apply negb_true_iff. apply (existsb_eqb_false _ _ _ eprop_eqb_iff) in Ht.
        apply (existsb_eqb_false _ _ _ eprop_eqb_iff). auto.
      + apply in_seq. destruct Hg. lia.
      + apply negb_false_iff, (existsb_eqb_iff _ _ _ eprop_eqb_iff). now destruct p.
      + apply negb_true_iff, (existsb_eqb_false _ _ _ eprop_eqb_iff). now destruct p.
    - unfold mu. assert (U := unvisited_le q out'). nia.
  Qed.

  (** *** The traversal *)
  Definition reachp (p q : eprop) : Prop := clos_refl_trans_1n _ nxt p q.
  Definition trav_ok (th : eprop) (out out' : list eprop) : Prop :=
    incl out out' /\ In th out' /\ NoDup out' /\
    (forall p, In p out' -> ~ In p out -> reachp th p /\ forall q, nxt p q -> In q out').
  Lemma eprop_dec (p : eprop) l : In p l \/ ~ In p l.
  Proof. destruct (existsb (eprop_eqb p) l) eqn:E; [left; now apply (existsb_eqb_iff _ _ _ eprop_eqb_iff) in E|right; now apply (existsb_eqb_false _ _ _ eprop_eqb_iff) in E]. Qed.

  Lemma traverse_spec fuel : forall th out, good_ep th -> ~ In th out -> NoDup out -> mu th out < fuel ->
    exists out', traverse fuel n th out = Ok out' /\ trav_ok th out out'.
  Proof using Hwf.
    induction fuel as [|f IH]; intros th out Hg Hth Hnd Hmu; [lia|]. cbn [traverse].
    set (F := fun out0 e => _).
    assert (G : forall es o, (forall e, In e es -> In e (eps (get n (ep_state th)))) ->
      incl out o -> In th o -> NoDup o ->
      (forall p, In p o -> ~ In p out -> p = th \/ (reachp th p /\ forall q, nxt p q -> In q o)) ->
      exists o', foldM F es o = Ok o' /\ incl o o' /\ NoDup o' /\
        (forall p, In p o' -> ~ In p out -> p = th \/ (reachp th p /\ forall q, nxt p q -> In q o')) /\
        (forall e, In e es -> In (ep_step th e) o')).
    { induction es as [|e es IHes]; intros o Hes Hi Ho Hn HP; cbn [foldM].
      - exists o. split; [reflexivity|]. split; [apply incl_refl|]. split; [assumption|]. split; [assumption|]. intros e [].
      - unfold F at 1. cbn zeta. destruct (existsb (eprop_eqb (ep_step th e)) o) eqn:E.
        + apply (existsb_eqb_iff _ _ _ eprop_eqb_iff) in E. cbn [bind].
          destruct (IHes o) as (o' & -> & I1 & N1 & P1 & E1); auto. { intros x Hx. apply Hes. now right. }
          exists o'. split; [reflexivity|]. split; [assumption|]. split; [assumption|]. split; [assumption|].
          intros x [<-|Hx]; auto.
        + apply (existsb_eqb_false _ _ _ eprop_eqb_iff) in E.
          assert (Hnx : nxt th (ep_step th e)) by (exists e; split; [apply Hes; now left|reflexivity]).
          destruct (IH (ep_step th e) o) as (o1 & -> & I1 & T1 & N1 & P1).
          * eapply good_step; eauto.
          * assumption.
          * assumption.
          * assert (M := mu_step th (ep_step th e) out o Hg Hnx Hth Hi Ho). lia.
          * cbn [bind]. destruct (IHes o1) as (o' & -> & I2 & N2 & P2 & E2).
            { intros x Hx. apply Hes. now right. }
            { eapply incl_tran; eauto. }
            { auto. }
            { assumption. }
            { intros p Hp Hno. destruct (eprop_dec p o) as [Hpo|Hpo].
              - destruct (HP p Hpo Hno) as [->|[R C]]; [now left|]. right. split; [assumption|]. intros q Hq. auto.
              - right. destruct (P1 p Hp Hpo) as [R C]. split; [|assumption]. econstructor; eauto. }
            exists o'. split; [reflexivity|]. split; [eapply incl_tran; eauto|]. split; [assumption|]. split; [assumption|].
            intros x [<-|Hx]; auto. }
    destruct (G (eps (get n (ep_state th))) (out ++ [th])) as (o' & -> & I & N & P & E).
    - auto.
    - apply incl_appl, incl_refl.
    - apply in_or_app. right. now left.
    - rewrite <- (rev_involutive (out ++ [th])), rev_app_distr. apply NoDup_rev. cbn. constructor; [now rewrite <- in_rev|now apply NoDup_rev].
    - intros p Hp Hno. apply in_app_or in Hp as [Hp|[<-|[]]]; [contradiction|now left].
    - exists o'. split; [reflexivity|]. split; [eapply incl_tran; [|exact I]; apply incl_appl, incl_refl|].
      split; [apply I, in_or_app; right; now left|]. split; [assumption|]. intros p Hp Hno.
      destruct (P p Hp Hno) as [->|H]; [|assumption]. split; [constructor|]. intros q (e & He & ->). auto.
  Qed.

  Lemma eps_props_spec s : s < length n ->
    exists l, eps_props n s = Ok l /\ NoDup l /\ forall p, In p l <-> exists t w, zpath s w t /\ p = ep_of t w.
  Proof using Hwf.
    intros Hs. unfold eps_props. set (th := mkEp s [] false false).
    destruct (traverse_spec (S (S (length n) * (nfa_size n + 3))) th []) as (l & -> & _ & T1 & N1 & P1).
    - split; [exact Hs|]. split; [constructor|intros t []].
    - intros [].
    - constructor.
    - unfold mu. assert (U := unvisited_le th []). assert (L := atags_length).
      assert (left_ th <= nfa_size n + 2) by (unfold left_; cbn; lia). nia.
    - exists l. split; [reflexivity|]. split; [assumption|]. intros p. split.
      + intros Hp. destruct (P1 p Hp) as [R _]; [intros []|]. clear P1 Hp T1. unfold reachp in R. apply clos_rt_rt1n_iff, clos_rt_rtn1_iff in R.
        induction R as [|q p (e & He & ->) R IH].
        * exists s, []. split; [constructor|reflexivity].
        * destruct IH as (t & w & Hz & ->). destruct e as [u e]. exists u, (w ++ mark e). split; [|apply ep_step_of].
          econstructor; eauto.
      + intros (t & w & Hz & ->). induction Hz as [|w t e u Hz IH He]; [exact T1|]. destruct (P1 _ IH) as [_ C]; [intros []|].
        apply C. exists (u, e). split; [exact He|]. symmetry. apply ep_step_of.
  Qed.
End Props.
