(** The preferred run of an automaton: alternatives of a state are tried in order, depth first.  The
    evaluation relation [ev], its soundness and completeness against paths, and the simulation lemma
    from which every transformation of the pipeline is shown to keep the preferred run. *)
From Verif Require Export PTest.
From Coq Require Import ZifyBool ZifyNat.
Open Scope nat_scope.
Open Scope list_scope.
Set Default Proof Using "Type".

Inductive alt (A : Type) := AAcc | ASym (t : nat) (a : A) | AEps (t : nat) (e : epsk).
Arguments AAcc {A}.
Arguments ASym {A}.
Arguments AEps {A}.

Definition pre (u : word) (r : option word) : option word := option_map (app u) r.
Lemma pre_nil r : pre [] r = r. Proof. now destruct r. Qed.
Lemma pre_app u v r : pre (u ++ v) r = pre u (pre v r).
Proof. destruct r; cbn; [now rewrite app_assoc|reflexivity]. Qed.
Definition orelse {B} (a b : option B) : option B := match a with Some x => Some x | None => b end.
Lemma orelse_none {B} (a : option B) : orelse a None = a. Proof. now destruct a. Qed.
Lemma orelse_assoc {B} (a b c : option B) : orelse (orelse a b) c = orelse a (orelse b c).
Proof. now destruct a. Qed.
Lemma pre_orelse u a b : pre u (orelse a b) = orelse (pre u a) (pre u b). Proof. now destruct a. Qed.

(** The alternatives of a state, in order. *)
Definition edges {A} (st : state A) : list (alt A) :=
  map (fun t => ASym (fst t) (snd t)) (trans st) ++ map (fun e => AEps (fst e) (snd e)) (eps st).
Definition alts {A} (n : nfa A) (s : nat) : list (alt A) :=
  (if s =? length n - 1 then [AAcc] else []) ++ edges (get n s).

Section Ev.
  Context {A : Type}.
  Variable check : A -> N -> bool.
  Variable T : list N.
  Variable n : nfa A.
  (** What happens at the accept state at a position. *)
  Variable K : nat -> option word -> Prop.

  Definition on (j : nat) (e : epsk) : bool :=
    match e with EStart => j =? 0 | EEnd => j =? length T | _ => true end.
  Definition canb (j : nat) (a : A) : option N :=
    match nth_error T j with Some c => if check a c then Some c else None | None => None end.

  Inductive ev1 : alt A -> nat -> option word -> Prop :=
  | e_acc : forall j r, K j r -> ev1 AAcc j r
  | e_sym_no : forall t a j, canb j a = None -> ev1 (ASym t a) j None
  | e_sym : forall t a j c r, canb j a = Some c -> ev (alts n t) (S j) r -> ev1 (ASym t a) j (pre [IC c] r)
  | e_eps_no : forall t e j, on j e = false -> ev1 (AEps t e) j None
  | e_eps : forall t e j r, on j e = true -> ev (alts n t) j r -> ev1 (AEps t e) j (pre (mark e) r)
  with ev : list (alt A) -> nat -> option word -> Prop :=
  | e_nil : forall j, ev [] j None
  | e_cons : forall x l j r r', ev1 x j r -> ev l j r' -> ev (x :: l) j (orelse r r').
  Scheme ev1_mut := Induction for ev1 Sort Prop with ev_mut := Induction for ev Sort Prop.
  Combined Scheme ev_ind2 from ev1_mut, ev_mut.

  Lemma ev_one x j r : ev1 x j r -> ev [x] j r.
  Proof. intros H. rewrite <- (orelse_none r). constructor; [assumption|constructor]. Qed.
  Lemma ev_one_inv x j r : ev [x] j r -> ev1 x j r.
  Proof. intros H. inversion H as [|? ? ? r1 r' H1 H2]; subst. inversion H2; subst. now rewrite orelse_none. Qed.
  Lemma ev_app l1 l2 j r1 r2 : ev l1 j r1 -> ev l2 j r2 -> ev (l1 ++ l2) j (orelse r1 r2).
  Proof.
    intros H1 H2. induction H1 as [j|x l j r r' Hx Hl IH]; [exact H2|]. cbn. rewrite orelse_assoc.
    constructor; auto.
  Qed.
  Lemma ev_app_inv l1 l2 j r : ev (l1 ++ l2) j r -> exists r1 r2, ev l1 j r1 /\ ev l2 j r2 /\ r = orelse r1 r2.
  Proof.
    revert r; induction l1 as [|x l1 IH]; intros r H; cbn in H.
    - exists None, r. repeat split; [constructor|assumption].
    - inversion H as [|? ? ? r1 r' H1 H2]; subst. apply IH in H2 as (r3 & r4 & H3 & H4 & ->).
      exists (orelse r1 r3), r4. repeat split; [now constructor|assumption|now rewrite orelse_assoc].
  Qed.

  (** *** Evaluation is deterministic when [K] is *)
  Hypothesis Kdet : forall j r r', K j r -> K j r' -> r = r'.
  Lemma ev_det : (forall x j r, ev1 x j r -> forall r', ev1 x j r' -> r = r') /\
                 (forall l j r, ev l j r -> forall r', ev l j r' -> r = r').
  Proof using Kdet.
    apply ev_ind2; intros.
    - inversion H; subst. eauto.
    - inversion H; subst; congruence.
    - inversion H0; subst; [congruence|]. assert (c0 = c) as -> by congruence. f_equal. auto.
    - inversion H; subst; congruence.
    - inversion H0; subst; [congruence|]. f_equal. auto.
    - inversion H; reflexivity.
    - inversion H1; subst. f_equal; auto.
  Qed.

  (** *** Soundness *)
  Definition fin_run (s j : nat) (w : word) : Prop :=
    exists u v j', w = u ++ v /\ path check n s u (length n - 1) /\ reads T j u j' /\ K j' (Some v).
  Definition alt_run (x : alt A) (j : nat) (w : word) : Prop :=
    match x with
    | AAcc => K j (Some w)
    | ASym t a => exists c v, canb j a = Some c /\ w = IC c :: v /\ fin_run t (S j) v
    | AEps t e => exists v, on j e = true /\ w = mark e ++ v /\ fin_run t j v
    end.
  Lemma on_enabled j e : on j e = true -> enabled T j e.
  Proof. unfold enabled. destruct e; cbn; intros H; split; intros E; try discriminate; now apply Nat.eqb_eq. Qed.
  Lemma enabled_on j e : enabled T j e -> on j e = true.
  Proof. unfold enabled. destruct e; cbn; intros [H1 H2]; auto; apply Nat.eqb_eq; auto. Qed.
  Lemma canb_iff j a c : canb j a = Some c <-> nth_error T j = Some c /\ check a c = true.
  Proof.
    unfold canb. destruct (nth_error T j) as [d|]; [|split; [discriminate|now intros []]].
    destruct (check a d) eqn:E; split.
    - intros H. injection H as <-. auto.
    - intros [H _]. exact H.
    - discriminate.
    - intros [H1 H2]. injection H1 as ->. congruence.
  Qed.
  Lemma alt_fin s x j w : In x (alts n s) -> j <= length T -> alt_run x j w -> fin_run s j w.
  Proof.
    intros Hx Hj. unfold alts, edges in Hx. rewrite !in_app_iff, !in_map_iff in Hx.
    destruct Hx as [Hx|[([t a] & <- & Hx)|([t e] & <- & Hx)]]; cbn.
    - destruct (Nat.eqb_spec s (length n - 1)) as [->|]; [|destruct Hx]. destruct Hx as [<-|[]]. cbn.
      intros H. exists [], w, j. split; [reflexivity|]. split; [apply p_nil|]. split; [now constructor|assumption].
    - intros (c & v & Hc & -> & u & v' & j' & -> & Hp & Hr & Hk). apply canb_iff in Hc as [Hc1 Hc2].
      exists (IC c :: u), v', j'. split; [reflexivity|]. split; [eapply p_sym; eauto|]. split; [now constructor|assumption].
    - intros (v & He & -> & u & v' & j' & -> & Hp & Hr & Hk). apply on_enabled in He.
      exists (mark e ++ u), v', j'. split; [now rewrite app_assoc|]. split; [eapply p_eps; eauto|].
      split; [now apply reads_mark|assumption].
  Qed.
  Lemma ev_sound0 : (forall x j r, ev1 x j r -> j <= length T -> forall w, r = Some w -> alt_run x j w) /\
                    (forall l j r, ev l j r -> j <= length T -> forall w, r = Some w -> exists x, In x l /\ alt_run x j w).
  Proof.
    apply ev_ind2; intros.
    - subst. exact k.
    - discriminate.
    - destruct r as [v|]; [|discriminate]. injection H1 as <-. cbn. exists c, v. split; [assumption|]. split; [reflexivity|].
      apply canb_iff in e as [Hc _]. assert (S j <= length T) by (apply nth_error_Some; congruence).
      destruct (H H1 v eq_refl) as (x & Hx & Hr). eapply alt_fin; eauto.
    - discriminate.
    - destruct r as [v|]; [|discriminate]. injection H1 as <-. cbn. exists v. split; [assumption|]. split; [reflexivity|].
      destruct (H H0 v eq_refl) as (x & Hx & Hr). eapply alt_fin; eauto.
    - discriminate.
    - destruct r as [v|]; cbn in H2.
      + injection H2 as ->. exists x. split; [now left|auto].
      + destruct (H0 H1 w H2) as (y & Hy & Hr). exists y. split; [now right|assumption].
  Qed.
  Lemma ev_sound s j w : ev (alts n s) j (Some w) -> j <= length T -> fin_run s j w.
  Proof.
    intros H Hj. destruct (proj2 ev_sound0 _ _ _ H Hj w eq_refl) as (x & Hx & Hr). eapply alt_fin; eauto.
  Qed.

  (** *** Completeness *)
  Lemma ev_some x l j r r' : ev l j r' -> In x l -> (forall r, ev1 x j r -> r <> None) -> r = r' -> r <> None.
  Proof.
    intros H Hx Hr ->. induction H as [j|y l j r1 r2 H1 H2 IH]; [destruct Hx|].
    destruct Hx as [->|Hx].
    - apply Hr in H1. now destruct r1.
    - destruct r1; [discriminate|]. cbn. auto.
  Qed.
  Lemma ev_complete s j r u v j' : ev (alts n s) j r -> path check n s u (length n - 1) -> reads T j u j' ->
    K j' (Some v) -> r <> None.
  Proof using Kdet.
    intros He Hp Hr Hk. remember (length n - 1) as z eqn:Ez. revert j r He Hr.
    induction Hp as [s|s t e w x Hin Hp IH|s t a c w x Hin Hc Hp IH]; intros j r He Hr.
    - inversion Hr; subst. eapply (ev_some AAcc); [exact He| | |reflexivity].
      + unfold alts. rewrite Nat.eqb_refl. now left.
      + intros r0 Hev. inversion Hev; subst. assert (r0 = Some v) by eauto. congruence.
    - apply reads_mark_split in Hr as [Hen Hr]. apply enabled_on in Hen.
      eapply (ev_some (AEps t e)); [exact He| | |reflexivity].
      + unfold alts, edges. rewrite !in_app_iff. right. right. apply in_map_iff. exists (t, e). auto.
      + intros r0 Hev. inversion Hev; subst; [congruence|].
        match goal with H1 : ev (alts n t) _ ?r |- _ => specialize (IH eq_refl _ _ H1 Hr); now destruct r end.
    - inversion Hr; subst. assert (Hcb : canb j a = Some c) by (apply canb_iff; auto).
      eapply (ev_some (ASym t a)); [exact He| | |reflexivity].
      + unfold alts, edges. rewrite !in_app_iff. right. left. apply in_map_iff. exists (t, a). auto.
      + intros r0 Hev. inversion Hev; subst; [congruence|]. assert (c0 = c) as -> by congruence.
        match goal with H1 : ev (alts n t) _ ?r, H2 : reads T (S j) w j' |- _ => specialize (IH eq_refl _ _ H1 H2); now destruct r end.
  Qed.
End Ev.

(** ** Simulation *)
Section Sim.
  Context {A B : Type}.
  Variables (check : A -> N -> bool) (check' : B -> N -> bool) (T T' : list N) (n : nfa A) (n' : nfa B).
  Variables (K K' : nat -> option word -> Prop).
  Variables (pos : nat -> nat) (tr : word -> word) (phi : alt A -> list (alt B)).
  (** What is known of the alternatives met at a position. *)
  Variable P : alt A -> nat -> Prop.
  Notation ev_ := (ev check T n K).
  Notation ev' := (ev check' T' n' K').
  Hypothesis Psym : forall t a j c, P (ASym t a) j -> canb check T j a = Some c -> Forall (fun x => P x (S j)) (alts n t).
  Hypothesis Peps : forall t e j, P (AEps t e) j -> on T j e = true -> Forall (fun x => P x j) (alts n t).
  Hypothesis Hacc : forall j r, P AAcc j -> K j r -> ev' (phi AAcc) (pos j) (option_map tr r).
  Hypothesis Hsym_no : forall t a j, P (ASym t a) j -> canb check T j a = None -> ev' (phi (ASym t a)) (pos j) None.
  Hypothesis Hsym : forall t a j c r, P (ASym t a) j -> canb check T j a = Some c -> ev_ (alts n t) (S j) r ->
    ev' (flat_map phi (alts n t)) (pos (S j)) (option_map tr r) -> ev' (phi (ASym t a)) (pos j) (option_map tr (pre [IC c] r)).
  Hypothesis Heps_no : forall t e j, P (AEps t e) j -> on T j e = false -> ev' (phi (AEps t e)) (pos j) None.
  Hypothesis Heps : forall t e j r, P (AEps t e) j -> on T j e = true -> ev_ (alts n t) j r ->
    ev' (flat_map phi (alts n t)) (pos j) (option_map tr r) -> ev' (phi (AEps t e)) (pos j) (option_map tr (pre (mark e) r)).

  Lemma sim0 : (forall x j r, ev1 check T n K x j r -> P x j -> ev' (phi x) (pos j) (option_map tr r)) /\
               (forall l j r, ev_ l j r -> Forall (fun x => P x j) l -> ev' (flat_map phi l) (pos j) (option_map tr r)).
  Proof using All.
    apply ev_ind2; intros.
    - auto.
    - auto.
    - eauto.
    - auto.
    - eauto.
    - constructor.
    - cbn [flat_map]. inversion H1; subst. assert (E : option_map tr (orelse r r') = orelse (option_map tr r) (option_map tr r')) by now destruct r.
      rewrite E. apply ev_app; auto.
  Qed.
  Lemma sim l j r : ev_ l j r -> Forall (fun x => P x j) l -> ev' (flat_map phi l) (pos j) (option_map tr r).
  Proof using All. apply sim0. Qed.
End Sim.

(** The same, on the same text and with the same words. *)
Section Sim1.
  Context {A B : Type}.
  Variables (check : A -> N -> bool) (check' : B -> N -> bool) (T : list N) (n : nfa A) (n' : nfa B).
  Variables (K K' : nat -> option word -> Prop).
  Variable phi : alt A -> list (alt B).
  Variable P : alt A -> nat -> Prop.
  Notation ev_ := (ev check T n K).
  Notation ev' := (ev check' T n' K').
  Hypothesis Psym : forall t a j c, P (ASym t a) j -> canb check T j a = Some c -> Forall (fun x => P x (S j)) (alts n t).
  Hypothesis Peps : forall t e j, P (AEps t e) j -> on T j e = true -> Forall (fun x => P x j) (alts n t).
  Hypothesis Hacc : forall j r, P AAcc j -> K j r -> ev' (phi AAcc) j r.
  Hypothesis Hsym_no : forall t a j, P (ASym t a) j -> canb check T j a = None -> ev' (phi (ASym t a)) j None.
  Hypothesis Hsym : forall t a j c r, P (ASym t a) j -> canb check T j a = Some c -> ev_ (alts n t) (S j) r ->
    ev' (flat_map phi (alts n t)) (S j) r -> ev' (phi (ASym t a)) j (pre [IC c] r).
  Hypothesis Heps_no : forall t e j, P (AEps t e) j -> on T j e = false -> ev' (phi (AEps t e)) j None.
  Hypothesis Heps : forall t e j r, P (AEps t e) j -> on T j e = true -> ev_ (alts n t) j r ->
    ev' (flat_map phi (alts n t)) j r -> ev' (phi (AEps t e)) j (pre (mark e) r).
  Lemma sim_same l j r : ev_ l j r -> Forall (fun x => P x j) l -> ev' (flat_map phi l) j r.
  Proof using All.
    assert (Eid : forall r : option word, option_map (fun w => w) r = r) by (intros []; reflexivity).
    intros H HP. rewrite <- (Eid r). apply (sim check check' T T n n' K K' (fun j => j) (fun w => w) phi P); auto; intros; rewrite ?Eid in *; auto.
  Qed.
End Sim1.

(** A renaming of states: one alternative for one. *)
Section Ren.
  Context {A B : Type}.
  Variables (check : A -> N -> bool) (check' : B -> N -> bool) (T : list N) (n : nfa A) (n' : nfa B).
  Variables (K K' : nat -> option word -> Prop).
  Variables (f : nat -> nat) (g : A -> B) (acc : list (alt B)).
  Variable P : nat -> Prop.
  Hypothesis Hedge : forall s t, P s -> (forall a, In (t, a) (trans (get n s)) -> P t) /\ (forall e, In (t, e) (eps (get n s)) -> P t).
  Hypothesis Hcheck : forall s t a c, P s -> In (t, a) (trans (get n s)) -> check' (g a) c = check a c.
  Definition ren (x : alt A) : list (alt B) :=
    match x with AAcc => acc | ASym t a => [ASym (f t) (g a)] | AEps t e => [AEps (f t) e] end.
  Hypothesis Halts : forall s, P s -> alts n' (f s) = flat_map ren (alts n s).
  Hypothesis Hacc : forall j r, K j r -> ev check' T n' K' acc j r.
  Lemma ren_ev s j r : P s -> ev check T n K (alts n s) j r -> ev check' T n' K' (alts n' (f s)) j r.
  Proof using All.
    intros Hs H. rewrite Halts by assumption.
    set (Q := fun (x : alt A) (j : nat) => match x with
       | AAcc => True | ASym t a => P t /\ forall c, check' (g a) c = check a c | AEps t e => P t end).
    assert (HQ : forall s j, P s -> Forall (fun x => Q x j) (alts n s)).
    { intros s' j' Hs'. apply Forall_forall. intros x Hx. unfold alts, edges in Hx. rewrite !in_app_iff, !in_map_iff in Hx.
      destruct Hx as [Hx|[([t a] & <- & Hx)|([t e] & <- & Hx)]]; cbn.
      - destruct (s' =? length n - 1); [|destruct Hx]. destruct Hx as [<-|[]]. exact I.
      - split; [|intros c; eauto]. destruct (Hedge s' t Hs') as [H1 _]. eauto.
      - destruct (Hedge s' t Hs') as [_ H1]. eauto. }
    apply (sim_same check check' T n n' K K' ren Q); auto.
    - intros t a j' c [Ht _] _. now apply HQ.
    - intros t a j' [Ht Hc] Hn. apply ev_one. apply e_sym_no. unfold canb in *. destruct (nth_error T j'); [|reflexivity]. now rewrite Hc.
    - intros t a j' c r' [Ht Hc] Hn _ H'. apply ev_one. apply e_sym; [unfold canb in *; destruct (nth_error T j'); [now rewrite Hc|discriminate]|].
      now rewrite Halts.
    - intros t e j' Ht Hn. apply ev_one. now apply e_eps_no.
    - intros t e j' r' Ht Hn _ H'. apply ev_one. apply e_eps; [assumption|]. now rewrite Halts.
  Qed.
End Ren.

(** A sub-automaton standing in an automaton. *)
Lemma ev_sub {A} (check : A -> N -> bool) T (N sub : nfa A) k ex K s j r :
  fin sub -> wf sub -> sub_at N sub k ex -> k + length sub < length N -> s < length sub ->
  ev check T sub (ev check T N K (map (fun e => AEps (fst e) (snd e)) ex)) (alts sub s) j r ->
  ev check T N K (alts N (k + s)) j r.
Proof.
  intros Hf Hw Hs Hlen Hr. 
  apply (ren_ev check check T sub N _ K (fun s => k + s) (fun a => a) (map (fun e => AEps (fst e) (snd e)) ex) (fun s => s < length sub)); auto.
  - intros s' t Hs'. split; intros x Hx; [eapply wf_trans|eapply wf_eps]; eauto.
  - intros s' Hs'. unfold alts. destruct (Nat.eqb_spec (k + s') (length N - 1)); [lia|]. cbn [app].
    rewrite Hs by assumption. rewrite flat_map_app. destruct (Nat.eqb_spec s' (length sub - 1)) as [->|].
    + rewrite (proj1 (fin_last _ Hf)). cbn. rewrite !app_nil_r. reflexivity.
    + cbn [flat_map app]. unfold edges. cbn [trans eps shift]. rewrite flat_map_app, !map_map. cbn [fst snd]. f_equal.
      * generalize (trans (get sub s')) as l. induction l as [|[t a] l IH]; cbn; [reflexivity|]. now rewrite IH, Nat.add_comm.
      * generalize (eps (get sub s')) as l. induction l as [|[t a] l IH]; cbn; [reflexivity|]. now rewrite IH, Nat.add_comm.
Qed.
