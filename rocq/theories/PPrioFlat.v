(** The lockstep engines return the preferred run. *)
From Verif Require Export PPrioEps.
From Coq Require Import ZifyBool ZifyNat ZifyN.
Open Scope nat_scope.
Open Scope list_scope.
Set Default Proof Using "Type".

Lemma mapM_Ok {A B} (f : A -> res B) l l' : mapM f l = Ok l' -> Forall2 (fun x y => f x = Ok y) l l'.
Proof.
  revert l'; induction l as [|x l IH]; intros l' E; cbn [mapM] in E; [injection E as <-; constructor|].
  destruct (f x) as [y| | |] eqn:Ex; cbn [bind] in E; try discriminate. destruct (mapM f l) as [ys| | |] eqn:El; cbn [bind] in E; try discriminate.
  injection E as <-. constructor; auto.
Qed.
Lemma flat_table_nth {A} (n : nfa A) tbl s : 1 <= length n -> flat_table n = Ok tbl -> s < length n -> entered n s ->
  exists l, eps_props n s = Ok l /\ nth s tbl [] = filter (retained n) l.
Proof.
  intros Hlen E Hs He. unfold flat_table in E. apply mapM_Ok in E.
  assert (HR := Forall2_nth _ _ _ s (0, true) [] E ltac:(rewrite enumerate_length, flat_excluded_length; exact Hs)).
  cbn beta in HR. rewrite nth_enumerate with (d := true) in HR by (now rewrite flat_excluded_length).
  rewrite (flat_excluded_spec n Hlen s He Hs) in HR. cbn [fst snd] in HR.
  destruct (eps_props n s) as [l| | |]; cbn [bind] in HR; try discriminate. injection HR as HR. exists l. auto.
Qed.

Lemma late_start T i v k : reads T i v k -> 0 < i -> has EStart v = false.
Proof.
  intros H. induction H as [i Hi|i c w k Hc H IH|i e w k H1 H2 H IH]; intros Hp; [reflexivity|apply IH; lia|].
  cbn [has existsb is_item]. change (existsb (is_item EStart) w) with (has EStart w). rewrite IH by assumption. rewrite orb_false_r. destruct e; try reflexivity. specialize (H1 eq_refl). lia.
Qed.
Lemma early_end T u c i k : reads T i (u ++ [IC c]) k -> has EEnd (u ++ [IC c]) = false.
Proof.
  intros H. apply reads_app in H as (m & H1 & H2). apply reads_char_inv in H2 as [H2 _]. assert (Hm : m < length T) by (apply nth_error_Some; congruence). clear H2.
  rewrite has_app. cbn. rewrite orb_false_r. induction H1 as [i Hi|i d w k' Hc H IH|i e w k' H1 H2 H IH]; [reflexivity|apply IH; assumption|].
  cbn [has existsb is_item]. change (existsb (is_item EEnd) w) with (has EEnd w). rewrite IH by assumption. rewrite orb_false_r. destruct e; try reflexivity.
  specialize (H2 eq_refl). apply reads_le in H. lia.
Qed.

(** ** The first success, one character at a time
    A function of the automaton and the text alone, with no condition on loops: of the propagations of a state
    the first one that leads on, of its transitions the first one that leads on. *)
Section FirstR.
  Context {X B : Type}.
  Variable f : X -> option B.
  Fixpoint firstr (l : list X) : option B := match l with [] => None | x :: l' => orelse (f x) (firstr l') end.
  Lemma first_fun l r : first (fun x r => r = f x) l r <-> r = firstr l.
  Proof.
    split.
    - induction 1 as [|x l r r' -> Hl IH]; [reflexivity|]. cbn. now rewrite IH.
    - intros ->. induction l as [|x l IH]; [constructor|]. cbn. now constructor.
  Qed.
  Lemma firstr_none l : firstr l = None <-> forall x, In x l -> f x = None.
  Proof.
    induction l as [|x l IH]; cbn; [split; [intros _ y []|reflexivity]|]. split.
    - intros H y [<-|Hy]; [now destruct (f x)|]. destruct (f x); [discriminate|]. now apply IH.
    - intros H. rewrite (H x) by now left. cbn. apply IH. intros y Hy. apply H. now right.
  Qed.
  Lemma firstr_some l b : firstr l = Some b -> exists x, In x l /\ f x = Some b.
  Proof.
    induction l as [|x l IH]; cbn; [discriminate|]. destruct (f x) as [y|] eqn:E; cbn; intros H; [injection H as <-; exists x; auto|].
    destruct (IH H) as (z & Hz & Ez). exists z. auto.
  Qed.
  Lemma firstr_app l m : firstr (l ++ m) = orelse (firstr l) (firstr m).
  Proof. induction l as [|x l IH]; [reflexivity|]. cbn. now rewrite IH, orelse_assoc. Qed.
End FirstR.
Section Go.
  Context {A : Type}.
  Variable check : A -> N -> bool.
  Variable width : N -> nat.
  Variable T : list N.
  Variable n : nfa A.
  Definition eprops (s : nat) : list eprop := match eps_props n s with Ok l => l | _ => [] end.
  Definition liveb (j : nat) (p : eprop) : bool := (negb (ep_start p) || (j =? 0)) && (negb (ep_end p) || (j =? length T)).
  Lemma liveb_iff j p : liveb j p = true <-> PFlat.live T j p.
  Proof. unfold liveb, PFlat.live. destruct (ep_start p), (ep_end p); cbn; intuition (try discriminate; try lia). Qed.
  Fixpoint go (text : list N) (j s : nat) (b : bounds) : option bounds :=
    firstr (fun p => if liveb j p then
      let b' := apply_tags (pos width T j) (ep_tags p) b in
      match text with
      | [] => if ep_state p + 1 =? length n then Some b' else None
      | c :: text' => firstr (fun t => if check (snd t) c then go text' (S j) (fst t) b' else None) (trans (get n (ep_state p)))
      end else None) (eprops s).
  Definition gonow (text : list N) (j s : nat) (b : bounds) : option bounds :=
    match text with
    | [] => if s + 1 =? length n then Some b else None
    | c :: text' => firstr (fun t => if check (snd t) c then go text' (S j) (fst t) b else None) (trans (get n s))
    end.
  Definition goprop (text : list N) (j : nat) (b : bounds) (p : eprop) : option bounds :=
    if liveb j p then gonow text j (ep_state p) (apply_tags (pos width T j) (ep_tags p) b) else None.
  Lemma go_eq text j s b : go text j s b = firstr (goprop text j b) (eprops s).
  Proof. destruct text; reflexivity. Qed.
  (** Whether there is a success does not depend on what is recorded. *)
  Lemma go_bounds text : forall j s b b', go text j s b = None -> go text j s b' = None.
  Proof.
    induction text as [|c text IH]; intros j s b b' H; rewrite go_eq in *; rewrite firstr_none in *; intros p Hp; specialize (H p Hp); unfold goprop in *;
      destruct (liveb j p); try reflexivity; cbn [gonow] in *.
    - destruct (ep_state p + 1 =? length n); [discriminate|reflexivity].
    - rewrite firstr_none in *. intros t Ht. specialize (H t Ht). destruct (check (snd t) c); [|reflexivity]. eapply IH; eauto.
  Qed.
  Lemma gonow_bounds text j s b b' : gonow text j s b = None -> gonow text j s b' = None.
  Proof.
    destruct text as [|c text]; cbn [gonow]; [destruct (s + 1 =? length n); [discriminate|reflexivity]|]. rewrite !firstr_none. intros H t Ht. specialize (H t Ht).
    destruct (check (snd t) c); [|reflexivity]. eapply go_bounds; eauto.
  Qed.
  (** A success is the reading of an accepted word. *)
  Hypothesis Hwf : wf n.
  Lemma gonow_sound text : forall j s b x, j <= length T -> skipn j T = text -> s < length n -> gonow text j s b = Some x ->
    exists v, now T check n j s v /\ x = run_marks width (pos width T j) v b.
  Proof using Hwf.
    induction text as [|c text IH]; intros j s b x Hj Hs Hlt E; cbn [gonow] in E.
    - destruct (Nat.eqb_spec (s + 1) (length n)) as [En|]; [|discriminate]. injection E as <-. exists []. split; [|reflexivity]. left. apply skipn_nil_ge in Hs; [|assumption]. repeat split; lia.
    - destruct (skipn_nth _ _ _ _ Hs) as [Hc Hs']. assert (Hj' : S j <= length T) by (apply nth_error_Some; congruence).
      apply firstr_some in E as ([t a] & Ht & E). cbn [fst snd] in E. destruct (check a c) eqn:Ec; [|discriminate]. rewrite go_eq in E.
      apply firstr_some in E as (p & Hp & E). unfold goprop in E. destruct (liveb (S j) p) eqn:El; [|discriminate]. apply liveb_iff in El.
      assert (Htl : t < length n) by (eapply wf_trans; eauto). unfold eprops in Hp. destruct (eps_props_spec n Hwf t Htl) as (l & El' & _ & Hl). rewrite El' in Hp.
      apply Hl in Hp as (u & w & Hz & ->). cbn [ep_state ep_tags ep_of] in E.
      assert (Hu : u < length n) by (clear - Hz Hwf Htl; induction Hz; [assumption|eapply wf_eps; eauto]).
      destruct (IH (S j) u _ x Hj' Hs' Hu E) as (v & Hv & ->). assert (Hrw := proj1 (live_reads T n (S j) t w u Hz Hj') El).
      exists (IC c :: w ++ v). split.
      + right. exists t, a, c, (w ++ v). do 4 (split; [auto; fail|]). eapply zpath_rest; eauto. now apply now_rest.
      + cbn [run_marks]. rewrite <- (pos_S width T j c Hc). rewrite (apply_tags_of width w) by (eapply zpath_chars; eauto). rewrite run_marks_app. f_equal.
        assert (Z : wwidth width w = 0) by (unfold wwidth; replace (chars w) with (@nil N) by (symmetry; eapply zpath_chars; eauto); reflexivity). lia.
  Qed.
  Lemma go_sound j s b x : j <= length T -> s < length n -> go (skipn j T) j s b = Some x ->
    exists w, rest T check n j s w /\ x = run_marks width (pos width T j) w b.
  Proof using Hwf.
    intros Hj Hlt E. rewrite go_eq in E. apply firstr_some in E as (p & Hp & E). unfold goprop in E. destruct (liveb j p) eqn:El; [|discriminate]. apply liveb_iff in El.
    unfold eprops in Hp. destruct (eps_props_spec n Hwf s Hlt) as (l & El' & _ & Hl). rewrite El' in Hp. apply Hl in Hp as (u & w & Hz & ->). cbn [ep_state ep_tags ep_of] in E.
    assert (Hu : u < length n) by (clear - Hz Hwf Hlt; induction Hz; [assumption|eapply wf_eps; eauto]).
    destruct (gonow_sound _ j u _ x Hj eq_refl Hu E) as (v & Hv & ->). assert (Hrw := proj1 (live_reads T n j s w u Hz Hj) El).
    exists (w ++ v). split; [eapply zpath_rest; eauto; now apply now_rest|]. rewrite (apply_tags_of width w) by (eapply zpath_chars; eauto). rewrite run_marks_app. f_equal.
    assert (Z : wwidth width w = 0) by (unfold wwidth; replace (chars w) with (@nil N) by (symmetry; eapply zpath_chars; eauto); reflexivity). lia.
  Qed.
End Go.

Section Run.
  Context {A : Type}.
  Variable check : A -> N -> bool.
  Variable width : N -> nat.
  Hypothesis Hwidth : forall c, 1 <= width c.
  Variable T : list N.
  Variable n : nfa A.
  Hypothesis Hwf : wf n.
  Hypothesis Hlen : 1 <= length n.
  Hypothesis Hlast : get n (length n - 1) = empty_state.
  Notation K := (K0 T).
  Notation ev_ := (ev check T n K).
  Notation now_ := (nowalts n).
  Let Kdet : kdet K := K0_det T.

  (** What a thread leads to, before and after the epsilon step. *)
  Definition tv (j : nat) (th : nat * bounds) (r : option bounds) : Prop := r = go check width T n (skipn j T) j (fst th) (snd th).
  Definition nv (j : nat) (th : nat * bounds) (r : option bounds) : Prop := r = gonow check width T n (skipn j T) j (fst th) (snd th).
  Definition pv_ (j : nat) (b : bounds) (p : eprop) (r : option bounds) : Prop := r = goprop check width T n (skipn j T) j b p.
  Lemma pv_det j b p r r' : pv_ j b p r -> pv_ j b p r' -> r = r'.
  Proof. intros -> ->. reflexivity. Qed.
  Lemma pv_dead j b p : ~ PFlat.live T j p -> pv_ j b p None.
  Proof. intros H. unfold pv_, goprop. destruct (liveb T j p) eqn:E; [|reflexivity]. now apply liveb_iff in E. Qed.
  Lemma pv_live j b p r : PFlat.live T j p -> pv_ j b p r -> nv j (ep_state p, apply_tags (pos width T j) (ep_tags p) b) r.
  Proof. intros H ->. apply liveb_iff in H. unfold nv, goprop. now rewrite H. Qed.

  (** *** Where the preferred run is defined, it is what is found *)
  Definition bmap (j : nat) (b : bounds) : option word -> option bounds := option_map (fun w => run_marks width (pos width T j) w b).
  Lemma end_now t r : ev_ (nowalts n t) (length T) r -> r = if t + 1 =? length n then Some [] else None.
  Proof using Hlen.
    intros H. unfold nowalts in H. apply ev_app_inv in H as (ra & rs & Ha & Hs & ->).
    assert (rs = None) as ->.
    { clear - Hs. revert rs Hs. induction (trans (get n t)) as [|[t' a] l IH]; intros rs Hs; cbn in Hs; inversion Hs as [|? ? ? r1 r2 H1 H2]; subst; [reflexivity|].
      rewrite (IH _ H2). inversion H1 as [|? ? ? Y|? ? ? c' r3 Y H3| |]; subst; [reflexivity|]. unfold canb in Y.
      assert (Z : nth_error T (length T) = None) by now apply nth_error_None. rewrite Z in Y. discriminate. }
    rewrite orelse_none. destruct (Nat.eqb_spec (t + 1) (length n)) as [E|E].
    - assert (X : (t =? length n - 1) = true) by lia. rewrite X in Ha. apply ev_one_inv in Ha. inversion Ha as [? ? Hk| | | |]; subst. unfold K0, k0 in Hk. rewrite Nat.eqb_refl in Hk. exact Hk.
    - assert (X : (t =? length n - 1) = false) by lia. rewrite X in Ha. now inversion Ha.
  Qed.
  Lemma ev_go text : forall j s b r, j <= length T -> skipn j T = text -> s < length n -> ev_ (alts n s) j r -> go check width T n text j s b = bmap j b r.
  Proof using Hwidth Hwf Hlen.
    assert (P : forall text j s b r, s < length n -> ev_ (alts n s) j r ->
      (forall t b r, t < length n -> ev_ (now_ t) j r -> gonow check width T n text j t b = bmap j b r) -> go check width T n text j s b = bmap j b r).
    { clear text. intros text j s b r Hs Hev HN. destruct (eps_props_spec n Hwf s Hs) as (l & El & _ & Hl).
      assert (HF := props_first check width T n K Kdet j b s l r Hev El). rewrite go_eq. unfold eprops. rewrite El. symmetry.
      change (option_map _ r) with (bmap j b r) in HF. 
      assert (Hlt : forall p, In p l -> ep_state p < length n).
      { intros p Hp. apply Hl in Hp as (t & w & Hz & ->). cbn. clear - Hz Hwf Hs. induction Hz; [assumption|]. eapply wf_eps; eauto. }
      clear Hev El Hl. revert HF. generalize (bmap j b r) as x. induction l as [|p l IH]; intros x HF; inversion HF as [|? ? r1 r2 H1 H2]; subst; [reflexivity|].
      cbn [firstr]. rewrite <- (IH (fun q Hq => Hlt q (or_intror Hq)) _ H2). f_equal. unfold goprop. destruct (liveb T j p) eqn:Elv.
      - apply liveb_iff in Elv. inversion H1 as [Hd|r3 _ Hev3]; subst; [contradiction|]. now rewrite (HN _ _ r3) by (auto; apply Hlt; now left).
      - inversion H1 as [Hd|r3 Hl3 _]; subst; [reflexivity|]. apply liveb_iff in Hl3. congruence. }
    induction text as [|c text IH]; intros j s b r Hj Hs Hlt Hev; apply P; auto; intros t b' r' Ht Hev'; cbn [gonow].
    - apply skipn_nil_ge in Hs; [|assumption]. subst j. apply end_now in Hev'. subst r'. now destruct (t + 1 =? length n).
    - destruct (skipn_nth _ _ _ _ Hs) as [Hc Hs']. assert (Hj' : S j <= length T) by (apply nth_error_Some; congruence).
      unfold nowalts in Hev'. apply ev_app_inv in Hev' as (ra & rs & Ha & Hsy & ->).
      assert (ra = None) as ->.
      { destruct (t =? length n - 1); [|now inversion Ha]. apply ev_one_inv in Ha. inversion Ha as [? ? Hk| | | |]; subst. unfold K0, k0 in Hk.
        destruct (Nat.eqb_spec j (length T)); [lia|assumption]. }
      cbn [orelse]. assert (Hin : incl (trans (get n t)) (trans (get n t))) by apply incl_refl. revert Hin rs Hsy. generalize (trans (get n t)) at 1 3 4 as l.
      induction l as [|[y a] l IHl]; intros Hin rs Hsy; cbn [map firstr fst snd] in *.
      + now inversion Hsy.
      + inversion Hsy as [|? ? ? r1 r2 H1 H2]; subst. assert (X : canb check T j a = if check a c then Some c else None) by (unfold canb; now rewrite Hc).
        assert (E : bmap j b' (orelse r1 r2) = orelse (bmap j b' r1) (bmap j b' r2)) by now destruct r1. rewrite E, (IHl (fun z Hz => Hin z (or_intror Hz)) _ H2). f_equal.
        destruct (check a c).
        * inversion H1 as [|? ? ? Y|? ? ? c' r3 Y H3| |]; subst; [congruence|]. assert (c' = c) as -> by congruence.
          rewrite (IH (S j) y b' r3 Hj' eq_refl); [|eapply wf_trans; [exact Hwf|apply Hin; now left]|assumption]. destruct r3 as [w|]; [|reflexivity]. unfold bmap. cbn [option_map pre app run_marks]. now rewrite (pos_S width T j c Hc).
        * assert (r1 = None) as -> by (inversion H1; subst; congruence). reflexivity.
  Qed.

  (** *** Reading a character *)
  Lemma sym_first j c ths r : nth_error T j = Some c -> first (nv j) ths r -> first (tv (S j)) (flat_sym_exec check n ths c) r.
  Proof.
    intros Hc. induction 1 as [|[s b] ths r r' -> Hl IH]; [constructor|]. cbn [flat_sym_exec flat_map]. apply first_app; [|exact IH]. clear IH Hl.
    rewrite (nth_skipn _ _ _ Hc). cbn [fst snd gonow]. apply first_fun. induction (trans (get n s)) as [|[t a] l IH]; [reflexivity|]. cbn [firstr filter fst snd].
    destruct (check a c); [cbn [map firstr fst snd]; now rewrite IH|exact IH].
  Qed.
  (** *** The end of the text *)
  Lemma end_first ths r : first (nv (length T)) ths r -> r = option_map snd (find (fun th : nat * bounds => fst th + 1 =? length n) ths).
  Proof.
    induction 1 as [|[s b] ths r r' -> Hl IH]; [reflexivity|]. cbn [find fst snd] in *. rewrite skipn_all. cbn [gonow]. destruct (s + 1 =? length n); [reflexivity|exact IH].
  Qed.

  (** *** The epsilon step *)
  Variable tbl : list (list eprop).
  Hypothesis Htbl : flat_table n = Ok tbl.
  Lemma table_first j s b : s < length n -> entered n s -> first (pv_ j b) (nth s tbl []) (go check width T n (skipn j T) j s b).
  Proof using Hlen Htbl.
    intros Hs He. destruct (flat_table_nth n tbl s Hlen Htbl Hs He) as (l & El & ->). rewrite go_eq. unfold eprops. rewrite El.
    apply first_filter; [apply pv_det|now apply first_fun|].
    intros p Hp Hret. unfold pv_, goprop. destruct (liveb T j p); [|reflexivity]. unfold retained in Hret. destruct (trans (get n (ep_state p))) eqn:Et; [|discriminate].
    destruct (skipn j T); cbn [gonow]; [assert (X : (ep_state p + 1 =? length n) = false) by lia; now rewrite X|now rewrite Et].
  Qed.
  (** The successful propagations of a thread have the same flags. *)
  Definition uniform (j : nat) (b : bounds) (l : list eprop) : Prop :=
    exists fs fe, forall p x, In p l -> pv_ j b p (Some x) -> ep_start p = fs /\ ep_end p = fe.
  Lemma ordered_first j b l r : j <= length T -> uniform j b l -> first (pv_ j b) l r ->
    first (pv_ j b) (ordered (pos width T j =? 0) (pos width T j =? total_width width T) l) r.
  Proof using Hwidth.
    intros Hj (fs & fe & HU) HF. unfold ordered. rewrite at_start, at_end by assumption.
    assert (Hval : forall p, In p l -> exists rx, pv_ j b p rx).
    { intros p Hp. destruct (first_In _ _ _ _ HF Hp) as (rx & H & _). eauto. }
    assert (Hcl : forall g, (forall p, In p l -> g p = true -> ~ (ep_start p = fs /\ ep_end p = fe)) -> first (pv_ j b) (filter g l) None).
    { intros g Hg. apply first_none. intros p Hp. apply filter_In in Hp as [Hp Hgp]. destruct (Hval p Hp) as ([x|] & Hx); [|assumption].
      exfalso. apply (Hg p Hp Hgp). eapply HU; eauto. }
    assert (Hdead : forall g, (forall p, In p l -> g p = true -> ~ PFlat.live T j p) -> first (pv_ j b) (filter g l) None).
    { intros g Hg. apply first_none. intros p Hp. apply filter_In in Hp as [Hp Hgp]. apply pv_dead. auto. }
    assert (Hself : forall g, (forall p, In p l -> g p = false -> ~ (ep_start p = fs /\ ep_end p = fe)) -> first (pv_ j b) (filter g l) r).
    { intros g Hg. apply first_filter; [apply pv_det|exact HF|]. intros p Hp Hgp. destruct (Hval p Hp) as ([x|] & Hx); [|assumption].
      exfalso. apply (Hg p Hp Hgp). eapply HU; eauto. }
    assert (Hfst : forall g, (fs = true -> j <> 0) -> first (pv_ j b) (filter g l) r -> fs = true -> r = None).
    { intros g Hne Hg Efs. destruct r as [x|]; [|reflexivity]. exfalso. apply first_some in HF as (p & Hp & Hx). destruct (HU p x Hp Hx) as [E1 _].
      apply (Hne Efs). destruct (live_dec T j p) as [Hl|Hl]; [apply Hl; congruence|]. assert (Y := pv_dead j b p Hl). assert (Z := pv_det _ _ _ _ _ Hx Y). discriminate. }
    assert (Hfen : (fe = true -> j <> length T) -> fe = true -> r = None).
    { intros Hne Efs. destruct r as [x|]; [|reflexivity]. exfalso. apply first_some in HF as (p & Hp & Hx). destruct (HU p x Hp Hx) as [_ E1].
      apply (Hne Efs). destruct (live_dec T j p) as [Hl|Hl]; [apply Hl; congruence|]. assert (Y := pv_dead j b p Hl). assert (Z := pv_det _ _ _ _ _ Hx Y). discriminate. }
    assert (Hfst' : (fs = true -> j <> 0) -> fs = true -> r = None).
    { intros Hne Efs. destruct r as [x|]; [|reflexivity]. exfalso. apply first_some in HF as (p & Hp & Hx). destruct (HU p x Hp Hx) as [E1 _].
      apply (Hne Efs). destruct (live_dec T j p) as [Hl|Hl]; [apply Hl; congruence|]. assert (Y := pv_dead j b p Hl). assert (Z := pv_det _ _ _ _ _ Hx Y). discriminate. }
    clear Hfst.
    assert (J : forall l1 l2 l3 l4 r1 r2 r3 r4, first (pv_ j b) l1 r1 -> first (pv_ j b) l2 r2 ->
      first (pv_ j b) l3 r3 -> first (pv_ j b) l4 r4 -> orelse r1 (orelse r2 (orelse r3 r4)) = r ->
      first (pv_ j b) (l1 ++ l2 ++ l3 ++ l4) r).
    { intros l1 l2 l3 l4 r1 r2 r3 r4 F1 F2 F3 F4 <-. repeat apply first_app; assumption. }
    assert (N0 : first (pv_ j b) [] None) by constructor.
    set (g1 := fun p => ep_start p && ep_end p). set (g2 := fun p => ep_start p && negb (ep_end p)).
    set (g3 := fun p => negb (ep_start p) && ep_end p). set (g4 := fun p => negb (ep_start p) && negb (ep_end p)).
    assert (C1 : first (pv_ j b) (filter g1 l) (if fs && fe then r else None)).
    { destruct fs, fe; cbn [andb]; (apply Hself || apply Hcl); intros p _; unfold g1; destruct (ep_start p), (ep_end p); intuition discriminate. }
    assert (C2 : first (pv_ j b) (filter g2 l) (if fs && negb fe then r else None)).
    { destruct fs, fe; cbn [andb negb]; (apply Hself || apply Hcl); intros p _; unfold g2; destruct (ep_start p), (ep_end p); intuition discriminate. }
    assert (C3 : first (pv_ j b) (filter g3 l) (if negb fs && fe then r else None)).
    { destruct fs, fe; cbn [andb negb]; (apply Hself || apply Hcl); intros p _; unfold g3; destruct (ep_start p), (ep_end p); intuition discriminate. }
    assert (C4 : first (pv_ j b) (filter g4 l) (if negb fs && negb fe then r else None)).
    { destruct fs, fe; cbn [andb negb]; (apply Hself || apply Hcl); intros p _; unfold g4; destruct (ep_start p), (ep_end p); intuition discriminate. }
    destruct (Nat.eqb_spec j 0) as [E0|E0], (Nat.eqb_spec j (length T)) as [E1|E1]; cbn [andb].
    - eapply J; [exact C1|exact C2|exact C3|exact C4|]. destruct fs, fe; cbn; rewrite ?orelse_none; reflexivity.
    - eapply J; [exact N0|exact C2|exact N0|exact C4|]. destruct fe; [rewrite Hfen by auto|]; destruct fs; cbn; rewrite ?orelse_none; reflexivity.
    - eapply J; [exact N0|exact N0|exact C3|exact C4|]. destruct fs; [rewrite Hfst' by auto|]; destruct fe; cbn; rewrite ?orelse_none; reflexivity.
    - eapply J; [exact N0|exact N0|exact N0|exact C4|].
      destruct fs; [rewrite Hfst' by auto|]; destruct fe; cbn; rewrite ?orelse_none; try reflexivity. rewrite Hfen; auto.
  Qed.
  Lemma push_first j b ps : forall occ out ro v, first (pv_ j b) ps v -> first (nv j) out ro ->
    (forall p, In p ps -> PFlat.live T j p /\ ep_state p < length n) -> length occ = length n -> (forall t, marked occ t -> In t (map fst out)) ->
    let r := fold_left (flat_push (pos width T j) b) ps (occ, out) in
    first (nv j) (snd r) (orelse ro v) /\ length (fst r) = length n /\ (forall t, marked (fst r) t -> In t (map fst (snd r))).
  Proof.
    induction ps as [|p ps IH]; intros occ out ro v Hv Ho Hl Hoc Hm; cbn [fold_left]; cbn zeta.
    - inversion Hv; subst. rewrite orelse_none. auto.
    - inversion Hv as [|? ? r1 r2 H1 H2]; subst. destruct (Hl p (or_introl eq_refl)) as [Hlv Hs]. apply (pv_live _ _ _ _ Hlv) in H1.
      change (flat_push (pos width T j) b (occ, out) p) with
        (if nth (ep_state p) occ false then (occ, out) else (upd (ep_state p) true occ, out ++ [(ep_state p, apply_tags (pos width T j) (ep_tags p) b)])).
      rewrite <- orelse_assoc. destruct (nth (ep_state p) occ false) eqn:E.
      + assert (X : orelse ro r1 = ro).
        { apply Hm, in_map_iff in E as ([t b1] & E1 & E2). cbn in E1. subst t.
          destruct (first_In _ _ _ _ Ho E2) as (rx & -> & Hne). destruct ro as [y|]; [reflexivity|]. cbn [orelse]. rewrite H1. cbn [fst snd] in *.
          eapply gonow_bounds. destruct (gonow check width T n (skipn j T) j (ep_state p) b1) eqn:G; [exfalso; apply Hne; [discriminate|reflexivity]|exact G]. }
        rewrite X. apply IH; auto. intros; apply Hl; now right.
      + apply IH; auto.
        * apply first_app; [assumption|]. now apply first_one.
        * intros; apply Hl; now right.
        * now rewrite upd_length.
        * intros t Ht. rewrite map_app, in_app_iff. apply marked_upd in Ht as [[-> _]|Ht]; [right; now left|left; auto].
  Qed.
  Lemma eps_first j ths r : j <= length T -> first (tv j) ths r -> (forall th, In th ths -> fst th < length n /\ entered n (fst th) /\ uniform j (snd th) (nth (fst th) tbl [])) ->
    first (nv j) (flat_eps_exec n tbl (pos width T j) (total_width width T) ths) r.
  Proof using Hwidth Hwf Hlen Htbl.
    intros Hj HF Hths. unfold flat_eps_exec. set (F := fun acc th => _).
    assert (G : forall xs occ out ro v, (forall th, In th xs -> fst th < length n /\ entered n (fst th) /\ uniform j (snd th) (nth (fst th) tbl [])) ->
      first (tv j) xs v -> first (nv j) out ro -> length occ = length n -> (forall t, marked occ t -> In t (map fst out)) ->
      first (nv j) (snd (fold_left F xs (occ, out))) (orelse ro v)).
    { induction xs as [|[s b] xs IH]; intros occ out ro v Hx Hv Ho Hoc Hm; cbn [fold_left].
      - inversion Hv; subst. rewrite orelse_none. exact Ho.
      - inversion Hv as [|? ? r1 r2 Hev H2]; subst. unfold tv in Hev. cbn [fst snd] in *. destruct (Hx (s, b) (or_introl eq_refl)) as (Hs & He & Hu). cbn [fst snd] in *.
        set (ps := ordered (pos width T j =? 0) (pos width T j =? total_width width T) (nth s tbl [])).
        change (F (occ, out) (s, b)) with (fold_left (flat_push (pos width T j) b) ps (occ, out)).
        assert (Hps : first (pv_ j b) ps r1) by (apply ordered_first; auto; rewrite Hev; now apply table_first).
        destruct (push_first j b ps occ out ro _ Hps Ho) as (P1 & P2 & P3); auto.
        { intros p Hp. apply (ordered_In width Hwidth) in Hp as [Hp Hlv]; [|assumption]. split; [exact Hlv|].
          destruct (flat_table_nth n tbl s Hlen Htbl Hs He) as (l & El & E2). rewrite E2 in Hp. apply filter_In in Hp as [Hp _].
          destruct (eps_props_spec n Hwf s Hs) as (l' & El' & _ & Hl'). assert (l' = l) by congruence. subst l'.
          apply Hl' in Hp as (t & w & Hz & ->). cbn. clear - Hz Hwf Hs. induction Hz; [assumption|]. eapply wf_eps; eauto. }
        destruct (fold_left (flat_push (pos width T j) b) ps (occ, out)) as [occ1 out1]. cbn [fst snd] in *.
        rewrite <- orelse_assoc. apply IH; auto. intros; apply Hx; now right. }
    apply (G ths (repeat false (length n)) [] None r); auto.
    - constructor.
    - apply repeat_length.
    - intros t Ht. rewrite nth_repeat_false in Ht. discriminate.
  Qed.

  (** *** Threads come from the start *)
  Variables HS HE : bool.
  Hypothesis Huni : forall W, lang check n W -> reads T 0 W (length T) -> has EStart W = HS /\ has EEnd W = HE.
  Definition arrives (j s : nat) : Prop := exists u, path check n 0 u s /\ reads T 0 u j /\ (u = [] \/ exists u' c, u = u' ++ [IC c]).
  Lemma arrives_uniform j s b : j <= length T -> s < length n -> entered n s -> arrives j s -> uniform j b (nth s tbl []).
  Proof using Hwidth Hwf Hlen Htbl Huni.
    intros Hj Hs He (u & Hu & Hru & Hd). exists (if j =? 0 then HS else false), (if j =? length T then HE else false).
    intros p x Hp Hx. assert (Hlv : PFlat.live T j p) by (destruct (live_dec T j p) as [Hl|Hl]; [assumption|]; assert (Z := pv_det _ _ _ _ _ Hx (pv_dead j b p Hl)); discriminate).
    apply (pv_live _ _ _ _ Hlv) in Hx. unfold nv in Hx. symmetry in Hx. cbn [fst snd] in Hx.
    destruct (flat_table_nth n tbl s Hlen Htbl Hs He) as (l & El & E2). rewrite E2 in Hp. apply filter_In in Hp as [Hp _].
    destruct (eps_props_spec n Hwf s Hs) as (l' & El' & _ & Hl'). assert (l' = l) by congruence. subst l'.
    apply Hl' in Hp as (t & w & Hz & ->). assert (Hrw := proj1 (live_reads T n j s w t Hz Hj) Hlv). cbn [ep_state ep_of ep_start ep_end] in *.
    assert (Ht : t < length n) by (clear - Hz Hwf Hs; induction Hz; [assumption|eapply wf_eps; eauto]).
    destruct (gonow_sound check width T n Hwf _ j t _ x Hj eq_refl Ht Hx) as (v & Hev & _). assert (Hrest := now_rest T check n j t v Hev).
    destruct (zpath_rest T check n j s w t v Hz Hrw Hrest) as [Hp2 Hr2].
    destruct (Huni (u ++ w ++ v)) as [U1 U2]; [eapply path_app; eauto|apply reads_app; eauto|]. rewrite !has_app in U1, U2.
    assert (Hpos : forall u' c, u = u' ++ [IC c] -> 0 < j).
    { intros u' c ->. apply reads_app in Hru as (m & _ & H2). apply reads_char_inv in H2 as [_ H2]. apply reads_le in H2. lia. }
    assert (Vs : has EStart v = false).
    { destruct Hev as [(-> & _)|(t' & a & c & w' & -> & Hc & _ & _ & _ & Hr')]; [reflexivity|]. cbn [has existsb is_item].
      change (existsb (is_item EStart) w') with (has EStart w'). apply late_start in Hr'; [exact Hr'|lia]. }
    destruct Hlv as [L1 L2]. cbn [ep_start ep_end ep_of] in L1, L2. split.
    - destruct (Nat.eqb_spec j 0) as [->|Hj0].
      + destruct Hd as [->|(u' & c & E3)]; [|specialize (Hpos _ _ E3); lia]. cbn in U1. rewrite Vs, orb_false_r in U1. exact U1.
      + destruct (has EStart w); [|reflexivity]. specialize (L1 eq_refl). lia.
    - destruct (Nat.eqb_spec j (length T)) as [->|Hjl].
      + assert (Ue : has EEnd u = false) by (destruct Hd as [->|(u' & c & ->)]; [reflexivity|eapply early_end; eauto]).
        assert (Ve : v = []).
        { destruct Hev as [(-> & _)|(t' & a & c & w' & _ & Hc & _)]; [reflexivity|]. assert (length T < length T) by (apply nth_error_Some; congruence). lia. }
        subst v. rewrite Ue in U2. cbn in U2. rewrite orb_false_r in U2. exact U2.
      + destruct (has EEnd w); [|reflexivity]. specialize (L2 eq_refl). lia.
  Qed.

  Lemma loop_first text : forall j ths r, j <= length T -> skipn j T = text ->
    first (nv j) ths r -> (forall th, In th ths -> fst th < length n /\ exists u, path check n 0 u (fst th) /\ reads T 0 u j) ->
    option_map snd (find (fun th : nat * bounds => fst th + 1 =? length n) (flat_exec_loop check width n tbl (total_width width T) (pos width T j) ths text)) = r.
  Proof using Hwidth Hwf Hlen Hlast Htbl Huni.
    induction text as [|c text IH]; intros j ths r Hj Hs HF Hth; cbn [flat_exec_loop]; cbn zeta.
    - apply skipn_nil_ge in Hs; [|assumption]. subst j. symmetry. now apply end_first.
    - destruct (skipn_nth _ _ _ _ Hs) as [Hc Hs']. assert (Hj' : S j <= length T) by (apply nth_error_Some; congruence).
      rewrite <- (pos_S width T j c Hc). assert (HS1 := sym_first j c ths r Hc HF).
      assert (HT1 : forall th, In th (flat_sym_exec check n ths c) -> fst th < length n /\ entered n (fst th) /\ arrives (S j) (fst th)).
      { intros [t b] Hin. apply flat_sym_exec_In in Hin as (s & a & Hin & Ha & Hca). cbn [fst]. split; [eapply wf_trans; eauto|]. split; [right; eauto|].
        destruct (Hth _ Hin) as (_ & u & Hu & Hru). cbn [fst] in Hu. exists (u ++ [IC c]). split; [eapply path_app; [exact Hu|eapply path_sym1; eauto]|]. split; [|right; eauto].
        apply reads_app. exists j. split; [assumption|]. constructor; [assumption|]. constructor. lia. }
      assert (HE1 : first (nv (S j)) (flat_eps_exec n tbl (pos width T (S j)) (total_width width T) (flat_sym_exec check n ths c)) r).
      { apply eps_first; auto. intros th Hin. destruct (HT1 th Hin) as (X1 & X2 & X3). split; [assumption|]. split; [assumption|]. now apply arrives_uniform. }
      destruct (flat_table_spec n Hwf Hlen) as (tbl' & Et & Htl & Hts & Htc). assert (tbl' = tbl) by congruence. subst tbl'.
      destruct (flat_eps_exec_spec width Hwidth T n Hwf tbl Hts Htc (S j) (flat_sym_exec check n ths c) Hj') as [R1 _].
      { intros th Hin. destruct (HT1 th Hin) as (X1 & X2 & _). auto. }
      destruct (flat_eps_exec n tbl (pos width T (S j)) (total_width width T) (flat_sym_exec check n ths c)) as [|th0 out0] eqn:Eo.
      + cbn. now inversion HE1.
      + apply IH; auto. intros [t b] Hin. destruct (R1 t b Hin) as (Ht & s & b0 & w & Hsin & Hz & Hr & _). cbn [fst]. split; [assumption|].
        destruct (HT1 _ Hsin) as (_ & _ & u & Hu & Hru & _). cbn [fst] in Hu. exists (u ++ w). split; [eapply path_app; [exact Hu|eapply zpath_path; eauto]|].
        apply reads_app. eauto.
  Qed.
  (** The engine finds the first success. *)
  Theorem flat_go : flat_run_exec check width n tbl T = go check width T n T 0 0 (no_bounds (num_capture_groups n)).
  Proof using Hwidth Hwf Hlen Hlast Htbl Huni.
    unfold flat_run_exec. cbn zeta. set (b0 := no_bounds (num_capture_groups n)). change 0 with (pos width T 0) at 1.
    assert (A0 : arrives 0 0) by (exists []; split; [constructor|]; split; [constructor; lia|now left]).
    assert (HF : first (nv 0) (flat_eps_exec n tbl (pos width T 0) (total_width width T) [(0, b0)]) (go check width T n T 0 0 b0)).
    { apply eps_first; [lia|now apply first_one|]. intros th [<-|[]]. cbn [fst snd]. split; [lia|]. split; [now left|]. apply arrives_uniform; [lia|lia|now left|exact A0]. }
    destruct (flat_table_spec n Hwf Hlen) as (tbl' & Et & Htl & Hts & Htc). assert (tbl' = tbl) by congruence. subst tbl'.
    destruct (flat_eps_exec_spec width Hwidth T n Hwf tbl Hts Htc 0 [(0, b0)]) as [R1 _]; [lia| |].
    { intros th [<-|[]]. cbn. split; [lia|now left]. }
    rewrite (loop_first T 0 _ (go check width T n T 0 0 b0)); auto; [lia|].
    intros [t b] Hin. destruct (R1 t b Hin) as (Ht & s & b1 & w & [E|[]] & Hz & Hr & _). injection E as <- <-. cbn [fst]. split; [assumption|].
    exists w. split; [eapply zpath_path; eauto|assumption].
  Qed.
  Theorem flat_first r : ev_ (alts n 0) 0 r ->
    flat_run_exec check width n tbl T = option_map (fun W => run_marks width 0 W (no_bounds (num_capture_groups n))) r.
  Proof using Hwidth Hwf Hlen Hlast Htbl Huni. intros Hev. rewrite flat_go. now rewrite (ev_go T 0 0 _ r) by (auto; lia). Qed.
End Run.
