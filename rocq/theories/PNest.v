(** The passes of the groups of a match lie to each other as the groups do in the pattern. *)
From Verif Require Export SpecNest SpecCaret PStrip.
From Coq Require Import ZifyBool ZifyNat ZifyN.
Open Scope nat_scope.
Open Scope list_scope.

Lemma places_sub bs g : places_expr (XSub bs) g = places_ere bs (S g).
Proof.
  cbn [places_expr]. generalize (S g) as h. induction bs as [|b r IH]; intros h; [reflexivity|]. cbn [places_ere]. apply (f_equal2 (@app _)); [|apply IH].
  clear. generalize h. induction b as [|p r IH]; intros k; [reflexivity|]. cbn [places_branch]. apply (f_equal2 (@app _)); [reflexivity|apply IH].
Qed.
Lemma places_self p g : places_part p g = (g, p) :: match p with PSingle e | PQuant e _ => places_expr e g | PStart | PEnd => [] end.
Proof. now destruct p. Qed.
Lemma groups_sub bs : groups_expr (XSub bs) = S (groups bs).
Proof. reflexivity. Qed.
Lemma groups_cons b e : groups (b :: e) = groups_branch b + groups e.
Proof. reflexivity. Qed.
Lemma groups_bcons p b : groups_branch (p :: b) = groups_part p + groups_branch b.
Proof. reflexivity. Qed.
Lemma groups_app l r : groups (l ++ r) = groups l + groups r.
Proof. unfold groups. now rewrite map_app, list_sum_app. Qed.

(** Places lie within the numbers of the syntax they are in. *)
Lemma place_range :
  (forall p g k x, In (k, x) (places_part p g) -> g <= k /\ k + groups_part x <= g + groups_part p) /\
  (forall e g k x, In (k, x) (places_expr e g) -> g <= k /\ k + groups_part x <= g + groups_expr e /\ match e with XSub _ => g < k | _ => True end) /\
  (forall b g k x, In (k, x) (places_branch b g) -> g <= k /\ k + groups_part x <= g + groups_branch b) /\
  (forall e g k x, In (k, x) (places_ere e g) -> g <= k /\ k + groups_part x <= g + groups e).
Proof.
  apply syntax_ind.
  - intros e IH g k x. rewrite places_self. intros [E|Hi]; [injection E as <- <-; lia|]. destruct (IH g k x Hi) as (H1 & H2 & _). change (groups_part (PSingle e)) with (groups_expr e). lia.
  - intros e q IH g k x. rewrite places_self. intros [E|Hi]; [injection E as <- <-; lia|]. destruct (IH g k x Hi) as (H1 & H2 & _). change (groups_part (PQuant e q)) with (groups_expr e). lia.
  - intros g k x [E|[]]. injection E as <- <-. lia.
  - intros g k x [E|[]]. injection E as <- <-. lia.
  - intros a g k x [].
  - intros bs IH g k x. rewrite places_sub, groups_sub. intros Hi. destruct (IH (S g) k x Hi) as (H1 & H2). lia.
  - intros g k x [].
  - intros p b IHp IHb g k x. cbn [places_branch]. rewrite groups_bcons. intros Hi. apply in_app_or in Hi as [Hi|Hi]; [apply IHp in Hi|apply IHb in Hi]; lia.
  - intros g k x [].
  - intros b e IHb IHe g k x. cbn [places_ere]. rewrite groups_cons. intros Hi. apply in_app_or in Hi as [Hi|Hi]; [apply IHb in Hi|apply IHe in Hi]; lia.
Qed.
Lemma bears_range p g k bs : bears (places_part p g) k bs -> g <= k /\ k + S (groups bs) <= g + groups_part p.
Proof. intros [H|(q & H)]; apply (proj1 place_range) in H; exact H. Qed.
Lemma bears_range_b b g k bs : bears (places_branch b g) k bs -> g <= k /\ k + S (groups bs) <= g + groups_branch b.
Proof. intros [H|(q & H)]; apply (proj1 (proj2 (proj2 place_range))) in H; exact H. Qed.
Lemma bears_range_e e g k bs : bears (places_ere e g) k bs -> g <= k /\ k + S (groups bs) <= g + groups e.
Proof. intros [H|(q & H)]; apply (proj2 (proj2 (proj2 place_range))) in H; exact H. Qed.
Lemma bears_range_x e g k bs : bears (places_expr e g) k bs -> g <= k /\ k + S (groups bs) <= g + groups_expr e.
Proof. intros [H|(q & H)]; apply (proj1 (proj2 place_range)) in H; destruct H as (H1 & H2 & _); auto. Qed.
Lemma bears_app ps ps' k bs : bears (ps ++ ps') k bs <-> bears ps k bs \/ bears ps' k bs.
Proof. unfold bears. rewrite in_app_iff. split; [intros [[H|H]|(q & H)]|intros [[H|(q & H)]|[H|(q & H)]]]; eauto. 2-3: right; exists q; apply in_or_app; auto. apply in_app_or in H as [H|H]; eauto. Qed.
Lemma looped_incl ps ps' k k' : incl ps ps' -> looped ps k k' -> looped ps' k k'.
Proof. intros H (g & x & q & n & H1 & H2). exists g, x, q, n. split; [now apply H|assumption]. Qed.
Lemma bears_incl ps ps' k bs : incl ps ps' -> bears ps k bs -> bears ps' k bs.
Proof. intros H [H1|(q & H1)]; [left|right; exists q]; now apply H. Qed.

(** Fact 1: where passes are. *)
Definition ranged (lo n i j : nat) (L : log) : Prop := i <= j /\ forall k a b, In (k, (a, b)) L -> lo <= k < lo + n /\ i <= a /\ a <= b /\ b <= j.
Lemma ranged_app lo n m i j k L1 L2 : ranged lo n i j L1 -> ranged (lo + n) m j k L2 -> ranged lo (n + m) i k (L1 ++ L2).
Proof. intros [H1 H2] [H3 H4]. split; [lia|]. intros x a b Hi. apply in_app_or in Hi as [Hi|Hi]; [apply H2 in Hi|apply H4 in Hi]; lia. Qed.

Section Nest.
  Variable T : list N.
  Variable P : nat -> Prop.

  Lemma pass_range :
    (forall p g i j L, a_part T P p g i j L -> ranged g (groups_part p) i j L) /\
    (forall e n g i j L, a_iter T P e n g i j L -> ranged g (groups_expr e) i j L) /\
    (forall e g i j L, a_expr T P e g i j L -> ranged g (groups_expr e) i j L) /\
    (forall e g i j L, a_alts T P e g i j L -> ranged g (groups e) i j L) /\
    (forall b g i j L, a_branch T P b g i j L -> ranged g (groups_branch b) i j L).
  Proof.
    apply at_ind.
    - intros e g i j L _ IH. exact IH.
    - intros e q n g i j L _ _ IH. exact IH.
    - intros g i _ _. split; [lia|]. intros k a b [].
    - intros g. split; [lia|]. intros k a b [].
    - intros e g i _. split; [lia|]. intros k a b [].
    - intros e n g i j k L1 L2 _ [H1 H2] _ [H3 H4]. split; [lia|]. intros x a b Hi. apply in_app_or in Hi as [Hi|Hi]; [apply H2 in Hi|apply H4 in Hi]; lia.
    - intros a g i c _ _. split; [lia|]. intros k x y [].
    - intros bs g i j L _ [H1 H2]. split; [lia|]. rewrite groups_sub. intros k a b Hi. apply in_app_or in Hi as [Hi|[E|[]]]; [apply H2 in Hi; lia|]. injection E as <- <- <-. lia.
    - intros b bs g i j L _ [H1 H2]. split; [lia|]. rewrite groups_cons. intros k x y Hi. apply H2 in Hi. lia.
    - intros b bs g i j L _ [H1 H2]. split; [lia|]. rewrite groups_cons. intros k x y Hi. apply H2 in Hi. lia.
    - intros g i _. split; [lia|]. intros k a b [].
    - intros p b g i j k L1 L2 _ H1 _ H2. rewrite groups_bcons. eapply ranged_app; eauto.
  Qed.
  Definition rg_part := proj1 pass_range.
  Definition rg_iter := proj1 (proj2 pass_range).
  Definition rg_expr := proj1 (proj2 (proj2 pass_range)).
  Definition rg_alts := proj1 (proj2 (proj2 (proj2 pass_range))).
  Definition rg_branch := proj2 (proj2 (proj2 (proj2 pass_range))).

  (** Fact 2: the pass that counts is not before any other. *)
  Definition latest (L : log) : Prop := forall k a b, In (k, (a, b)) L -> exists a' b', last_of k L = Some (a', b') /\ a <= a' /\ b <= b'.
  Lemma last_cat k L1 L2 : last_of k (L1 ++ L2) = match last_of k L2 with Some x => Some x | None => last_of k L1 end.
  Proof. induction L1 as [|[h s] L1 IH]; cbn [app last_of]; [now destruct (last_of k L2)|]. rewrite IH. now destruct (last_of k L2). Qed.
  Lemma last_member k L s : last_of k L = Some s -> In (k, s) L.
  Proof. induction L as [|[h x] L IH]; cbn [last_of]; [intros E; discriminate E|]. destruct (last_of k L) as [y|]; intros E; [right; auto|]. destruct (Nat.eqb_spec h k) as [->|]; [|discriminate E]. injection E as ->. now left. Qed.
  Lemma latest_app L1 L2 i j k : (forall h a b, In (h, (a, b)) L1 -> i <= a /\ a <= b /\ b <= j) -> (forall h a b, In (h, (a, b)) L2 -> j <= a /\ a <= b /\ b <= k) -> latest L1 -> latest L2 -> latest (L1 ++ L2).
  Proof.
    intros R1 R2 H1 H2 h a b Hi. rewrite last_cat. apply in_app_or in Hi as [Hi|Hi].
    - destruct (last_of h L2) as [[a' b']|] eqn:E; [|now apply H1]. exists a', b'. split; [reflexivity|]. apply last_member in E. apply R1 in Hi. apply R2 in E. lia.
    - destruct (H2 h a b Hi) as (a' & b' & E & Hl). rewrite E. eauto.
  Qed.
  Lemma pass_latest :
    (forall p g i j L, a_part T P p g i j L -> latest L) /\
    (forall e n g i j L, a_iter T P e n g i j L -> latest L) /\
    (forall e g i j L, a_expr T P e g i j L -> latest L) /\
    (forall e g i j L, a_alts T P e g i j L -> latest L) /\
    (forall b g i j L, a_branch T P b g i j L -> latest L).
  Proof.
    apply at_ind; try (intros; intros k' a' b' []); try (intros; assumption).
    - intros e n g i j k L1 L2 H1 IH1 H2 IH2. apply (latest_app L1 L2 i j k); auto; intros h a b Hi; [apply (rg_expr _ _ _ _ _ H1) in Hi|apply (rg_iter _ _ _ _ _ _ H2) in Hi]; lia.
    - intros bs g i j L H IH k a b Hi. rewrite last_cat. cbn [last_of]. apply in_app_or in Hi as [Hi|[E|[]]].
      + assert (Hr := proj2 (rg_alts _ _ _ _ _ H) _ _ _ Hi). destruct (Nat.eqb_spec g k) as [->|]; [lia|]. now apply IH.
      + injection E as <- <- <-. rewrite Nat.eqb_refl. eauto.
    - intros p b g i j k L1 L2 H1 IH1 H2 IH2. apply (latest_app L1 L2 i j k); auto; intros h a b' Hi; [apply (rg_part _ _ _ _ _ H1) in Hi|apply (rg_branch _ _ _ _ _ H2) in Hi]; lia.
  Qed.

  (** Fact 3: every pass of a group is in a pass of each group around it. *)
  Definition nested_in (ps : list (nat * part)) (L : log) : Prop :=
    forall k bs k' a' b', bears ps k bs -> k < k' <= k + groups bs -> In (k', (a', b')) L -> exists a b, In (k, (a, b)) L /\ a <= a' /\ b' <= b.
  Lemma nested_or ps L M : nested_in ps L -> (forall k bs k' s, bears ps k bs -> k < k' <= k + groups bs -> ~ In (k', s) M) -> forall k bs k' a' b', bears ps k bs -> k < k' <= k + groups bs -> In (k', (a', b')) (L ++ M) ->
    exists a b, In (k, (a, b)) (L ++ M) /\ a <= a' /\ b' <= b.
  Proof.
    intros H HM k bs k' a' b' Hh Hk Hi. apply in_app_or in Hi as [Hi|Hi]; [|now apply (HM _ _ _ _ Hh Hk) in Hi]. destruct (H k bs k' a' b' Hh Hk Hi) as (a & b & Hi' & Hl). exists a, b. split; [apply in_or_app; now left|assumption].
  Qed.
  Lemma pass_nested :
    (forall p g i j L, a_part T P p g i j L -> nested_in (places_part p g) L) /\
    (forall e n g i j L, a_iter T P e n g i j L -> nested_in (places_expr e g) L /\ forall q, nested_in ((g, PQuant e q) :: places_expr e g) L) /\
    (forall e g i j L, a_expr T P e g i j L -> nested_in (places_expr e g) L /\ forall p, p = PSingle e \/ (exists q, p = PQuant e q) -> nested_in ((g, p) :: places_expr e g) L) /\
    (forall e g i j L, a_alts T P e g i j L -> nested_in (places_ere e g) L) /\
    (forall b g i j L, a_branch T P b g i j L -> nested_in (places_branch b g) L).
  Proof.
    apply at_ind.
    - intros e g i j L _ [_ IH]. rewrite places_self. apply IH. now left.
    - intros e q n g i j L _ _ [_ IH]. rewrite places_self. apply IH.
    - intros g i _ _ k bs k' a' b' _ _ [].
    - intros g k bs k' a' b' _ _ [].
    - intros e g i _. split; [|intros q]; intros k bs k' a' b' _ _ [].
    - intros e n g i j k L1 L2 _ [A1 B1] _ [A2 B2]. split; [|intros q]; intros h bs k' a' b' Hh Hk Hi; apply in_app_or in Hi as [Hi|Hi];
        [destruct (A1 h bs k' a' b' Hh Hk Hi) as (a & b & Hi' & Hl)|destruct (A2 h bs k' a' b' Hh Hk Hi) as (a & b & Hi' & Hl)
        |destruct (B1 (PQuant e q) ltac:(eauto) h bs k' a' b' Hh Hk Hi) as (a & b & Hi' & Hl)|destruct (B2 q h bs k' a' b' Hh Hk Hi) as (a & b & Hi' & Hl)];
        exists a, b; (split; [apply in_or_app; auto|assumption]).
    - intros a g i c _ _. split; [|intros p _]; intros k bs k' a' b' _ _ [].
    - intros bs g i j L H IH. assert (Hr := proj2 (rg_alts _ _ _ _ _ H)).
      assert (A : nested_in (places_expr (XSub bs) g) (L ++ [(g, (i, j))])).
      { rewrite places_sub. intros k cs k' a' b' Hh Hk Hi. apply in_app_or in Hi as [Hi|[E|[]]].
        - destruct (IH k cs k' a' b' Hh Hk Hi) as (a & b & Hi' & Hl). exists a, b. split; [apply in_or_app; now left|assumption].
        - injection E as <- _ _. apply bears_range_e in Hh. lia. }
      split; [exact A|]. intros p Hp k cs k' a' b' Hh Hk Hi.
      assert (D : k = g \/ bears (places_expr (XSub bs) g) k cs).
      { destruct Hh as [[E|Hh]|(q & [E|Hh])]; try (injection E as E _; auto); right; [now left|right; eauto]. }
      destruct D as [->|D]; [|now apply (A k cs k' a' b')]. exists i, j. split; [apply in_or_app; right; now left|].
      apply in_app_or in Hi as [Hi|[E|[]]]; [apply Hr in Hi; lia|]. injection E as <- <- <-. lia.
    - intros b bs g i j L H IH. assert (Hr := proj2 (rg_branch _ _ _ _ _ H)). cbn [places_ere]. intros k cs k' a' b' Hh Hk Hi. apply bears_app in Hh as [Hh|Hh]; [now apply (IH k cs k' a' b')|].
      apply bears_range_e in Hh. apply Hr in Hi. lia.
    - intros b bs g i j L H IH. assert (Hr := proj2 (rg_alts _ _ _ _ _ H)). cbn [places_ere]. intros k cs k' a' b' Hh Hk Hi. apply bears_app in Hh as [Hh|Hh]; [|now apply (IH k cs k' a' b')].
      apply bears_range_b in Hh. apply Hr in Hi. lia.
    - intros g i _ k bs k' a' b' _ _ [].
    - intros p b g i j k L1 L2 H1 IH1 H2 IH2. assert (R1 := proj2 (rg_part _ _ _ _ _ H1)). assert (R2 := proj2 (rg_branch _ _ _ _ _ H2)). cbn [places_branch].
      intros h cs k' a' b' Hh Hk Hi. apply bears_app in Hh as [Hh|Hh].
      + assert (Hx := bears_range _ _ _ _ Hh). apply in_app_or in Hi as [Hi|Hi]; [|apply R2 in Hi; lia]. destruct (IH1 h cs k' a' b' Hh Hk Hi) as (x & y & Hi' & Hl). exists x, y. split; [apply in_or_app; now left|assumption].
      + assert (Hx := bears_range_b _ _ _ _ Hh). apply in_app_or in Hi as [Hi|Hi]; [apply R1 in Hi; lia|]. destruct (IH2 h cs k' a' b' Hh Hk Hi) as (x & y & Hi' & Hl). exists x, y. split; [apply in_or_app; now right|assumption].
  Qed.

  (** Fact 4: passes of groups that are not repeated together. *)
  Definition ordered_in (ps : list (nat * part)) (L : log) : Prop :=
    forall k k' a b a' b', k <= k' -> ~ looped ps k k' -> In (k, (a, b)) L -> In (k', (a', b')) L ->
      (k = k' /\ a = a' /\ b = b') \/ (k < k' /\ (b <= a' \/ exists bs, bears ps k bs /\ k' <= k + groups bs)).
  Lemma order_incl ps ps' L : incl ps ps' -> ordered_in ps L -> ordered_in ps' L.
  Proof.
    intros Hs H k k' a b a' b' Hk Hl H1 H2. destruct (H k k' a b a' b' Hk) as [R|(R1 & [R|(bs & R & R2)])]; auto.
    - intros Hx. apply Hl. revert Hx. now apply looped_incl.
    - right. split; [assumption|]. right. exists bs. split; [now apply (bears_incl ps)|assumption].
  Qed.
  Lemma pass_order :
    (forall p g i j L, a_part T P p g i j L -> ordered_in (places_part p g) L) /\
    (forall e n g i j L, a_iter T P e n g i j L -> n <= 1 -> forall p, p = PSingle e \/ (exists q, p = PQuant e q) -> ordered_in ((g, p) :: places_expr e g) L) /\
    (forall e g i j L, a_expr T P e g i j L -> forall p, p = PSingle e \/ (exists q, p = PQuant e q) -> ordered_in ((g, p) :: places_expr e g) L) /\
    (forall e g i j L, a_alts T P e g i j L -> ordered_in (places_ere e g) L) /\
    (forall b g i j L, a_branch T P b g i j L -> ordered_in (places_branch b g) L).
  Proof.
    apply at_ind.
    - intros e g i j L _ IH. rewrite places_self. apply IH. now left.
    - intros e q n g i j L Hq H IH. rewrite places_self. destruct (Nat.le_gt_cases n 1) as [Hn|Hn]; [apply IH; eauto|].
      intros k k' a b a' b' Hk Hl H1 H2. exfalso. apply Hl. apply (proj2 (rg_iter _ _ _ _ _ _ H)) in H1, H2. exists g, e, q, n. split; [now left|]. split; [assumption|]. lia.
    - intros g i _ _ k k' a b a' b' _ _ [].
    - intros g k k' a b a' b' _ _ [].
    - intros e g i _ _ p _ k k' a b a' b' _ _ [].
    - intros e n g i j k L1 L2 _ IH1 H2 _ Hn p Hp. assert (E : L2 = []). { destruct n; [|lia]. inversion H2; reflexivity. } rewrite E, app_nil_r. now apply IH1.
    - intros a g i c _ _ p _ k k' x y x' y' _ _ [].
    - intros bs g i j L H IH p Hp k k' a b a' b' Hk Hl H1 H2. assert (Hr := proj2 (rg_alts _ _ _ _ _ H)). rewrite places_sub in *.
      assert (Hh : bears ((g, p) :: places_ere bs (S g)) g bs) by (destruct Hp as [->|(q & ->)]; [left; now left|right; exists q; now left]).
      apply in_app_or in H1 as [H1|[E1|[]]]; apply in_app_or in H2 as [H2|[E2|[]]].
      + apply (order_incl (places_ere bs (S g)) _ L (incl_tl _ (incl_refl _)) IH k k' a b a' b'); auto.
      + injection E2 as <- <- <-. apply Hr in H1. lia.
      + injection E1 as <- <- <-. apply Hr in H2. right. split; [lia|]. right. exists bs. split; [assumption|lia].
      + injection E1 as <- <- <-. injection E2 as <- <- <-. left. auto.
    - intros b bs g i j L _ IH. cbn [places_ere]. apply (order_incl (places_branch b g)); [apply incl_appl, incl_refl|assumption].
    - intros b bs g i j L _ IH. cbn [places_ere]. apply (order_incl (places_ere bs (g + groups_branch b))); [apply incl_appr, incl_refl|assumption].
    - intros g i _ k k' a b a' b' _ _ [].
    - intros p b g i j k L1 L2 H1 IH1 H2 IH2 h h' x y x' y' Hk Hl I1 I2. assert (R1 := proj2 (rg_part _ _ _ _ _ H1)). assert (R2 := proj2 (rg_branch _ _ _ _ _ H2)). cbn [places_branch] in *.
      apply in_app_or in I1 as [I1|I1]; apply in_app_or in I2 as [I2|I2].
      + apply (order_incl (places_part p g) _ L1 (incl_appl _ (incl_refl _)) IH1 h h' x y x' y'); auto.
      + apply R1 in I1. apply R2 in I2. right. split; [lia|]. left. lia.
      + apply R2 in I1. apply R1 in I2. lia.
      + apply (order_incl (places_branch b (g + groups_part p)) _ L2 (incl_appr _ (incl_refl _)) IH2 h h' x y x' y'); auto.
  Qed.

  (** Fact 5: alternatives. *)
  Lemma alts_rival e g i j L : a_alts T P e g i j L -> forall l b r k k' s s', e = l ++ b :: r -> g + groups l <= k < g + groups l + groups_branch b ->
    g + groups l + groups_branch b <= k' -> In (k, s) L -> In (k', s') L -> False.
  Proof.
    intros H. induction e as [|b0 bs IH] in g, H |- *; [inversion H|]. intros l b r k k' [x y] [x' y'] E Hk Hk' I1 I2. inversion H as [? ? ? ? ? ? Hb|? ? ? ? ? ? Hb]; subst.
    - assert (R := proj2 (rg_branch _ _ _ _ _ Hb)). apply R in I1, I2. destruct l as [|c l]; cbn [app] in E; injection E as -> ->; change (groups []) with 0 in *; rewrite ?groups_cons in *; lia.
    - destruct l as [|c l]; cbn [app] in E; injection E as -> ->.
      + assert (R := proj2 (rg_alts _ _ _ _ _ Hb)). apply R in I1. change (groups []) with 0 in *. lia.
      + rewrite groups_cons in *. apply (IH _ Hb l b r k k' (x, y) (x', y')); auto; lia.
  Qed.
  Definition unrivalled (ps : list (nat * part)) (L : log) : Prop :=
    forall h l b r k k' s s', bears ps h (l ++ b :: r) -> S h + groups l <= k < S h + groups l + groups_branch b -> S h + groups l + groups_branch b <= k' < S h + groups l + groups_branch b + groups r ->
      ~ looped ps k k' -> In (k, s) L -> In (k', s') L -> False.
  Lemma rival_top l b r : groups (l ++ b :: r) = groups l + groups_branch b + groups r.
  Proof. rewrite groups_app, groups_cons. lia. Qed.
  Lemma pass_rival :
    (forall p g i j L, a_part T P p g i j L -> unrivalled (places_part p g) L) /\
    (forall e n g i j L, a_iter T P e n g i j L -> n <= 1 -> forall p, p = PSingle e \/ (exists q, p = PQuant e q) -> unrivalled ((g, p) :: places_expr e g) L) /\
    (forall e g i j L, a_expr T P e g i j L -> forall p, p = PSingle e \/ (exists q, p = PQuant e q) -> unrivalled ((g, p) :: places_expr e g) L) /\
    (forall e g i j L, a_alts T P e g i j L -> unrivalled (places_ere e g) L) /\
    (forall b g i j L, a_branch T P b g i j L -> unrivalled (places_branch b g) L).
  Proof.
    apply at_ind.
    - intros e g i j L _ IH. rewrite places_self. apply IH. now left.
    - intros e q n g i j L Hq H IH. rewrite places_self. destruct (Nat.le_gt_cases n 1) as [Hn|Hn]; [apply IH; eauto|].
      intros h l b r k k' [a a'] [c c'] _ _ _ Hl H1 H2. apply Hl. apply (proj2 (rg_iter _ _ _ _ _ _ H)) in H1, H2. exists g, e, q, n. split; [now left|]. split; [assumption|]. lia.
    - intros g i _ _ h l b r k k' s s' _ _ _ _ [].
    - intros g h l b r k k' s s' _ _ _ _ [].
    - intros e g i _ _ p _ h l b r k k' s s' _ _ _ _ [].
    - intros e n g i j k L1 L2 _ IH1 H2 _ Hn p Hp. assert (E : L2 = []). { destruct n; [|lia]. inversion H2; reflexivity. } rewrite E, app_nil_r. now apply IH1.
    - intros a g i c _ _ p _ h l b r k k' s s' _ _ _ _ [].
    - intros bs g i j L H IH p Hp h l b r k k' s s' Hh Hk Hk' Hl H1 H2. rewrite places_sub in *.
      assert (D : (h = g /\ bs = l ++ b :: r) \/ bears (places_ere bs (S g)) h (l ++ b :: r)).
      { destruct Hh as [[E|Hh]|(q & [E|Hh])]; try (right; [now left|right; eauto]).
        - injection E as E1 E2. left. split; [auto|]. destruct Hp as [->|(q & ->)]; [now injection E2|discriminate E2].
        - right. now left.
        - injection E as E1 E2. left. split; [auto|]. destruct Hp as [->|(q' & ->)]; [discriminate E2|now injection E2].
        - right. right. eauto. }
      assert (S1 : h = g \/ g < h) by (destruct D as [[-> _]|D]; [auto|apply bears_range_e in D; lia]).
      apply in_app_or in H1 as [H1|[E1|[]]]; [|injection E1 as <- _; lia]. apply in_app_or in H2 as [H2|[E2|[]]]; [|injection E2 as <- _; lia].
      destruct D as [[-> ->]|D]; [apply (alts_rival _ _ _ _ _ H l b r k k' s s'); auto; lia|]. apply (IH h l b r k k' s s'); auto. intros Hx. apply Hl. revert Hx. apply looped_incl, incl_tl, incl_refl.
    - intros b bs g i j L H IH h l c r k k' [x y] [x' y'] Hh Hk Hk' Hl H1 H2. cbn [places_ere] in *. assert (R := proj2 (rg_branch _ _ _ _ _ H)). assert (Y1 := R _ _ _ H1). assert (Y2 := R _ _ _ H2). apply bears_app in Hh as [Hh|Hh].
      + apply (IH h l c r k k' (x, y) (x', y')); auto. intros Hx. apply Hl. revert Hx. apply looped_incl, incl_appl, incl_refl.
      + apply bears_range_e in Hh. lia.
    - intros b bs g i j L H IH h l c r k k' [x y] [x' y'] Hh Hk Hk' Hl H1 H2. cbn [places_ere] in *. assert (R := proj2 (rg_alts _ _ _ _ _ H)). assert (Y1 := R _ _ _ H1). assert (Y2 := R _ _ _ H2). apply bears_app in Hh as [Hh|Hh].
      + apply bears_range_b in Hh. rewrite rival_top in Hh. lia.
      + apply (IH h l c r k k' (x, y) (x', y')); auto. intros Hx. apply Hl. revert Hx. apply looped_incl, incl_appr, incl_refl.
    - intros g i _ h l b r k k' s s' _ _ _ _ [].
    - intros p b g i j m L1 L2 H1 IH1 H2 IH2 h l c r k k' [x y] [x' y'] Hh Hk Hk' Hl I1 I2. assert (R1 := proj2 (rg_part _ _ _ _ _ H1)). assert (R2 := proj2 (rg_branch _ _ _ _ _ H2)). cbn [places_branch] in *.
      apply bears_app in Hh as [Hh|Hh].
      + assert (X := bears_range _ _ _ _ Hh). rewrite rival_top in X. apply in_app_or in I1 as [I1|I1]; [|apply R2 in I1; lia]. apply in_app_or in I2 as [I2|I2]; [|apply R2 in I2; lia].
        apply (IH1 h l c r k k' (x, y) (x', y')); auto. intros Hx. apply Hl. revert Hx. apply looped_incl, incl_appl, incl_refl.
      + assert (X := bears_range_b _ _ _ _ Hh). apply in_app_or in I1 as [I1|I1]; [apply R1 in I1; lia|]. apply in_app_or in I2 as [I2|I2]; [apply R1 in I2; lia|].
        apply (IH2 h l c r k k' (x, y) (x', y')); auto. intros Hx. apply Hl. revert Hx. apply looped_incl, incl_appr, incl_refl.
  Qed.

  (** Fact 6: groups that always take part. *)
  Lemma iter_first e n g i j L : a_iter T P e (S n) g i j L -> exists m L1 L2, a_expr T P e g i m L1 /\ L = L1 ++ L2.
  Proof. intros H. inversion H; subst; eauto. Qed.
  Scheme always_part_i := Induction for always_part Sort Prop with always_branch_i := Induction for always_branch Sort Prop.
  Combined Scheme always_ind from always_part_i, always_branch_i.
  Lemma always_taken :
    (forall p g k, always_part p g k -> forall i j L, a_part T P p g i j L -> exists s, In (k, s) L) /\
    (forall b g k, always_branch b g k -> forall i j L, a_branch T P b g i j L -> exists s, In (k, s) L).
  Proof.
    apply always_ind.
    - intros bs g i j L H. inversion H as [? ? ? ? ? He| | |]; subst. inversion He as [|? ? ? ? L' Ha]; subst. exists (i, j). apply in_or_app. right. now left.
    - intros b g k _ IH i j L H. inversion H as [? ? ? ? ? He| | |]; subst. inversion He as [|? ? ? ? L' Ha]; subst. inversion Ha as [? ? ? ? ? ? Hb|? ? ? ? ? ? Hb]; subst; [|inversion Hb].
      destruct (IH _ _ _ Hb) as (s & Hs). exists s. apply in_or_app. now left.
    - intros x q g k Hq _ IH i j L H. inversion H as [|? ? n ? ? ? ? Hn Hi| |]; subst. destruct n as [|n]; [contradiction|]. destruct (iter_first _ _ _ _ _ _ Hi) as (m & L1 & L2 & He & ->).
      destruct (IH i m L1 (ap_single T P _ _ _ _ _ He)) as (s & Hs). exists s. apply in_or_app. now left.
    - intros p b g k _ IH i j L H. inversion H as [|? ? ? ? m ? L1 L2 Hp Hb]; subst. destruct (IH _ _ _ Hp) as (s & Hs). exists s. apply in_or_app. now left.
    - intros p b g k _ IH i j L H. inversion H as [|? ? ? ? m ? L1 L2 Hp Hb]; subst. destruct (IH _ _ _ Hb) as (s & Hs). exists s. apply in_or_app. now right.
  Qed.
  Definition bound_in (ps : list (nat * part)) (L : log) : Prop :=
    forall k b k' x y, bears ps k [b] -> always_branch b (S k) k' -> In (k, (x, y)) L -> exists x' y', In (k', (x', y')) L /\ x <= x' /\ y' <= y.
  Lemma always_alts b g k i j L : always_branch b g k -> a_alts T P [b] g i j L -> exists x y, In (k, (x, y)) L /\ i <= x /\ y <= j.
  Proof.
    intros Ha H. assert (R := proj2 (rg_alts _ _ _ _ _ H)). inversion H as [? ? ? ? ? ? Hb|? ? ? ? ? ? Hb]; subst; [|inversion Hb]. destruct (proj2 always_taken _ _ _ Ha _ _ _ Hb) as ([x y] & Hs).
    exists x, y. split; [assumption|]. apply R in Hs. lia.
  Qed.
  Lemma pass_bound :
    (forall p g i j L, a_part T P p g i j L -> bound_in (places_part p g) L) /\
    (forall e n g i j L, a_iter T P e n g i j L -> forall p, p = PSingle e \/ (exists q, p = PQuant e q) -> bound_in ((g, p) :: places_expr e g) L) /\
    (forall e g i j L, a_expr T P e g i j L -> forall p, p = PSingle e \/ (exists q, p = PQuant e q) -> bound_in ((g, p) :: places_expr e g) L) /\
    (forall e g i j L, a_alts T P e g i j L -> bound_in (places_ere e g) L) /\
    (forall b g i j L, a_branch T P b g i j L -> bound_in (places_branch b g) L).
  Proof.
    apply at_ind.
    - intros e g i j L _ IH. rewrite places_self. apply IH. now left.
    - intros e q n g i j L _ _ IH. rewrite places_self. apply IH. eauto.
    - intros g i _ _ k b k' x y _ _ [].
    - intros g k b k' x y _ _ [].
    - intros e g i _ p _ k b k' x y _ _ [].
    - intros e n g i j k L1 L2 _ IH1 _ IH2 p Hp h b k' x y Hh Ha Hi. apply in_app_or in Hi as [Hi|Hi]; [destruct (IH1 p Hp h b k' x y Hh Ha Hi) as (x' & y' & Hi' & Hl)|destruct (IH2 p Hp h b k' x y Hh Ha Hi) as (x' & y' & Hi' & Hl)];
        exists x', y'; (split; [apply in_or_app; auto|assumption]).
    - intros a g i c _ _ p _ k b k' x y _ _ [].
    - intros bs g i j L H IH p Hp k b k' x y Hh Ha Hi. assert (Hr := proj2 (rg_alts _ _ _ _ _ H)). rewrite places_sub in *.
      assert (D : (k = g /\ bs = [b]) \/ bears (places_ere bs (S g)) k [b]).
      { destruct Hh as [[E|Hh]|(q & [E|Hh])].
        - injection E as E1 E2. left. split; [auto|]. destruct Hp as [->|(q & ->)]; [now injection E2|discriminate E2].
        - right. now left.
        - injection E as E1 E2. left. split; [auto|]. destruct Hp as [->|(q' & ->)]; [discriminate E2|now injection E2].
        - right. right. eauto. }
      destruct D as [[-> ->]|D].
      + apply in_app_or in Hi as [Hi|[E|[]]]; [apply Hr in Hi; lia|]. injection E as <- <-. destruct (always_alts _ _ _ _ _ _ Ha H) as (x' & y' & Hs & Hl). exists x', y'. split; [apply in_or_app; now left|assumption].
      + assert (X := bears_range_e _ _ _ _ D). apply in_app_or in Hi as [Hi|[E|[]]]; [|injection E as <- _ _; lia]. destruct (IH k b k' x y D Ha Hi) as (x' & y' & Hs & Hl). exists x', y'. split; [apply in_or_app; now left|assumption].
    - intros b bs g i j L H IH k c k' x y Hh Ha Hi. assert (Hr := proj2 (rg_branch _ _ _ _ _ H)). cbn [places_ere] in Hh. apply bears_app in Hh as [Hh|Hh]; [now apply (IH k c k' x y)|]. apply bears_range_e in Hh. apply Hr in Hi. lia.
    - intros b bs g i j L H IH k c k' x y Hh Ha Hi. assert (Hr := proj2 (rg_alts _ _ _ _ _ H)). cbn [places_ere] in Hh. apply bears_app in Hh as [Hh|Hh]; [|now apply (IH k c k' x y)]. apply bears_range_b in Hh. apply Hr in Hi. lia.
    - intros g i _ k b k' x y _ _ [].
    - intros p b g i j m L1 L2 H1 IH1 H2 IH2 k c k' x y Hh Ha Hi. assert (R1 := proj2 (rg_part _ _ _ _ _ H1)). assert (R2 := proj2 (rg_branch _ _ _ _ _ H2)). cbn [places_branch] in Hh.
      apply bears_app in Hh as [Hh|Hh].
      + assert (X := bears_range _ _ _ _ Hh). apply in_app_or in Hi as [Hi|Hi]; [|apply R2 in Hi; lia]. destruct (IH1 k c k' x y Hh Ha Hi) as (x' & y' & Hi' & Hl). exists x', y'. split; [apply in_or_app; now left|assumption].
      + assert (X := bears_range_b _ _ _ _ Hh). apply in_app_or in Hi as [Hi|Hi]; [apply R1 in Hi; lia|]. destruct (IH2 k c k' x y Hh Ha Hi) as (x' & y' & Hi' & Hl). exists x', y'. split; [apply in_or_app; now right|assumption].
  Qed.

  (** The whole pattern. *)
  Variable e : ere.
  Variables i j : nat.
  Variable L : log.
  Hypothesis Hm : matches_at T P e i j L.

  Lemma top_range k a b : In (k, (a, b)) L -> k <= groups e /\ i <= a /\ a <= b /\ b <= j /\ (k = 0 -> a = i /\ b = j).
  Proof using Hm. destruct Hm as (L' & Ha & ->). intros Hi. apply in_app_or in Hi as [Hi|[E|[]]]; [apply (proj2 (rg_alts _ _ _ _ _ Ha)) in Hi; lia|]. injection E as <- <- <-. destruct (rg_alts _ _ _ _ _ Ha). lia. Qed.
  Lemma top_latest : latest L.
  Proof using Hm.
    destruct Hm as (L' & Ha & ->). intros k a b Hi. rewrite last_cat. cbn [last_of]. apply in_app_or in Hi as [Hi|[E|[]]].
    - assert (Hr := proj2 (rg_alts _ _ _ _ _ Ha) _ _ _ Hi). destruct (Nat.eqb_spec 0 k) as [<-|]; [lia|]. now apply (proj1 (proj2 (proj2 (proj2 pass_latest))) _ _ _ _ _ Ha).
    - injection E as <- <- <-. exists i, j. split; [reflexivity|]. lia.
  Qed.
  Lemma top_nested k k' a' b' : encloses e k k' -> In (k', (a', b')) L -> exists a b, In (k, (a, b)) L /\ a <= a' /\ b' <= b.
  Proof using Hm.
    intros (bs & Hb & Hk) Hi. assert (R := top_range _ _ _ Hi). destruct Hm as (L' & Ha & ->). destruct Hb as [[-> ->]|Hb].
    - exists i, j. split; [apply in_or_app; right; now left|]. lia.
    - apply in_app_or in Hi as [Hi|[E|[]]]; [|injection E as <- _ _; lia]. destruct (proj1 (proj2 (proj2 (proj2 pass_nested))) _ _ _ _ _ Ha k bs k' a' b' Hb Hk Hi) as (a & b & Hi' & Hl). exists a, b. split; [apply in_or_app; now left|assumption].
  Qed.
  Lemma top_order k k' a b a' b' : k <= k' -> ~ together e k k' -> In (k, (a, b)) L -> In (k', (a', b')) L -> (k = k' /\ a = a' /\ b = b') \/ (k < k' /\ (b <= a' \/ encloses e k k')).
  Proof using Hm.
    intros Hk Hl H1 H2. assert (R1 := top_range _ _ _ H1). assert (R2 := top_range _ _ _ H2). destruct Hm as (L' & Ha & ->).
    destruct (Nat.eq_dec k 0) as [->|Hk0].
    - destruct (Nat.eq_dec k' 0) as [->|]; [left; lia|]. right. split; [lia|]. right. exists e. split; [left; auto|]. lia.
    - apply in_app_or in H1 as [H1|[E|[]]]; [|injection E as <- _ _; lia]. apply in_app_or in H2 as [H2|[E|[]]]; [|injection E as <- _ _; lia].
      destruct (proj1 (proj2 (proj2 (proj2 pass_order))) _ _ _ _ _ Ha k k' a b a' b' Hk Hl H1 H2) as [R|(R & [R'|(bs & R' & R'')])]; auto. right. split; [assumption|]. right. exists bs. split; [right; exact R'|lia].
  Qed.
  Lemma top_rival k k' s s' : rivals e k k' -> ~ together e k k' -> In (k, s) L -> In (k', s') L -> False.
  Proof using Hm.
    intros (h & l & b & r & Hg & Hk & Hk') Hl H1 H2. destruct Hm as (L' & Ha & ->). cbn zeta in *.
    assert (X : 1 <= k /\ 1 <= k') by lia. apply in_app_or in H1 as [H1|[E|[]]]; [|injection E as <- _; lia]. apply in_app_or in H2 as [H2|[E|[]]]; [|injection E as <- _; lia].
    destruct Hg as [[-> <-]|Hg]; [apply (alts_rival _ _ _ _ _ Ha l b r k k' s s'); auto; lia|]. now apply (proj1 (proj2 (proj2 (proj2 pass_rival))) _ _ _ _ _ Ha h l b r k k' s s').
  Qed.
  Lemma top_bound k k' x y : bound_to e k k' -> In (k, (x, y)) L -> exists x' y', In (k', (x', y')) L /\ x <= x' /\ y' <= y.
  Proof using Hm.
    intros (b & Hg & Hb) Hi. assert (R := top_range _ _ _ Hi). destruct Hm as (L' & Ha & ->). destruct Hg as [[-> <-]|Hg].
    - destruct (always_alts _ _ _ _ _ _ Hb Ha) as (x' & y' & Hs & Hl). exists x', y'. split; [apply in_or_app; now left|]. lia.
    - apply in_app_or in Hi as [Hi|[E|[]]]; [|injection E as <- _ _; destruct Hg as [Hg|(q & Hg)]; apply (proj2 (proj2 (proj2 place_range))) in Hg; lia].
      destruct (proj1 (proj2 (proj2 (proj2 pass_bound))) _ _ _ _ _ Ha k b k' x y Hg Hb Hi) as (x' & y' & Hs & Hl). exists x', y'. split; [apply in_or_app; now left|assumption].
  Qed.
  (** What counts. *)
  Lemma count_outer k k' a' b' : encloses e k k' -> last_of k' L = Some (a', b') -> exists a b, last_of k L = Some (a, b) /\ b' <= b /\ (~ together e k k \/ bound_to e k k' -> a <= a').
  Proof using Hm.
    intros He Hl. assert (Hi := last_member _ _ _ Hl). destruct (top_nested k k' a' b' He Hi) as (a & b & Ho & Ha & Hb). destruct (top_latest k a b Ho) as (a2 & b2 & E & Ha2 & Hb2). exists a2, b2. split; [assumption|]. split; [lia|].
    assert (Ho2 := last_member _ _ _ E). intros [Ht|Ht].
    - destruct (top_order k k a b a2 b2 (Nat.le_refl _) Ht Ho Ho2) as [R|R]; lia.
    - destruct (top_bound k k' a2 b2 Ht Ho2) as (x & y & Hx & R1 & R2). destruct (top_latest k' x y Hx) as (x2 & y2 & E2 & R3 & R4). rewrite Hl in E2. injection E2 as <- <-. lia.
  Qed.
  Lemma always_range :
    (forall p g k, always_part p g k -> g <= k < g + groups_part p) /\ (forall b g k, always_branch b g k -> g <= k < g + groups_branch b).
  Proof.
    apply always_ind.
    - intros bs g. change (g <= g < g + S (groups bs)). lia.
    - intros b g k _ IH. change (g <= k < g + S (groups_branch b + 0)). lia.
    - intros x q g k _ _ IH. change (g <= k < g + groups_expr x). exact IH.
    - intros p b g k _ IH. change (g <= k < g + (groups_part p + groups_branch b)). lia.
    - intros p b g k _ IH. change (g <= k < g + (groups_part p + groups_branch b)). lia.
  Qed.
  Lemma count_inner k k' a b : bound_to e k k' -> last_of k L = Some (a, b) -> exists a' b', last_of k' L = Some (a', b') /\ a <= a' /\ a' <= b' /\ b' <= b.
  Proof using Hm.
    intros He Hl. destruct (top_bound k k' a b He (last_member _ _ _ Hl)) as (x & y & Hx & R1 & R2). destruct (top_latest k' x y Hx) as (x2 & y2 & E2 & R3 & R4). exists x2, y2. split; [assumption|].
    assert (Hr := top_range _ _ _ (last_member _ _ _ E2)). assert (En : encloses e k k').
    { destruct He as (c & Hg & Hc). exists [c]. split; [exact Hg|]. apply (proj2 always_range) in Hc. change (k < k' <= k + (groups_branch c + 0)). lia. }
    destruct (count_outer k k' x2 y2 En E2) as (a3 & b3 & E3 & R5 & _). rewrite Hl in E3. injection E3 as <- <-. lia.
  Qed.
  Lemma count_order k k' a b a' b' : k < k' -> ~ encloses e k k' -> ~ together e k k' -> last_of k L = Some (a, b) -> last_of k' L = Some (a', b') -> b <= a'.
  Proof using Hm.
    intros Hk He Ht H1 H2. apply last_member in H1, H2. destruct (top_order k k' a b a' b' ltac:(lia) Ht H1 H2) as [R|(_ & [R|R])]; [lia|assumption|contradiction].
  Qed.
  Lemma count_rival k k' : rivals e k k' -> ~ together e k k' -> last_of k L = None \/ last_of k' L = None.
  Proof using Hm.
    intros Hr Ht. destruct (last_of k L) as [s|] eqn:E1; [|now left]. destruct (last_of k' L) as [s'|] eqn:E2; [|now right]. exfalso. apply last_member in E1, E2. exact (top_rival k k' s s' Hr Ht E1 E2).
  Qed.
End Nest.
