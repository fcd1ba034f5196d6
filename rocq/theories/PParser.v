(** Proofs about the parser: it decides the grammar of [SpecGrammar]. *)
From Verif Require Import Parser Display SpecGrammar.
From Coq Require Import String ZifyBool ZifyNat ZifyN.
Open Scope N_scope.
Open Scope list_scope.

Ltac inv H := inversion H; subst; clear H.

(** ** Prefixes and splits *)
Lemma strip_iff p s r : strip_prefix p s = Some r <-> s = p ++ r.
Proof.
  revert s; induction p as [|a p IH]; intros s; cbn.
  - split; congruence.
  - destruct s as [|b s]; [split; discriminate|].
    destruct (N.eqb_spec a b) as [->|H]; [rewrite IH; split; congruence|].
    split; [discriminate|congruence].
Qed.
Lemma strip_app p r : strip_prefix p (p ++ r) = Some r.
Proof. now apply strip_iff. Qed.
Lemma strip_none p s : strip_prefix p s = None <-> forall r, s <> p ++ r.
Proof.
  split.
  - intros H r ->. rewrite strip_app in H. discriminate.
  - intros H. destruct (strip_prefix p s) eqn:E; [|reflexivity].
    apply strip_iff in E. now destruct (H l).
Qed.
Lemma split_once_iff c s a b : split_once c s = Some (a, b) <-> s = a ++ c :: b /\ ~ In c a.
Proof.
  revert a; induction s as [|x s IH]; intros a; cbn.
  - split; [discriminate|]. intros [H _]. destruct a; discriminate.
  - destruct (N.eqb_spec x c) as [->|Hx].
    + split.
      * intros H; inv H. split; [reflexivity|easy].
      * intros [H Hn]. destruct a as [|y a]; [cbn in H; congruence|].
        cbn in H; inv H. exfalso; apply Hn; now left.
    + split.
      * destruct (split_once c s) as [[a' b']|] eqn:E; [|discriminate].
        intros H; inv H. destruct (proj1 (IH a') eq_refl) as [-> Hn].
        split; [reflexivity|]. intros [?|?]; [congruence|tauto].
      * intros [H Hn]. destruct a as [|y a]; [cbn in H; congruence|].
        cbn in H; inv H.
        rewrite (proj2 (IH a)); [reflexivity|]. split; [reflexivity|].
        intros ?; apply Hn; now right.
Qed.
Lemma split_once_none c s : split_once c s = None <-> ~ In c s.
Proof.
  induction s as [|x s IH]; cbn; [tauto|].
  destruct (N.eqb_spec x c) as [->|Hx].
  - split; [discriminate|]. intros H; exfalso; apply H; now left.
  - destruct (split_once c s) as [[a b]|].
    + split; [discriminate|]. intros H. exfalso. assert (~ In c s) by tauto.
      apply IH in H0. discriminate.
    + split; [|reflexivity]. intros _ [?|?]; [congruence|]. now apply IH.
Qed.

Lemma special_iff c : is_special c = true <-> In c special_chars.
Proof.
  unfold is_special, special_chars. rewrite existsb_exists. split.
  - intros (x & Hx & E). apply N.eqb_eq in E; now subst.
  - intros H; exists c; split; [exact H|apply N.eqb_refl].
Qed.
Lemma escapable_iff c : is_escapable c = true <-> In c escapable_chars.
Proof.
  unfold is_escapable. rewrite !orb_true_iff, special_iff, !N.eqb_eq.
  change escapable_chars with (special_chars ++ [ch "]"; ch "}"]).
  rewrite in_app_iff. cbn [In]. intuition congruence.
Qed.

(** ** Character classes *)
Lemma class_text_expr k : class_text k = class_expr k.
Proof. destruct k; reflexivity. Qed.
Lemma class_take_iff s r k : class_take s = Some (r, k) <-> s = class_expr k ++ r.
Proof.
  unfold class_take, class_expr. split.
  - destruct (strip_prefix (s2l "[:") s) as [s1|] eqn:E; [|discriminate].
    apply strip_iff in E; subst s. unfold class_table, match_prefix.
    repeat match goal with |- context [strip_prefix ?p s1] =>
      destruct (strip_prefix p s1) eqn:?E; [apply strip_iff in E; intros H; inv H; reflexivity|clear E] end.
    discriminate.
  - intros ->. destruct k; reflexivity.
Qed.
Lemma class_take_none s : class_take s = None <-> ~ begins_class s.
Proof.
  split.
  - intros H (k & r & E). apply class_take_iff in E. congruence.
  - intros H. destruct (class_take s) as [[r k]|] eqn:E; [|reflexivity].
    apply class_take_iff in E. exfalso; apply H; now exists k, r.
Qed.
Lemma begins_class_app s r : begins_class s -> begins_class (s ++ r).
Proof. intros (k & x & ->). exists k, (x ++ r). now rewrite app_assoc. Qed.

Lemma body_ends ts t : G_body ts t -> exists t0, t = t0 ++ [ch "]"].
Proof.
  induction 1 as [|k ts t _ [t0 ->]|c ts t _ _ _ _ [t0 ->]|c d ts t _ _ _ [t0 ->]|c _].
  - exists []; reflexivity.
  - exists (class_expr k ++ t0). now rewrite app_assoc.
  - exists (c :: t0); reflexivity.
  - exists (c :: ch "-" :: d :: t0); reflexivity.
  - exists [c; ch "-"]; reflexivity.
Qed.
Lemma body_nonempty ts t : G_body ts t -> t <> [].
Proof. intros H. apply body_ends in H as [t0 ->]. now destruct t0. Qed.
Lemma begins_class_back c ts t r : G_body ts t -> begins_class (c :: t ++ r) -> begins_class (c :: t).
Proof.
  intros HG (k & x & E).
  apply body_ends in HG as [t0 ->].
  change (c :: (t0 ++ [ch "]"]) ++ r) with ((c :: t0 ++ [ch "]"]) ++ r) in E.
  apply app_eq_app in E as (l & [[E1 E2]|[E1 E2]]).
  - exists k, l. exact E1.
  - destruct l as [|y l].
    + exists k, []. rewrite !app_nil_r in *. congruence.
    + exfalso. assert (HI : In (ch "]") (removelast (class_expr k))).
      { rewrite E1. change (c :: t0 ++ [ch "]"]) with ((c :: t0) ++ [ch "]"]).
        rewrite removelast_app by discriminate. apply in_or_app; left. apply in_or_app; right; now left. }
      revert HI. clear. destruct k; vm_compute; intuition discriminate.
Qed.

(** ** Brackets *)
Lemma bracket_sound f : forall s items rest out,
  bracket_loop f s items = POk rest out ->
  exists ts t, out = items ++ ts /\ s = t ++ rest /\ G_body ts t.
Proof.
  induction f as [|f IH]; intros s items rest out; cbn [bracket_loop]; [discriminate|].
  destruct (strip_prefix (s2l "]") s) as [s1|] eqn:E0.
  { intros H; inv H. apply strip_iff in E0. exists [], (s2l "]").
    rewrite app_nil_r. repeat split; [exact E0|constructor]. }
  destruct (class_take s) as [[s1 k]|] eqn:E1.
  { intros H. apply IH in H as (ts & t & -> & -> & HG). apply class_take_iff in E1.
    exists (Class k :: ts), (class_expr k ++ t). rewrite <- !app_assoc.
    repeat split; [exact E1|now constructor]. }
  destruct s as [|c s1]; [discriminate|].
  assert (Hc : c <> ch "]"). { intros ->. apply strip_none with (r := s1) in E0. now apply E0. }
  destruct s1 as [|d s2]; [discriminate|].
  destruct (N.eqb_spec d (ch "-")) as [->|Hd].
  - destruct s2 as [|e s3]; [discriminate|].
    destruct (N.eqb_spec e (ch "]")) as [->|He].
    + intros H; inv H. exists [Single c; Single (ch "-")], (c :: s2l "-]").
      repeat split. now constructor.
    + intros H. apply IH in H as (ts & t & -> & -> & HG).
      exists (Range c e :: ts), (c :: ch "-" :: e :: t). rewrite <- app_assoc.
      repeat split. now constructor.
  - intros H. apply IH in H as (ts & t & -> & E & HG).
    exists (Single c :: ts), (c :: t). rewrite <- app_assoc. rewrite E.
    repeat split. constructor; try assumption.
    + apply class_take_none in E1. rewrite E in E1. intros HB; apply E1.
      now apply (begins_class_app (c :: t) rest).
    + intros (r & ->). inversion E. now apply Hd.
Qed.

Lemma bracket_complete ts t : G_body ts t -> forall f rest items,
  (List.length t <= f)%nat -> bracket_loop f (t ++ rest) items = POk rest (items ++ ts).
Proof.
  induction 1 as [|k ts t HG IH|c ts t Hc Hk Hd HG IH|c d ts t Hc Hd HG IH|c Hc];
    intros f rest items Hf.
  - destruct f; [cbn in Hf; lia|]. cbn. now rewrite app_nil_r.
  - destruct f; [destruct k; cbn in Hf; lia|]. cbn [bracket_loop].
    rewrite <- app_assoc.
    replace (strip_prefix (s2l "]") (class_expr k ++ t ++ rest)) with (@None (list N)) by (destruct k; reflexivity).
    rewrite (proj2 (class_take_iff _ (t ++ rest) k) eq_refl).
    rewrite IH, <- app_assoc; [reflexivity|]. rewrite app_length in Hf. destruct k; cbn in Hf; lia.
  - destruct f; [cbn in Hf; lia|]. cbn [bracket_loop].
    change ((c :: t) ++ rest) with (c :: t ++ rest).
    assert (E : strip_prefix (s2l "]") (c :: t ++ rest) = None).
    { apply strip_none. intros r E. cbn in E. inv E. now apply Hc. }
    rewrite E.
    rewrite (proj2 (class_take_none _)) by (intros HB; apply Hk; eapply begins_class_back; eassumption).
    destruct t as [|d t]; [now apply body_nonempty in HG|].
    destruct (N.eqb_spec d (ch "-")) as [->|Hd']; [exfalso; apply Hd; now exists t|].
    cbn [app]. destruct (N.eqb_spec d (ch "-")) as [->|_]; [congruence|].
    change (d :: t ++ rest) with ((d :: t) ++ rest).
    rewrite IH, <- app_assoc; [reflexivity|cbn in Hf |- *; lia].
  - destruct f; [cbn in Hf; lia|]. cbn [bracket_loop app].
    assert (E : strip_prefix (s2l "]") (c :: ch "-" :: d :: t ++ rest) = None).
    { apply strip_none. intros r E. cbn in E. inv E. now apply Hc. }
    rewrite E.
    rewrite (proj2 (class_take_none _)).
    2:{ intros (k & r & EB). destruct k; cbn in EB; discriminate. }
    rewrite N.eqb_refl. destruct (N.eqb_spec d (ch "]")); [congruence|].
    rewrite IH, <- app_assoc; [reflexivity|cbn in Hf |- *; lia].
  - destruct f; [cbn in Hf; lia|]. cbn [bracket_loop].
    assert (E : strip_prefix (s2l "]") (c :: ch "-" :: ch "]" :: rest) = None).
    { apply strip_none. intros r E. cbn in E. inv E. now apply Hc. }
    change ((c :: s2l "-]") ++ rest) with (c :: ch "-" :: ch "]" :: rest). rewrite E.
    rewrite (proj2 (class_take_none _)).
    2:{ intros (k & r & EB). destruct k; cbn in EB; discriminate. }
    now rewrite !N.eqb_refl.
Qed.

(** ** Atoms *)
Lemma atom_sound s rest a : atom_take s = POk rest a -> exists t, s = t ++ rest /\ G_atom a t.
Proof.
  destruct s as [|c s1]; cbn [atom_take]; [discriminate|].
  destruct (N.eqb_spec c (ch "\")) as [->|H1].
  { destruct s1 as [|d s2]; [discriminate|].
    destruct (is_escapable d) eqn:E; [|discriminate]. intros H; inv H.
    exists [ch "\"; d]. split; [reflexivity|]. constructor. now apply escapable_iff. }
  destruct (N.eqb_spec c (ch ".")) as [->|H2].
  { intros H; inv H. exists (s2l "."). split; [reflexivity|constructor]. }
  destruct (N.eqb_spec c (ch "[")) as [->|H3].
  { assert (HL : forall s2 rest ts,
      (let '(items, s3) := match strip_prefix (s2l "]") s2 with
                            | Some r => ([Single (ch "]")], r) | None => ([], s2) end in
       bracket_loop (S (List.length s3)) s3 items) = POk rest ts ->
      exists t, s2 = t ++ rest /\ G_list ts t).
    { intros s2 r ts. destruct (strip_prefix (s2l "]") s2) as [s3|] eqn:E.
      - intros H. apply bracket_sound in H as (ts' & t & -> & -> & HG).
        apply strip_iff in E. exists (ch "]" :: t). split; [exact E|]. now constructor.
      - intros H. apply bracket_sound in H as (ts' & t & -> & -> & HG).
        exists t. split; [reflexivity|]. constructor; [|exact HG].
        intros (x & ->). apply strip_none with (r := x ++ r) in E. now apply E. }
    destruct (strip_prefix (s2l "^") s1) as [s2|] eqn:E.
    - specialize (HL s2). destruct (strip_prefix (s2l "]") s2) as [s3|].
      all: match goal with |- context [bracket_loop ?f ?s ?i] => destruct (bracket_loop f s i) eqn:EB end;
        [|discriminate|discriminate]; intros H; inv H; destruct (HL _ _ eq_refl) as (t & -> & HG);
        apply strip_iff in E; exists (s2l "[^" ++ t); split; [cbn in E |- *; now rewrite E|now constructor].
    - specialize (HL s1). destruct (strip_prefix (s2l "]") s1) as [s3|].
      all: match goal with |- context [bracket_loop ?f ?s ?i] => destruct (bracket_loop f s i) eqn:EB end;
        [|discriminate|discriminate]; intros H; inv H; destruct (HL _ _ eq_refl) as (t & -> & HG);
        exists (s2l "[" ++ t); split; [reflexivity|]; constructor; [|exact HG];
        intros (x & ->); apply strip_none with (r := x ++ rest) in E; now apply E. }
  destruct (is_special c) eqn:E; cbn [negb]; [discriminate|].
  intros H; inv H. exists [c]. split; [reflexivity|]. constructor.
  rewrite <- special_iff. congruence.
Qed.

Lemma list_nonempty ts t : G_list ts t -> t <> [].
Proof. destruct 1; [now apply body_nonempty in H0|discriminate]. Qed.

Lemma atom_complete a t rest : G_atom a t -> atom_take (t ++ rest) = POk rest a.
Proof.
  assert (HL : forall s2 t ts, G_list ts t -> s2 = t ++ rest ->
      (let '(items, s3) := match strip_prefix (s2l "]") s2 with
                            | Some r => ([Single (ch "]")], r) | None => ([], s2) end in
       bracket_loop (S (List.length s3)) s3 items) = POk rest ts).
  { intros s2 t0 ts HG ->. destruct HG as [ts t0 Hb HG|ts t0 HG].
    - assert (E : strip_prefix (s2l "]") (t0 ++ rest) = None).
      { apply strip_none. intros r E. destruct t0 as [|x t0]; [now apply body_nonempty in HG|].
        cbn in E; inv E. apply Hb. now exists t0. }
      rewrite E. apply (bracket_complete _ _ HG _ _ []). rewrite app_length; lia.
    - change ((ch "]" :: t0) ++ rest) with (s2l "]" ++ t0 ++ rest). rewrite strip_app.
      apply (bracket_complete _ _ HG). rewrite app_length; lia. }
  destruct 1 as [c Hc|c Hc| |ts t Hb HG|ts t HG].
  - cbn [atom_take app].
    assert (HS : forall d, In d special_chars -> c =? d = false).
    { intros d Hd. apply N.eqb_neq. intros ->. contradiction. }
    rewrite !HS by (vm_compute; tauto).
    rewrite <- special_iff in Hc. now destruct (is_special c).
  - cbn [atom_take app]. rewrite N.eqb_refl. apply escapable_iff in Hc. now rewrite Hc.
  - reflexivity.
  - change ((s2l "[" ++ t) ++ rest) with (ch "[" :: t ++ rest). cbn [atom_take].
    change (ch "[" =? ch "\") with false. change (ch "[" =? ch ".") with false.
    rewrite N.eqb_refl. cbn [andb].
    assert (E : strip_prefix (s2l "^") (t ++ rest) = None).
    { apply strip_none. intros r E. apply list_nonempty in HG as Hne. destruct t as [|x t]; [congruence|].
      cbn in E; inv E. apply Hb. now exists t. }
    rewrite E. specialize (HL _ _ _ HG eq_refl).
    destruct (strip_prefix (s2l "]") (t ++ rest)); cbn [andb] in *; now rewrite HL.
  - change ((s2l "[^" ++ t) ++ rest) with (ch "[" :: s2l "^" ++ t ++ rest). cbn [atom_take].
    change (ch "[" =? ch "\") with false. change (ch "[" =? ch ".") with false.
    rewrite N.eqb_refl, strip_app. specialize (HL _ _ _ HG eq_refl).
    destruct (strip_prefix (s2l "]") (t ++ rest)); now rewrite HL.
Qed.

(** ** Numbers and quantifiers *)
Lemma digit_iff d : is_ascii_digit d = true <-> is_digit d.
Proof. unfold is_ascii_digit, is_digit, in_range; cbn [fst snd]. rewrite andb_true_iff, !N.leb_le. tauto. Qed.

Lemma parse_digits_iff ds : forall a n,
  parse_digits a ds = Some n <->
  Forall is_digit ds /\ n = fold_left (fun a d => 10 * a + (d - ch "0")) ds a.
Proof.
  induction ds as [|d ds IH]; intros a n; cbn [parse_digits fold_left].
  - split; [intros H; inv H; auto|intros [_ ->]; reflexivity].
  - destruct (is_ascii_digit d) eqn:E.
    + rewrite IH. rewrite (N.mul_comm a 10). split.
      * intros [H ->]. split; [|reflexivity]. constructor; [now apply digit_iff|exact H].
      * intros [H ->]. inv H. auto.
    + split; [discriminate|]. intros [H _]. inv H. apply digit_iff in H2. congruence.
Qed.
Lemma u32_lt n : n <=? u32_max = true <-> n < 2 ^ 32.
Proof. rewrite N.leb_le. change (2 ^ 32) with (u32_max + 1). lia. Qed.

Lemma parse_u32_iff s n : parse_u32 s = Some n <-> G_num n s.
Proof.
  assert (HD : forall ds, ds <> [] ->
    match parse_digits 0 ds with
         | Some n => if n <=? u32_max then Some n else None
         | None => None
         end = Some n <-> Forall is_digit ds /\ digits_value ds = n /\ n < 2 ^ 32).
  { intros ds _. destruct (parse_digits 0 ds) as [m|] eqn:E.
    - apply parse_digits_iff in E as [HF Hm]. fold (digits_value ds) in Hm. subst m.
      destruct (digits_value ds <=? u32_max) eqn:EL.
      + apply u32_lt in EL. split; [intros H; inv H; auto|intros (_ & -> & _); reflexivity].
      + split; [discriminate|]. intros (_ & <- & H). apply u32_lt in H. congruence.
    - split; [discriminate|]. intros (HF & HV & _). exfalso.
      assert (X : parse_digits 0 ds = Some n) by (apply parse_digits_iff; split; [exact HF|now rewrite <- HV]).
      congruence. }
  assert (HP : forall r, ~ Forall is_digit (s2l "+" ++ r)).
  { intros r H. inversion H as [|x l Hx _ Hl]. destruct Hx as [Hx _]. vm_compute in Hx. now apply Hx. }
  unfold parse_u32. destruct (strip_prefix (s2l "+") s) as [r|] eqn:E.
  - apply strip_iff in E; subst s. destruct r as [|d r].
    + split; [discriminate|]. intros H. inversion H as [ds H1 H2 H3 H4 H5|ds H1 H2 H3 H4 H5].
      * subst. now apply HP in H2.
      * subst. congruence.
    + rewrite HD by discriminate. split.
      * intros (H1 & <- & H2). apply Gn_plus; [discriminate|assumption..].
      * intros H. inversion H as [ds H1 H2 H3 H4 H5|ds H1 H2 H3 H4 H5].
        -- subst. now apply HP in H2.
        -- subst. auto.
  - destruct s as [|d s].
    + split; [discriminate|]. intros H. inversion H as [ds H1 H2 H3 H4 H5|ds H1 H2 H3 H4 H5]; subst; congruence.
    + rewrite HD by discriminate. split.
      * intros (H1 & <- & H2). apply Gn_plain; [discriminate|assumption..].
      * intros H. inversion H as [ds H1 H2 H3 H4 H5|ds H1 H2 H3 H4 H5]; subst; auto.
        exfalso. now apply strip_none with (r := s) in E.
Qed.

Lemma num_chars n t : G_num n t -> ~ In (ch ",") t /\ ~ In (ch "}") t /\ t <> [].
Proof.
  intros H.
  assert (HX : forall c, c = ch "," \/ c = ch "}" -> ~ In c t).
  { intros c Hc HI.
    assert (HF : forall ds, Forall is_digit ds -> ~ In c ds).
    { intros ds HF HI'. rewrite Forall_forall in HF. specialize (HF _ HI'). unfold is_digit in HF.
      destruct Hc; subst c; vm_compute in HF; destruct HF as [H1 H2]; try now apply H1. }
    inv H; [now apply (HF t)|].
    apply in_app_or in HI as [HI|HI]; [|now apply (HF ds)].
    destruct Hc; subst c; vm_compute in HI; intuition discriminate. }
  repeat split; [apply HX; auto..|]. inv H; [assumption|discriminate].
Qed.

Lemma qtype_sound s rest q : qtype_take s = Some (rest, q) -> exists t, s = t ++ rest /\ G_qtype q t.
Proof.
  destruct s as [|c s1]; cbn [qtype_take]; [discriminate|].
  destruct (N.eqb_spec c (ch "*")) as [->|_]; [intros H; inv H; exists (s2l "*"); split; [reflexivity|constructor]|].
  destruct (N.eqb_spec c (ch "+")) as [->|_]; [intros H; inv H; exists (s2l "+"); split; [reflexivity|constructor]|].
  destruct (N.eqb_spec c (ch "?")) as [->|_]; [intros H; inv H; exists (s2l "?"); split; [reflexivity|constructor]|].
  destruct (N.eqb_spec c (ch "{")) as [->|_]; [|discriminate].
  destruct (split_once (ch "}") s1) as [[inside r]|] eqn:E1; [|discriminate].
  apply split_once_iff in E1 as [-> _].
  destruct (split_once (ch ",") inside) as [[mn mx]|] eqn:E2.
  - apply split_once_iff in E2 as [-> _].
    destruct mx as [|x mx].
    + destruct (parse_u32 mn) as [n|] eqn:E3; [|discriminate]. intros H; inv H.
      apply parse_u32_iff in E3. exists (s2l "{" ++ mn ++ s2l ",}"). split; [|now constructor].
      rewrite <- !app_assoc. reflexivity.
    + destruct (parse_u32 mn) as [n|] eqn:E3; [|discriminate].
      destruct (parse_u32 (x :: mx)) as [m|] eqn:E4; [|discriminate]. intros H; inv H.
      apply parse_u32_iff in E3, E4. exists (s2l "{" ++ mn ++ s2l "," ++ (x :: mx) ++ s2l "}").
      split; [|now constructor]. rewrite <- !app_assoc. reflexivity.
  - destruct (parse_u32 inside) as [n|] eqn:E3; [|discriminate]. intros H; inv H.
    apply parse_u32_iff in E3. exists (s2l "{" ++ inside ++ s2l "}"). split; [|now constructor].
    rewrite <- !app_assoc. reflexivity.
Qed.

Lemma qtype_complete q t rest : G_qtype q t -> qtype_take (t ++ rest) = Some (rest, q).
Proof.
  destruct 1 as [| | |n t HN|n t HN|n m t u HN HM]; try reflexivity.
  - apply num_chars in HN as HC. destruct HC as (HC1 & HC2 & _).
    rewrite <- !app_assoc. cbn [s2l map app String.list_ascii_of_string qtype_take].
    rewrite (proj2 (split_once_iff (ch "}") _ t rest)) by auto.
    rewrite (proj2 (split_once_none (ch ",") t)) by assumption.
    rewrite (proj2 (parse_u32_iff t n)) by assumption. reflexivity.
  - apply num_chars in HN as HC. destruct HC as (HC1 & HC2 & _).
    rewrite <- !app_assoc. cbn [s2l map app String.list_ascii_of_string qtype_take].
    rewrite (proj2 (split_once_iff (ch "}") _ (t ++ [ch ","]) rest)).
    2:{ rewrite <- app_assoc. split; [reflexivity|]. rewrite in_app_iff. intros [?|[?|[]]]; [auto|discriminate]. }
    rewrite (proj2 (split_once_iff (ch ",") _ t [])) by auto.
    rewrite (proj2 (parse_u32_iff t n)) by assumption. reflexivity.
  - apply num_chars in HN as HC. destruct HC as (HC1 & HC2 & _).
    apply num_chars in HM as HC. destruct HC as (HC3 & HC4 & HC5).
    rewrite <- !app_assoc. cbn [s2l map app String.list_ascii_of_string qtype_take].
    rewrite (proj2 (split_once_iff (ch "}") _ (t ++ ch "," :: u) rest)).
    2:{ rewrite <- app_assoc. split; [reflexivity|]. rewrite in_app_iff. cbn [In].
        intros [?|[?|?]]; [auto|discriminate|auto]. }
    rewrite (proj2 (split_once_iff (ch ",") _ t u)) by auto.
    destruct u as [|x u]; [congruence|].
    rewrite (proj2 (parse_u32_iff t n)) by assumption.
    rewrite (proj2 (parse_u32_iff (x :: u) m)) by assumption. reflexivity.
Qed.

Lemma quant_sound s rest q : quant_take s = Some (rest, q) -> exists t, s = t ++ rest /\ G_quant q t.
Proof.
  unfold quant_take. destruct (qtype_take s) as [[r k]|] eqn:E; [|discriminate].
  apply qtype_sound in E as (t & -> & HG).
  destruct (strip_prefix (s2l "?") r) as [r'|] eqn:E; intros H; inv H.
  - apply strip_iff in E; subst r. exists (t ++ s2l "?"). rewrite <- app_assoc.
    split; [reflexivity|now constructor].
  - exists t. split; [reflexivity|now constructor].
Qed.

Definition follow (rest : list N) : Prop :=
  match rest with [] => True | c :: _ => ~ In c (s2l "*+?{") end.
Lemma quant_complete q t rest : G_quant q t -> follow rest -> quant_take (t ++ rest) = Some (rest, q).
Proof.
  intros HG HF. unfold quant_take. destruct HG as [q t HG|q t HG].
  - rewrite (qtype_complete q t rest HG).
    assert (E : strip_prefix (s2l "?") rest = None).
    { apply strip_none. intros r ->. apply HF. vm_compute; tauto. }
    now rewrite E.
  - rewrite <- app_assoc, (qtype_complete q t _ HG), strip_app. reflexivity.
Qed.
Lemma quant_follow rest : follow rest -> quant_take rest = None.
Proof.
  intros HF. unfold quant_take. destruct rest as [|c rest]; [reflexivity|].
  cbn [qtype_take]. cbn [follow] in HF.
  assert (HE : forall d, In d (s2l "*+?{") -> c =? d = false).
  { intros d Hd. apply N.eqb_neq. congruence. }
  now rewrite !HE by (vm_compute; tauto).
Qed.

(** ** Unfolding of the mutual parser *)
Definition expr_take (fuel : nat) (s : list N) : pres expr :=
  match strip_prefix (s2l "(") s with
  | Some s' =>
      match ere_take fuel s' with
      | POk rest e =>
          match strip_prefix (s2l ")") rest with
          | Some rest' => POk rest' (XSub e)
          | None => PErr UnterminatedCaptureGroup
          end
      | PErr e => PErr e
      | PFuel => PFuel
      end
  | None =>
      match atom_take s with
      | POk rest a => POk rest (XAtom a)
      | PErr e => PErr e
      | PFuel => PFuel
      end
  end.
Lemma part_take_S f s : part_take (S f) s =
  match strip_prefix (s2l "^") s with
  | Some rest => POk rest PStart
  | None =>
  match strip_prefix (s2l "$") s with
  | Some rest => POk rest PEnd
  | None =>
    match expr_take f s with
    | POk rest x => match quant_take rest with
                    | Some (rest', q) => POk rest' (PQuant x q)
                    | None => POk rest (PSingle x)
                    end
    | PErr e => PErr e
    | PFuel => PFuel
    end
  end end.
Proof. reflexivity. Qed.
Definition stopb (s : list N) : bool :=
  match s with [] => true | c :: _ => (c =? ch ")") || (c =? ch "|") end.
Lemma branch_take_S f s acc : branch_take (S f) s acc =
  if stopb s then POk s acc
  else match part_take f s with
       | POk rest p => branch_take f rest (acc ++ [p])
       | PErr e => PErr e
       | PFuel => PFuel
       end.
Proof. destruct s; reflexivity. Qed.
Lemma branches_take_S f s acc : branches_take (S f) s acc =
  match strip_prefix (s2l "|") s with
  | None => POk s acc
  | Some s' => match branch_take f s' [] with
               | POk rest b => branches_take f rest (acc ++ [b])
               | PErr e => PErr e
               | PFuel => PFuel
               end
  end.
Proof.
  destruct s as [|c s]; [reflexivity|]. cbn [branches_take].
  unfold starts_with. destruct (N.eqb_spec c (ch ")")) as [->|H]; reflexivity.
Qed.
Lemma ere_take_S f s : ere_take (S f) s =
  match branch_take f s [] with
  | POk rest b => branches_take f rest [b]
  | PErr e => PErr e
  | PFuel => PFuel
  end.
Proof. reflexivity. Qed.

(** ** Soundness *)
Lemma take_sound f :
  (forall s rest e, ere_take f s = POk rest e -> exists t, s = t ++ rest /\ G_ere e t) /\
  (forall s rest acc e, branches_take f s acc = POk rest e ->
     (e = acc /\ s = rest) \/
     exists e' t, e = acc ++ e' /\ s = s2l "|" ++ t ++ rest /\ G_ere e' t) /\
  (forall s rest acc b, branch_take f s acc = POk rest b ->
     exists b' t, b = acc ++ b' /\ s = t ++ rest /\ G_branch b' t) /\
  (forall s rest p, part_take f s = POk rest p -> exists t, s = t ++ rest /\ G_part p t).
Proof.
  induction f as [|f (IHe & IHbs & IHb & IHp)]; [repeat split; intros; discriminate|].
  split; [|split; [|split]].
  - intros s rest e. rewrite ere_take_S.
    destruct (branch_take f s []) as [r b| |] eqn:E; [|discriminate|discriminate].
    apply IHb in E as (b' & t & -> & -> & HB). cbn [app] in *. intros H.
    apply IHbs in H as [[-> ->]|(e' & u & -> & -> & HE)].
    + exists t. split; [reflexivity|now constructor].
    + exists (t ++ s2l "|" ++ u). rewrite <- !app_assoc. split; [reflexivity|]. now constructor.
  - intros s rest acc e. rewrite branches_take_S.
    destruct (strip_prefix (s2l "|") s) as [s'|] eqn:E0; [|intros H; inv H; now left].
    apply strip_iff in E0; subst s.
    destruct (branch_take f s' []) as [r b| |] eqn:E; [|discriminate|discriminate].
    apply IHb in E as (b' & t & -> & -> & HB). cbn [app] in *. intros H. right.
    apply IHbs in H as [[-> ->]|(e' & u & -> & -> & HE)].
    + exists [b'], t. repeat split. now constructor.
    + exists (b' :: e'), (t ++ s2l "|" ++ u). rewrite <- !app_assoc. repeat split. now constructor.
  - intros s rest acc b. rewrite branch_take_S.
    destruct (stopb s).
    { intros H; inv H. exists [], []. rewrite app_nil_r. repeat split. constructor. }
    destruct (part_take f s) as [r p| |] eqn:E; [|discriminate|discriminate].
    apply IHp in E as (t & -> & HP). intros H.
    apply IHb in H as (b' & u & -> & -> & HB).
    exists (p :: b'), (t ++ u). rewrite <- !app_assoc. repeat split. now constructor.
  - intros s rest p. rewrite part_take_S.
    destruct (strip_prefix (s2l "^") s) as [r|] eqn:E1.
    { intros H; inv H. apply strip_iff in E1. exists (s2l "^"). split; [exact E1|constructor]. }
    destruct (strip_prefix (s2l "$") s) as [r|] eqn:E2.
    { intros H; inv H. apply strip_iff in E2. exists (s2l "$"). split; [exact E2|constructor]. }
    assert (HX : forall r x, expr_take f s = POk r x -> exists t, s = t ++ r /\ G_expr x t).
    { intros r x. unfold expr_take. destruct (strip_prefix (s2l "(") s) as [s'|] eqn:E3.
      - apply strip_iff in E3; subst s.
        destruct (ere_take f s') as [r' e| |] eqn:E4; [|discriminate|discriminate].
        apply IHe in E4 as (t & -> & HE).
        destruct (strip_prefix (s2l ")") r') as [r''|] eqn:E5; [|discriminate].
        apply strip_iff in E5; subst r'. intros H; inv H.
        exists (s2l "(" ++ t ++ s2l ")"). rewrite <- !app_assoc. split; [reflexivity|now constructor].
      - destruct (atom_take s) as [r' a| |] eqn:E4; [|discriminate|discriminate].
        intros H; inv H. apply atom_sound in E4 as (t & -> & HA).
        exists t. split; [reflexivity|now constructor]. }
    destruct (expr_take f s) as [r x| |] eqn:E3; [|discriminate|discriminate].
    destruct (HX _ _ eq_refl) as (t & -> & HG).
    destruct (quant_take r) as [[r' q]|] eqn:E4; intros H; inv H.
    + apply quant_sound in E4 as (u & -> & HQ). exists (t ++ u). rewrite <- app_assoc.
      split; [reflexivity|now constructor].
    + exists t. split; [reflexivity|now constructor].
Qed.

(** ** Completeness *)
Definition first_ok (bad : list N) (t : list N) : Prop := exists c r, t = c :: r /\ ~ In c bad.
Lemma first_expr e t : G_expr e t -> first_ok (s2l "^$*+?{)|") t.
Proof.
  destruct 1 as [a t H|e t H].
  - destruct H as [c H|c H| |ts t H1 H2|ts t H2].
    + exists c, []. split; [reflexivity|]. intros HI. apply H. revert HI. vm_compute. tauto.
    + exists (ch "\"), [c]. split; [reflexivity|]. vm_compute. intuition discriminate.
    + exists (ch "."), []. split; [reflexivity|]. vm_compute. intuition discriminate.
    + exists (ch "["), t. split; [reflexivity|]. vm_compute. intuition discriminate.
    + exists (ch "["), (s2l "^" ++ t). split; [reflexivity|]. vm_compute. intuition discriminate.
  - exists (ch "("), (t ++ s2l ")"). split; [reflexivity|]. vm_compute. intuition discriminate.
Qed.
Lemma first_part p t : G_part p t -> first_ok (s2l "*+?{)|") t.
Proof.
  destruct 1 as [| |e t H|e q t u H HQ].
  - exists (ch "^"), []. split; [reflexivity|]. vm_compute. intuition discriminate.
  - exists (ch "$"), []. split; [reflexivity|]. vm_compute. intuition discriminate.
  - apply first_expr in H as (c & r & -> & HI). exists c, r. split; [reflexivity|].
    intros HI'. apply HI. revert HI'. vm_compute. tauto.
  - apply first_expr in H as (c & r & -> & HI). exists c, (r ++ u). split; [reflexivity|].
    intros HI'. apply HI. revert HI'. vm_compute. tauto.
Qed.
Lemma stop_follow r : stopb r = true -> follow r.
Proof.
  destruct r as [|c r]; [easy|]. cbn. rewrite orb_true_iff, !N.eqb_eq.
  intros [->| ->]; vm_compute; intuition discriminate.
Qed.
Lemma branch_follow b t r : G_branch b t -> stopb r = true -> follow (t ++ r).
Proof.
  intros HB Hr. destruct HB as [|p b t u HP HB]; [now apply stop_follow|].
  apply first_part in HP as (c & x & -> & HI). cbn. intros H. apply HI. revert H. vm_compute. tauto.
Qed.

Lemma take_complete :
  (forall p t, G_part p t -> forall f rest, follow rest ->
     (4 * List.length (t ++ rest) + 1 <= f)%nat -> part_take f (t ++ rest) = POk rest p) /\
  (forall e t, G_expr e t -> forall f rest,
     (4 * List.length (t ++ rest) <= f)%nat -> expr_take f (t ++ rest) = POk rest e) /\
  (forall b t, G_branch b t -> forall f rest acc, stopb rest = true ->
     (4 * List.length (t ++ rest) + 2 <= f)%nat -> branch_take f (t ++ rest) acc = POk rest (acc ++ b)) /\
  (forall e t, G_ere e t ->
     (forall f rest, (rest = [] \/ begins (ch ")") rest) ->
       (4 * List.length (t ++ rest) + 3 <= f)%nat -> ere_take f (t ++ rest) = POk rest e) /\
     (forall f rest acc, (rest = [] \/ begins (ch ")") rest) ->
       (4 * List.length (t ++ rest) + 6 <= f)%nat ->
       branches_take f (s2l "|" ++ t ++ rest) acc = POk rest (acc ++ e))).
Proof.
  apply G_mutind.
  - intros f rest _ Hf. destruct f; [lia|]. reflexivity.
  - intros f rest _ Hf. destruct f; [lia|]. reflexivity.
  - intros e t HG IH f rest HF Hf. destruct f; [lia|]. rewrite part_take_S.
    destruct (first_expr _ _ HG) as (c & r & E & HI).
    assert (E1 : strip_prefix (s2l "^") (t ++ rest) = None).
    { apply strip_none. intros x Ex. rewrite E in Ex. cbn in Ex. inv Ex. apply HI. vm_compute; tauto. }
    assert (E2 : strip_prefix (s2l "$") (t ++ rest) = None).
    { apply strip_none. intros x Ex. rewrite E in Ex. cbn in Ex. inv Ex. apply HI. vm_compute; tauto. }
    rewrite E1, E2, IH by lia. now rewrite quant_follow.
  - intros e q t u HG IH HQ f rest HF Hf. destruct f; [lia|]. rewrite part_take_S.
    destruct (first_expr _ _ HG) as (c & r & E & HI). rewrite <- app_assoc in *.
    assert (E1 : strip_prefix (s2l "^") (t ++ u ++ rest) = None).
    { apply strip_none. intros x Ex. rewrite E in Ex. cbn in Ex. inv Ex. apply HI. vm_compute; tauto. }
    assert (E2 : strip_prefix (s2l "$") (t ++ u ++ rest) = None).
    { apply strip_none. intros x Ex. rewrite E in Ex. cbn in Ex. inv Ex. apply HI. vm_compute; tauto. }
    rewrite E1, E2, IH by lia. now rewrite (quant_complete q).
  - intros a t HA f rest _. unfold expr_take.
    assert (E1 : strip_prefix (s2l "(") (t ++ rest) = None).
    { apply strip_none. intros x Ex. destruct HA as [c H|c H| |ts t H1 H2|ts t H2]; cbn in Ex; inv Ex.
      apply H. vm_compute; tauto. }
    rewrite E1. now rewrite (atom_complete a).
  - intros e t HG [IH _] f rest Hf. unfold expr_take. rewrite <- !app_assoc in *.
    rewrite strip_app, IH; [now rewrite strip_app| |].
    + right; eexists; reflexivity.
    + rewrite !app_length in *. cbn in Hf |- *. lia.
  - intros f rest acc Hr Hf. destruct f; [lia|]. cbn [app]. rewrite branch_take_S, Hr, app_nil_r. reflexivity.
  - intros p b t u HP IHp HB IHb f rest acc Hr Hf. destruct f; [lia|]. rewrite branch_take_S.
    assert (Hs : stopb ((t ++ u) ++ rest) = false).
    { destruct (first_part _ _ HP) as (c & r & -> & HI). cbn.
      apply orb_false_iff. split; apply N.eqb_neq; intros ->; apply HI; vm_compute; tauto. }
    rewrite Hs. rewrite <- app_assoc in *. rewrite IHp; [|now apply (branch_follow b)|lia].
    destruct (first_part _ _ HP) as (c & r & E & HI).
    rewrite IHb; [now rewrite <- app_assoc|exact Hr|].
    rewrite E in Hf. cbn in Hf. rewrite !app_length in *. lia.
  - intros b t HB IHb.
    assert (HS : forall rest : list N, rest = [] \/ begins (ch ")") rest ->
      stopb rest = true /\ strip_prefix (s2l "|") rest = None).
    { intros rest [->|[r ->]]; split; reflexivity. }
    split.
    + intros f rest Hr Hf. destruct (HS _ Hr) as [H1 H2]. destruct f; [lia|]. rewrite ere_take_S.
      rewrite (IHb f rest []) by (assumption || lia). cbn [app]. destruct f; [lia|].
      rewrite branches_take_S, H2. reflexivity.
    + intros f rest acc Hr Hf. destruct (HS _ Hr) as [H1 H2]. destruct f; [lia|].
      rewrite branches_take_S, strip_app. rewrite (IHb f rest []) by (assumption || lia).
      destruct f; [lia|]. rewrite branches_take_S, H2. reflexivity.
  - intros b e t u HB IHb HE [IH1 IH2]. split.
    + intros f rest Hr Hf. destruct f; [lia|]. rewrite ere_take_S. rewrite <- !app_assoc in *.
      rewrite (IHb f _ []); [|reflexivity|lia].
      rewrite IH2; [reflexivity|exact Hr|]. rewrite !app_length in *. cbn in Hf. lia.
    + intros f rest acc Hr Hf. destruct f; [lia|]. rewrite <- !app_assoc in *.
      rewrite branches_take_S, strip_app.
      rewrite (IHb f _ []); [|reflexivity|lia].
      rewrite IH2; [now rewrite <- app_assoc|exact Hr|]. rewrite !app_length in *. cbn in Hf. lia.
Qed.

(** ** Fuel *)
Lemma bracket_fuel f : forall s items, (List.length s < f)%nat -> bracket_loop f s items <> PFuel.
Proof.
  induction f as [|f IH]; intros s items Hf; [lia|]. cbn [bracket_loop].
  destruct (strip_prefix (s2l "]") s) as [s1|] eqn:E0; [discriminate|].
  destruct (class_take s) as [[s1 k]|] eqn:E1.
  { apply IH. apply class_take_iff in E1; subst s. rewrite app_length in Hf. destruct k; cbn in Hf; lia. }
  destruct s as [|c s1]; [discriminate|]. destruct s1 as [|d s2]; [discriminate|].
  destruct (d =? ch "-").
  - destruct s2 as [|e s3]; [discriminate|]. destruct (e =? ch "]"); [discriminate|].
    apply IH. cbn in Hf. lia.
  - apply IH. cbn in *. lia.
Qed.
Lemma atom_fuel s : atom_take s <> PFuel.
Proof.
  destruct s as [|c s1]; cbn [atom_take]; [discriminate|].
  destruct (c =? ch "\"). { destruct s1 as [|d s2]; [discriminate|]. destruct (is_escapable d); discriminate. }
  destruct (c =? ch "."); [discriminate|].
  destruct (c =? ch "[").
  { destruct (strip_prefix (s2l "^") s1) as [s2|].
    - destruct (strip_prefix (s2l "]") s2) as [s3|];
      match goal with |- context [bracket_loop ?f ?s ?i] =>
        pose proof (bracket_fuel f s i (Nat.lt_succ_diag_r _)); destruct (bracket_loop f s i) end;
      congruence.
    - destruct (strip_prefix (s2l "]") s1) as [s3|];
      match goal with |- context [bracket_loop ?f ?s ?i] =>
        pose proof (bracket_fuel f s i (Nat.lt_succ_diag_r _)); destruct (bracket_loop f s i) end;
      congruence. }
  destruct (negb (is_special c)); discriminate.
Qed.
Lemma part_shorter f s rest p : part_take f s = POk rest p -> (List.length rest < List.length s)%nat.
Proof.
  intros H. apply (proj2 (proj2 (proj2 (take_sound f)))) in H as (t & -> & HG).
  apply first_part in HG as (c & r & -> & _). rewrite app_length; cbn; lia.
Qed.
Lemma branch_shorter f s acc rest b : branch_take f s acc = POk rest b -> (List.length rest <= List.length s)%nat.
Proof.
  intros H. apply (proj1 (proj2 (proj2 (take_sound f)))) in H as (b' & t & _ & -> & _).
  rewrite app_length; lia.
Qed.
Lemma take_fuel f :
  (forall s, (4 * List.length s + 3 <= f)%nat -> ere_take f s <> PFuel) /\
  (forall s acc, (4 * List.length s + 2 <= f)%nat -> branches_take f s acc <> PFuel) /\
  (forall s acc, (4 * List.length s + 2 <= f)%nat -> branch_take f s acc <> PFuel) /\
  (forall s, (4 * List.length s + 1 <= f)%nat -> part_take f s <> PFuel).
Proof.
  induction f as [|f (IHe & IHbs & IHb & IHp)]; [repeat split; intros; lia|].
  split; [|split; [|split]].
  - intros s Hf. rewrite ere_take_S. pose proof (IHb s [] ltac:(lia)).
    destruct (branch_take f s []) as [r b| |] eqn:E; [|discriminate|congruence].
    apply branch_shorter in E. apply IHbs. lia.
  - intros s acc Hf. rewrite branches_take_S.
    destruct (strip_prefix (s2l "|") s) as [s'|] eqn:E0; [|discriminate].
    apply strip_iff in E0; subst s. rewrite app_length in Hf. cbn in Hf.
    pose proof (IHb s' [] ltac:(lia)).
    destruct (branch_take f s' []) as [r b| |] eqn:E; [|discriminate|congruence].
    apply branch_shorter in E. apply IHbs. lia.
  - intros s acc Hf. rewrite branch_take_S. destruct (stopb s); [discriminate|].
    pose proof (IHp s ltac:(lia)).
    destruct (part_take f s) as [r p| |] eqn:E; [|discriminate|congruence].
    apply part_shorter in E. apply IHb. lia.
  - intros s Hf. rewrite part_take_S.
    destruct (strip_prefix (s2l "^") s) as [r|] eqn:E1; [discriminate|].
    destruct (strip_prefix (s2l "$") s) as [r|] eqn:E2; [discriminate|].
    assert (HX : expr_take f s <> PFuel).
    { unfold expr_take. destruct (strip_prefix (s2l "(") s) as [s'|] eqn:E3.
      - apply strip_iff in E3; subst s. rewrite app_length in Hf. cbn in Hf.
        pose proof (IHe s' ltac:(lia)). destruct (ere_take f s') as [r e| |]; [|discriminate|congruence].
        destruct (strip_prefix (s2l ")") r); discriminate.
      - pose proof (atom_fuel s). destruct (atom_take s); [discriminate|discriminate|congruence]. }
    destruct (expr_take f s) as [r x| |]; [|discriminate|congruence].
    destruct (quant_take r) as [[? ?]|]; discriminate.
Qed.

Lemma parse_no_fuel s : parse_str s <> RFuel.
Proof.
  unfold parse_str. pose proof (proj1 (take_fuel (parse_fuel s)) s).
  unfold parse_fuel in *. specialize (H ltac:(lia)).
  destruct (ere_take _ s) as [[|c r] e| |]; congruence.
Qed.
Lemma parse_iff s e : parse_str s = ROk e <-> G_ere e s.
Proof.
  split.
  - unfold parse_str. destruct (ere_take (parse_fuel s) s) as [[|c r] x| |] eqn:E; try discriminate.
    intros H; inv H. apply (proj1 (take_sound _)) in E as (t & -> & HG). now rewrite app_nil_r.
  - intros HG. unfold parse_str.
    pose proof (proj1 (proj2 (proj2 (proj2 take_complete)) e s HG) (parse_fuel s) [] (or_introl eq_refl)) as H.
    rewrite app_nil_r in H. rewrite H; [reflexivity|]. unfold parse_fuel. lia.
Qed.

(** ** Printing *)
Lemma show_N_fuel_ok f : forall n, n < 2 ^ N.of_nat f ->
  show_N_fuel (S f) n <> [] /\ Forall is_digit (show_N_fuel (S f) n) /\ digits_value (show_N_fuel (S f) n) = n.
Proof.
  assert (HD : forall d, d < 10 -> is_digit (ch "0" + d)).
  { intros d Hd. unfold is_digit. change (ch "0") with 48. change (ch "9") with 57. lia. }
  induction f as [|f IH]; intros n Hn.
  - change (2 ^ N.of_nat 0) with 1 in Hn. assert (n = 0) by lia. subst n. cbn [show_N_fuel].
    change (0 <? 10) with true. cbn iota. split; [discriminate|]. split; [|reflexivity].
    constructor; [apply HD; lia|constructor].
  - remember (S f) as g eqn:Eg. cbn [show_N_fuel]. destruct (N.ltb_spec n 10) as [H|H].
    + split; [discriminate|]. split; [constructor; [now apply HD|constructor]|].
      unfold digits_value; cbn [fold_left]. lia.
    + assert (Hq : n / 10 < 2 ^ N.of_nat f).
      { apply N.div_lt_upper_bound; [lia|]. subst g. rewrite Nat2N.inj_succ, N.pow_succ_r' in Hn. lia. }
      destruct (IH _ Hq) as (H1 & H2 & H3). split; [intros E; apply app_eq_nil in E as [_ E]; discriminate|].
      split.
      * apply Forall_app; split; [exact H2|]. constructor; [|constructor]. apply HD. apply N.mod_lt. lia.
      * unfold digits_value in *. rewrite fold_left_app. cbn [fold_left]. rewrite H3.
        pose proof (N.div_mod n 10 ltac:(lia)). lia.
Qed.
Lemma show_N_num n : n < 2 ^ 32 -> G_num n (show_N n).
Proof.
  intros Hn. unfold show_N. destruct (show_N_fuel_ok (N.size_nat n) n) as (H1 & H2 & H3).
  { destruct n as [|p]; [cbn; lia|]. pose proof (N.size_gt (N.pos p)) as Hs.
    replace (N.of_nat (N.size_nat (N.pos p))) with (N.size (N.pos p)); [assumption|].
    cbn [N.size N.size_nat]. clear. induction p; cbn [Pos.size Pos.size_nat]; lia. }
  rewrite <- H3 at 1. constructor; [assumption..|]. now rewrite H3.
Qed.

Lemma num_bound n t : G_num n t -> n < 2 ^ 32.
Proof. destruct 1; assumption. Qed.
Lemma show_qtype_ok q t : G_qtype q t -> G_qtype q (show_qtype q).
Proof.
  destruct 1 as [| | |n t HN|n t HN|n m t u HN HM]; cbn [show_qtype]; constructor;
    apply show_N_num; eapply num_bound; eassumption.
Qed.
Lemma show_quant_ok q t : G_quant q t -> G_quant q (show_quant q).
Proof.
  destruct 1 as [q t H|q t H]; unfold show_quant; cbn [q_type q_alt]; apply show_qtype_ok in H.
  - rewrite app_nil_r. now constructor.
  - now constructor.
Qed.
Lemma show_body ts t : G_body ts t -> flat_map show_term ts ++ s2l "]" = t.
Proof.
  induction 1 as [|k ts t _ IH|c ts t _ _ _ _ IH|c d ts t _ _ _ IH|c _]; cbn [flat_map show_term].
  - reflexivity.
  - now rewrite <- app_assoc, IH, class_text_expr.
  - cbn [app]. now rewrite IH.
  - cbn [app]. now rewrite IH.
  - reflexivity.
Qed.
Lemma show_list ts t : G_list ts t -> flat_map show_term ts ++ s2l "]" = t.
Proof.
  destruct 1 as [ts t _ H|ts t H]; [now apply show_body|]. cbn [flat_map show_term app].
  f_equal. now apply show_body.
Qed.
Lemma show_atom_ok a t : G_atom a t -> G_atom a (show_atom a).
Proof.
  assert (HC : forall c, ~ In c special_chars \/ In c escapable_chars ->
    G_atom (NormalChar c) (show_atom (NormalChar c))).
  { intros c H. cbn [show_atom]. destruct (is_escapable c) eqn:E.
    - constructor. now apply escapable_iff.
    - constructor. rewrite <- special_iff. unfold is_escapable in E.
      destruct (is_special c); [discriminate|easy]. }
  destruct 1 as [c H|c H| |ts t H1 H2|ts t H2].
  - auto.
  - auto.
  - constructor.
  - cbn [show_atom]. rewrite (show_list _ _ H2). now constructor.
  - cbn [show_atom]. rewrite (show_list _ _ H2). now constructor.
Qed.
Lemma show_ok :
  (forall p t, G_part p t -> G_part p (show_part p)) /\
  (forall e t, G_expr e t -> G_expr e (show_expr e)) /\
  (forall b t, G_branch b t -> G_branch b (show_branch b)) /\
  (forall e t, G_ere e t -> G_ere e (show_ere e)).
Proof.
  apply G_mutind; cbn [show_part show_expr].
  - constructor.
  - constructor.
  - intros e t _ IH. now constructor.
  - intros e q t u _ IH HQ. constructor; [exact IH|]. eapply show_quant_ok; eassumption.
  - intros a t H. constructor. eapply show_atom_ok; eassumption.
  - intros e t _ IH. now constructor.
  - constructor.
  - intros p b t u _ IH1 _ IH2. now apply Gbr_cons.
  - intros b t _ IH. unfold show_ere; cbn. now constructor.
  - intros b e t u _ IH1 HE IH2. unfold show_ere in *. cbn [map join_bar].
    destruct e as [|b' e]; [inversion HE|]. cbn [map] in *. now apply Ge_more.
Qed.
Lemma show_parse s e : parse_str s = ROk e -> parse_str (show_ere e) = ROk e.
Proof. rewrite !parse_iff. apply (proj2 (proj2 (proj2 show_ok))). Qed.
Lemma parse_error s x : parse_str s = RErr x -> x = InvalidAtom (ch ")").
Proof. unfold parse_str. destruct (ere_take _ s) as [[|c r] e| |]; congruence. Qed.
