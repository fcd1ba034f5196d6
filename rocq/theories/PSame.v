(** The rules of SpecSame.v keep the groups of a pattern and the order of preference between its matches. *)
From Verif Require Export SpecSame PPrioSpec.
From Coq Require Import ZifyBool ZifyNat ZifyN.
Open Scope nat_scope.
Open Scope list_scope.

(** ** Lists that offer the same choice *)
(** Whatever one asks for, the first element that has it is the same. *)
Definition same_choice {A} (l m : list A) : Prop := forall P, find P l = find P m.
Lemma choice_refl {A} (l : list A) : same_choice l l.
Proof. now intros P. Qed.
Lemma choice_eq {A} (l m : list A) : l = m -> same_choice l m.
Proof. now intros -> P. Qed.
Lemma choice_trans {A} (l m n : list A) : same_choice l m -> same_choice m n -> same_choice l n.
Proof. intros H1 H2 P. now rewrite H1. Qed.
Lemma choice_sym {A} (l m : list A) : same_choice l m -> same_choice m l.
Proof. intros H P. now rewrite H. Qed.
Lemma choice_hd {A} (l m : list A) : same_choice l m -> hd_error l = hd_error m.
Proof. intros H. specialize (H (fun _ => true)). now destruct l, m. Qed.
Lemma find_over {A} P (l m : list A) : find P (l ++ m) = match find P l with Some a => Some a | None => find P m end.
Proof. induction l as [|a l IH]; [reflexivity|]. cbn. now destruct (P a). Qed.
Lemma find_over_map {A B} (f : A -> B) P l : find P (map f l) = option_map f (find (fun a => P (f a)) l).
Proof. induction l as [|a l IH]; [reflexivity|]. cbn. now destruct (P (f a)). Qed.
Lemma find_ext {A} (P Q : A -> bool) l : (forall a, P a = Q a) -> find P l = find Q l.
Proof. intros H. induction l as [|a l IH]; [reflexivity|]. cbn. rewrite H. now rewrite IH. Qed.
Definition given {A} (o : option A) : bool := match o with Some _ => true | None => false end.
Lemma find_over_flat {A B} (g : A -> list B) P l : find P (flat_map g l) = match find (fun a => given (find P (g a))) l with Some a => find P (g a) | None => None end.
Proof. induction l as [|a l IH]; [reflexivity|]. cbn. rewrite find_over. destruct (find P (g a)) as [b|] eqn:E; cbn [given]; [now rewrite E|apply IH]. Qed.
Lemma choice_app {A} (l l' m m' : list A) : same_choice l l' -> same_choice m m' -> same_choice (l ++ m) (l' ++ m').
Proof. intros H1 H2 P. now rewrite !find_over, H1, H2. Qed.
Lemma choice_map {A B} (f : A -> B) l m : same_choice l m -> same_choice (map f l) (map f m).
Proof. intros H P. now rewrite !find_over_map, H. Qed.
Lemma choice_flat {A B} (g h : A -> list B) l m : same_choice l m -> (forall a, same_choice (g a) (h a)) -> same_choice (flat_map g l) (flat_map h m).
Proof.
  intros H1 H2 P. rewrite !find_over_flat, H1. rewrite (find_ext _ (fun a => given (find P (h a)))) by (intros a; now rewrite H2).
  destruct (find _ m) as [a|]; [apply H2|reflexivity].
Qed.
Lemma choice_again {A} (a m e : list A) : same_choice (a ++ m ++ a ++ e) (a ++ m ++ e).
Proof. intros P. rewrite !find_over. destruct (find P a) eqn:E; [reflexivity|]. now destruct (find P m). Qed.

(** ** Ways *)
Section Ways.
  Context {X : Type}.
  Implicit Types w : nat -> ways X.
  Lemma choice_then (l m : ways X) f h : same_choice l m -> (forall j, same_choice (f j) (h j)) -> same_choice (then_ l f) (then_ m h).
  Proof. intros H1 H2. apply choice_flat; [assumption|]. intros a. apply choice_map, H2. Qed.
  Lemma choice_times w w' n : (forall i, same_choice (w i) (w' i)) -> forall i, same_choice (times w n i) (times w' n i).
  Proof. intros H. induction n as [|n IH]; intros i; [apply choice_refl|]. cbn [times]. now apply choice_then. Qed.
  Lemma choice_up_to w w' lazy n : (forall i, same_choice (w i) (w' i)) -> forall i, same_choice (up_to w lazy n i) (up_to w' lazy n i).
  Proof.
    intros H. induction n as [|n IH]; intros i; [apply choice_refl|]. cbn [up_to]. assert (Z := choice_then _ _ _ _ (H i) IH). destruct lazy.
    - apply (choice_app [_] [_]); [apply choice_refl|assumption].
    - apply choice_app; [assumption|apply choice_refl].
  Qed.
  Lemma then_first (i : nat) (f : nat -> ways X) : then_ [(i, [])] f = f i.
  Proof. cbn. rewrite app_nil_r. rewrite <- (map_id (f i)) at 2. apply map_ext. now intros []. Qed.
  Lemma then_over (l m : ways X) f : then_ (l ++ m) f = then_ l f ++ then_ m f.
  Proof. apply flat_map_app. Qed.
  Lemma then_cons i (l : ways X) f : then_ ((i, []) :: l) f = f i ++ then_ l f.
  Proof. change ((i, []) :: l) with ([(i, @nil X)] ++ l). now rewrite then_over, then_first. Qed.
  Lemma then_after (u : list X) (l : ways X) h : then_ (map (fun q => (fst q, u ++ snd q)) l) h = map (fun q => (fst q, u ++ snd q)) (then_ l h).
  Proof.
    induction l as [|[k v] l IH]; [reflexivity|]. cbn [map fst snd]. change ((k, u ++ v) :: map (fun q => (fst q, u ++ snd q)) l) with ([(k, u ++ v)] ++ map (fun q => (fst q, u ++ snd q)) l).
    change ((k, v) :: l) with ([(k, v)] ++ l). rewrite !then_over, map_app, IH. f_equal. unfold then_. cbn [flat_map fst snd]. rewrite !app_nil_r, map_map. apply map_ext. intros [x y]. cbn. now rewrite app_assoc.
  Qed.
  Lemma then_then (l : ways X) f h : then_ (then_ l f) h = then_ l (fun j => then_ (f j) h).
  Proof.
    induction l as [|[j u] l IH]; [reflexivity|]. change (then_ ((j, u) :: l) f) with (map (fun q => (fst q, u ++ snd q)) (f j) ++ then_ l f).
    rewrite then_over, IH, then_after. reflexivity.
  Qed.
  Lemma times_add w k n i : times w (k + n) i = then_ (times w k i) (times w n).
  Proof. revert i. induction k as [|k IH]; intros i; cbn [times Nat.add]; [now rewrite then_first|]. rewrite then_then. now apply then_ext. Qed.
  (** *** One way at most from each position *)
  Definition narrow w : Prop := forall i, w i = [] \/ exists p, w i = [p].
  Lemma narrow_over w f h i : narrow w -> then_ (w i) (fun j => f j ++ h j) = then_ (w i) f ++ then_ (w i) h.
  Proof. intros H. destruct (H i) as [->|(p & ->)]; [reflexivity|]. unfold then_. cbn. now rewrite !app_nil_r, map_app. Qed.
  Lemma up_to_swap w lazy n : narrow w -> forall i, then_ (w i) (up_to w lazy n) = then_ (up_to w lazy n i) w.
  Proof.
    intros Hw. induction n as [|n IH]; intros i.
    - cbn [up_to]. rewrite then_first. apply then_nil.
    - cbn [up_to]. destruct lazy.
      + change ((i, []) :: then_ (w i) (up_to w true n)) with ([(i, @nil X)] ++ then_ (w i) (up_to w true n)). rewrite then_over, then_first, then_then.
        rewrite (then_ext (w i) (fun j => then_ (up_to w true n j) w) (fun j => then_ (w j) (up_to w true n))) by (intros j; now rewrite IH).
        rewrite <- (then_nil (w i)) at 2. now rewrite <- narrow_over.
      + rewrite then_over, then_first, then_then. rewrite (then_ext (w i) (fun j => then_ (up_to w false n j) w) (fun j => then_ (w j) (up_to w false n))) by (intros j; now rewrite IH).
        rewrite <- (then_nil (w i)) at 3. now rewrite <- narrow_over.
  Qed.
  Lemma times_swap w lazy k n : narrow w -> forall i, then_ (times w k i) (up_to w lazy n) = then_ (up_to w lazy n i) (times w k).
  Proof.
    intros Hw. induction k as [|k IH]; intros i; cbn [times]; [now rewrite then_first, then_nil|]. rewrite then_then. rewrite (then_ext (w i) _ _ IH). rewrite <- then_then, up_to_swap by assumption. apply then_then.
  Qed.
End Ways.

(** ** Quantifiers *)
(** At least so often, and so many times more; [None] if no number is allowed. *)
Definition quant_form (t : qtype) : option (nat * option nat) :=
  match t with
  | QStar => Some (0, None)
  | QPlus => Some (1, None)
  | QQuestion => Some (0, Some 1)
  | QMultiple n => Some (N.to_nat n, Some 0)
  | QRange n None => Some (N.to_nat n, None)
  | QRange n (Some m) => if (m <? n)%N then None else Some (N.to_nat n, Some (N.to_nat (m - n)))
  end.
Definition form_allows (f : option (nat * option nat)) (n : nat) : Prop :=
  match f with
  | None => False
  | Some (lo, x) => lo <= n /\ match x with Some d => n <= lo + d | None => True end
  end.
Lemma form_right q n : allows q n <-> form_allows (quant_form (q_type q)) n.
Proof.
  unfold allows. destruct (q_type q) as [| | |k|k [m|]]; cbn [quant_allows quant_form form_allows]; try lia.
  destruct (m <? k)%N eqn:E; cbn [form_allows]; lia.
Qed.
Lemma form_same f h : (forall n, form_allows f n <-> form_allows h n) -> f = h.
Proof.
  intros H. destruct f as [[lo x]|], h as [[lo' x']|]; cbn [form_allows] in H; [| | |reflexivity].
  - assert (lo = lo') as -> by (destruct x as [d|], x' as [d'|]; generalize (H lo) (H lo'); lia). f_equal. f_equal.
    destruct x as [d|], x' as [d'|]; [f_equal| | |reflexivity].
    + generalize (H (lo' + d)) (H (lo' + d')); lia.
    + generalize (H (lo' + S d)); lia.
    + generalize (H (lo' + S d')); lia.
  - destruct x as [d|]; generalize (H lo); lia.
  - destruct x' as [d|]; generalize (H lo'); lia.
Qed.
Lemma form_count q k : one_count q k -> quant_form (q_type q) = Some (k, Some 0).
Proof. intros H. apply form_same. intros n. rewrite <- form_right, (H n). cbn [form_allows]. lia. Qed.

Section Order.
  Variable has : atom -> N -> bool.
  Variable T : list N.
  Hypothesis Hhas : forall a c, has a c = true <-> atom_has a c.

  Definition extra (x : option nat) : nat := match x with Some d => d | None => length T end.
  Definition form_ways {X} (w : nat -> ways X) (lazy : bool) (f : option (nat * option nat)) (i : nat) : ways X :=
    match f with None => [] | Some (lo, x) => then_ (times w lo i) (up_to w lazy (extra x)) end.
  Lemma quant_ways_form {X} (w : nat -> ways X) q i : quant_ways T w q i = form_ways w (q_alt q) (quant_form (q_type q)) i.
  Proof.
    unfold quant_ways. destruct (q_type q) as [| | |k|k [m|]]; cbn [quant_form form_ways extra]; try reflexivity.
    - cbn [times]. now rewrite then_first.
    - cbn [times]. rewrite then_nil. reflexivity.
    - cbn [times]. now rewrite then_first.
    - cbn [up_to]. now rewrite then_nil.
    - now destruct (m <? k)%N.
  Qed.
  Lemma quant_ways_same {X} (w : nat -> ways X) q r i : same_quant q r -> quant_ways T w q i = quant_ways T w r i.
  Proof.
    intros [H1 H2]. rewrite !quant_ways_form. assert (E : quant_form (q_type q) = quant_form (q_type r)) by (apply form_same; intros n; rewrite <- !form_right; apply H1).
    destruct H2 as [H2|(k & Hk)]; [now rewrite H2, E|]. apply form_count in Hk. rewrite <- E, Hk. reflexivity.
  Qed.
  Lemma choice_quant {X} (w w' : nat -> ways X) q i : (forall i, same_choice (w i) (w' i)) -> same_choice (quant_ways T w q i) (quant_ways T w' q i).
  Proof.
    intros H. rewrite !quant_ways_form. destruct (quant_form (q_type q)) as [[lo x]|]; cbn [form_ways]; [|apply choice_refl].
    apply choice_then; [now apply choice_times|]. intros j. now apply choice_up_to.
  Qed.
  Lemma count_ways {X} (w : nat -> ways X) q k i : one_count q k -> quant_ways T w q i = times w k i.
  Proof. intros H. rewrite quant_ways_form, (form_count q k H). cbn [form_ways extra up_to]. apply then_nil. Qed.
  Lemma never_ways {X} (w : nat -> ways X) q i : (forall n, ~ allows q n) -> quant_ways T w q i = [].
  Proof.
    intros H. rewrite quant_ways_form. assert (E : quant_form (q_type q) = None) by (apply form_same; intros n; rewrite <- form_right; cbn [form_allows]; split; [apply H|contradiction]). now rewrite E.
  Qed.
  Lemma optional_ways {X} (w : nat -> ways X) q i : (forall n, allows q n <-> n <= 1) -> quant_ways T w q i = if q_alt q then (i, []) :: w i else w i ++ [(i, [])].
  Proof.
    intros H. rewrite quant_ways_form. assert (E : quant_form (q_type q) = Some (0, Some 1)) by (apply form_same; intros n; rewrite <- form_right, (H n); cbn [form_allows]; lia). rewrite E. cbn [form_ways times extra].
    rewrite then_first. cbn [up_to]. now rewrite then_nil.
  Qed.
  Lemma unroll_ways {X} (w : nat -> ways X) q r t k i : one_count r k -> (q_alt q = q_alt t \/ exists m, one_count q m) -> (forall n, allows q n <-> exists l, n = k + l /\ allows t l) ->
    quant_ways T w q i = then_ (quant_ways T w r i) (quant_ways T w t).
  Proof.
    intros Hr Ha H. rewrite (count_ways w r k i Hr). rewrite (then_ext _ _ _ (quant_ways_form w t)), quant_ways_form.
    assert (E : quant_form (q_type q) = match quant_form (q_type t) with Some (lo, x) => Some (k + lo, x) | None => None end).
    { apply form_same. intros n. rewrite <- form_right, (H n). split.
      - intros (l & -> & Hl). apply form_right in Hl. destruct (quant_form (q_type t)) as [[lo [d|]]|]; cbn [form_allows] in *; lia.
      - intros Hn. exists (n - k). rewrite form_right. destruct (quant_form (q_type t)) as [[lo [d|]]|]; cbn [form_allows] in *; lia. }
    destruct (quant_form (q_type t)) as [[lo x]|]; rewrite E; cbn [form_ways].
    - rewrite times_add, then_then. apply then_ext. intros j. apply then_ext. intros j'. destruct Ha as [->|(m & Hm)]; [reflexivity|]. apply form_count in Hm. rewrite E in Hm. injection Hm as _ ->. reflexivity.
    - unfold then_. cbn [map]. induction (times w k i); [reflexivity|assumption].
  Qed.
  Lemma swap_ways {X} (w : nat -> ways X) r t k i : narrow w -> one_count r k -> then_ (quant_ways T w r i) (quant_ways T w t) = then_ (quant_ways T w t i) (quant_ways T w r).
  Proof.
    intros Hw Hr. rewrite (count_ways w r k i Hr). rewrite (then_ext _ _ _ (quant_ways_form w t)), quant_ways_form. rewrite (then_ext _ (quant_ways T w r) (times w k)) by (intros j; now apply count_ways).
    destruct (quant_form (q_type t)) as [[lo x]|]; cbn [form_ways].
    - transitivity (then_ (then_ (times w k i) (times w lo)) (up_to w (q_alt t) (extra x))); [symmetry; apply then_then|].
      rewrite <- times_add, Nat.add_comm, times_add, !then_then. apply then_ext. intros j. now apply times_swap.
    - unfold then_. cbn [map flat_map]. induction (times w k i); [reflexivity|assumption].
  Qed.

  (** ** Patterns *)
  Lemma atom_narrow a g : narrow (w_expr has T (XAtom a) g).
  Proof. intros i. cbn [w_expr]. destruct (nth_error T i); [|now left]. destruct (has a n); [right; eauto|now left]. Qed.
  Lemma w_branch_over u v g i : w_branch has T (u ++ v) g i = then_ (w_branch has T u g i) (w_branch has T v (g + groups_branch u)).
  Proof.
    revert g i. induction u as [|p u IH]; intros g i; cbn [app w_branch]; [rewrite then_first; cbn; now rewrite Nat.add_0_r|]. rewrite then_then. apply then_ext. intros j. rewrite IH. cbn. now rewrite Nat.add_assoc.
  Qed.
  Lemma w_alts_over u v g i : w_alts has T (u ++ v) g i = w_alts has T u g i ++ w_alts has T v (g + groups u) i.
  Proof.
    revert g. induction u as [|b u IH]; intros g; cbn [app w_alts]; [cbn; now rewrite Nat.add_0_r|]. rewrite IH, <- app_assoc. cbn. now rewrite Nat.add_assoc.
  Qed.
  Lemma groupless_branch b : groups_branch b = 0 -> forall g g' i, w_branch has T b g i = w_branch has T b g' i.
  Proof.
    induction b as [|p b IH]; intros H g g' i; [reflexivity|]. change (groups_part p + groups_branch b = 0) in H. cbn [w_branch]. rewrite (then_ext _ _ (w_branch has T b (g' + groups_part p))) by (intros j; apply IH; lia). f_equal.
    destruct p as [[a|]|[a|] q| |]; cbn in H; try discriminate H; reflexivity.
  Qed.
  Lemma same_order :
    (forall x y, same_expr x y -> groups_expr x = groups_expr y /\ forall g i, same_choice (w_expr has T x g i) (w_expr has T y g i)) /\
    (forall p q, same_part p q -> groups_part p = groups_part q /\ forall g i, same_choice (w_part has T p g i) (w_part has T q g i)) /\
    (forall a b, same_branch a b -> groups_branch a = groups_branch b /\ forall g i, same_choice (w_branch has T a g i) (w_branch has T b g i)) /\
    (forall d e, same_ere d e -> groups d = groups e /\ forall g i, same_choice (w_alts has T d g i) (w_alts has T e g i)).
  Proof using Hhas.
    apply same_ind4.
    - intros x. split; [reflexivity|]. intros g i. apply choice_refl.
    - intros a b _ [G H]. split; [change (S (groups a) = S (groups b)); now rewrite G|]. intros g i. rewrite !w_expr_sub. apply choice_map, H.
    - intros a b H. split; [reflexivity|]. intros g i. apply choice_eq. cbn [w_expr]. destruct (nth_error T i) as [c|]; [|reflexivity].
      assert (E : has a c = has b c) by (apply Bool.eq_iff_eq_true; rewrite !Hhas; apply H). now rewrite E.
    - intros p. split; [reflexivity|]. intros g i. apply choice_refl.
    - intros x y _ [G H]. split; [assumption|]. intros g i. apply H.
    - intros x y q r _ [G H] Q. split; [assumption|]. intros g i. cbn [w_part]. rewrite (quant_ways_same _ q r i Q). now apply choice_quant.
    - intros b. split; [reflexivity|]. intros g i. apply choice_refl.
    - intros a b _ [G H]. split; [now symmetry|]. intros g i. now apply choice_sym.
    - intros a b c _ [G1 H1] _ [G2 H2]. split; [congruence|]. intros g i. eapply choice_trans; [apply H1|apply H2].
    - intros p q a b _ [G1 H1] _ [G2 H2]. split; [change (groups_part p + groups_branch a = groups_part q + groups_branch b); congruence|]. intros g i. cbn [w_branch]. rewrite G1. apply choice_then; [apply H1|]. intros j. apply H2.
    - intros x q b H. split; [reflexivity|]. intros g i. apply choice_eq. cbn [w_branch w_part groups_part]. rewrite (count_ways _ q 1 i H). cbn [times]. now rewrite then_nil.
    - intros a q b H. split; [reflexivity|]. intros g i. apply choice_eq. cbn [w_branch w_part groups_part groups_expr]. rewrite (count_ways _ q 0 i H). cbn [times]. now rewrite then_first, Nat.add_0_r.
    - intros a q r t b k H1 H2 H3. split; [reflexivity|]. intros g i. apply choice_eq. cbn [w_branch w_part groups_part groups_expr]. rewrite (unroll_ways _ q r t k i H1 H2 H3), !Nat.add_0_r. apply then_then.
    - intros a r t b k H. split; [reflexivity|]. intros g i. apply choice_eq. cbn [w_branch w_part groups_part groups_expr]. rewrite !Nat.add_0_r, <- !then_then. f_equal. apply (swap_ways (w_expr has T (XAtom a) g) r t k); [apply atom_narrow|assumption].
    - intros b. split; [reflexivity|]. intros g i. apply choice_eq. cbn [w_branch w_part groups_part]. rewrite !Nat.add_0_r. destruct (i =? 0) eqn:E; [|reflexivity]. rewrite !then_first, E. now rewrite then_first.
    - intros b. split; [reflexivity|]. intros g i. apply choice_eq. cbn [w_branch w_part groups_part]. rewrite !Nat.add_0_r. destruct (i =? length T) eqn:E; [|reflexivity]. rewrite !then_first, E. now rewrite then_first.
    - intros e. split; [reflexivity|]. intros g i. apply choice_refl.
    - intros a b _ [G H]. split; [now symmetry|]. intros g i. now apply choice_sym.
    - intros a b c _ [G1 H1] _ [G2 H2]. split; [congruence|]. intros g i. eapply choice_trans; [apply H1|apply H2].
    - intros a b d e _ [G1 H1] _ [G2 H2]. split; [change (groups_branch a + groups d = groups_branch b + groups e); congruence|]. intros g i. cbn [w_alts]. rewrite G1. now apply choice_app.
    - intros b m e H. split.
      + assert (O : forall x y, groups (x ++ y) = groups x + groups y) by (intros x y; unfold groups; now rewrite map_app, list_sum_app).
        change (groups_branch b + groups (m ++ b :: e) = groups_branch b + groups (m ++ e)). rewrite !O. change (groups (b :: e)) with (groups_branch b + groups e). lia.
      + intros g i. cbn [w_alts]. rewrite !w_alts_over. cbn [w_alts]. rewrite H, !Nat.add_0_r. rewrite (groupless_branch b H (g + groups m) g). apply choice_again.
    - intros u x q v e H Hq. split; [change (groups_branch (u ++ PQuant x q :: v) + groups e = groups e); now rewrite H|]. intros g i. apply choice_eq. cbn [w_alts]. rewrite H, Nat.add_0_r, w_branch_over.
      rewrite (then_ext _ _ (fun _ => [])) by (intros j; cbn [w_branch w_part]; rewrite (never_ways _ q j Hq); reflexivity). unfold then_. cbn [map]. induction (w_branch has T u g i); [reflexivity|assumption].
    - intros a q v e H Hq. set (x := PSingle (XAtom a) :: v). assert (Gx : groups_branch x = 0) by exact H. assert (Gq : groups_branch (PQuant (XAtom a) q :: v) = 0) by exact H.
      assert (W : forall g i, w_branch has T (PQuant (XAtom a) q :: v) g i = if q_alt q then w_branch has T v g i ++ w_branch has T x g i else w_branch has T x g i ++ w_branch has T v g i).
      { intros g i. subst x. cbn [w_branch w_part groups_part groups_expr]. rewrite (optional_ways _ q i Hq), Nat.add_0_r. destruct (q_alt q).
        - apply then_cons.
        - now rewrite then_over, then_first. }
      clearbody x. split.
      + change (groups_branch (PQuant (XAtom a) q :: v) + groups e = groups (if q_alt q then v :: x :: e else x :: v :: e)). destruct (q_alt q); [change (groups (v :: x :: e)) with (groups_branch v + (groups_branch x + groups e))|change (groups (x :: v :: e)) with (groups_branch x + (groups_branch v + groups e))]; lia.
      + intros g i. apply choice_eq. cbn [w_alts]. rewrite W, Gq. destruct (q_alt q); cbn [w_alts]; now rewrite Gx, H, !Nat.add_0_r, <- app_assoc.
    - intros a u c v e Hu Hv H. split.
      { change (groups_branch u + (groups_branch v + groups e) = groups_branch v + (groups_branch u + groups e)). lia. }
      intros g i. apply choice_eq. assert (Gu : groups_branch (PSingle (XAtom a) :: u) = 0) by exact Hu. assert (Gv : groups_branch (PSingle (XAtom c) :: v) = 0) by exact Hv.
      cbn [w_alts]. rewrite Gu, Gv, !Nat.add_0_r. rewrite !app_assoc. f_equal. cbn [w_branch w_part w_expr]. destruct (nth_error T i) as [z|]; [|reflexivity].
      destruct (has a z) eqn:E1, (has c z) eqn:E2; try reflexivity; [exfalso; apply (H z); now apply Hhas| |]; cbn [then_ flat_map]; now rewrite ?app_nil_r.
  Qed.
  Lemma same_matches d e : same_ere d e -> same_choice (all_matches has T d) (all_matches has T e).
  Proof using Hhas.
    intros H. apply same_order in H as [_ H]. unfold all_matches. apply choice_flat; [apply choice_refl|]. intros i. apply choice_map, H.
  Qed.
End Order.
