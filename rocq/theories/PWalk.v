(** Drawings read as automata. *)
From Coq Require Import String.
From Verif Require Export PLabel SpecWalk PCompile PLaws.
From Coq Require Import ZifyBool ZifyNat ZifyN Permutation Sorted.
Open Scope nat_scope.
Open Scope list_scope.
Notation length := List.length.
Set Default Proof Using "Type".
Local Arguments show_nat : simpl never.
Local Arguments show_N : simpl never.

(** ** Labels *)
Lemma hex_fun v w x : hex_of v x -> hex_of w x -> v = w.
Proof.
  unfold hex_of. intros H1 H2. assert (N : NoDup (s2l "0123456789abcdef")).
  { apply (NoDup_nth_error (s2l "0123456789abcdef")). intros i j Hi E. do 16 (destruct i as [|i]; [do 16 (destruct j as [|j]; [try reflexivity; exfalso; vm_compute in E; discriminate|]); exfalso; vm_compute in E; destruct j; discriminate|]). vm_compute in Hi. lia. }
  rewrite NoDup_nth_error in N. assert (L : N.to_nat v < length (s2l "0123456789abcdef")) by (apply nth_error_Some; congruence).
  assert (G := N (N.to_nat v) (N.to_nat w) L). lapply G; [lia|congruence].
Qed.
Lemma hex_digit_of d : (d < 16)%N -> hex_of d (hex_digit d).
Proof.
  intros H. unfold hex_of, hex_digit. assert (G : forallb (fun n => match nth_error (s2l "0123456789abcdef") n with Some c => (c =? (if N.of_nat n <? 10 then ch "0" + N.of_nat n else ch "a" + (N.of_nat n - 10)))%N | None => false end) (seq 0 16) = true) by (vm_compute; reflexivity).
  rewrite forallb_forall in G. specialize (G (N.to_nat d) ltac:(apply in_seq; lia)). rewrite N2Nat.id in G. destruct (nth_error _ _); [|discriminate]. apply N.eqb_eq in G. now subst.
Qed.
Lemma byte_text_fun t b t' b' s s' : byte_text t b -> byte_text t' b' -> t ++ s = t' ++ s' -> b = b' /\ t = t' /\ s = s'.
Proof.
  intros H H' E. destruct H, H'; cbn in E; injection E; intros; subst; try discriminate; try contradiction;
    repeat match goal with X : In _ [_; _; _; _; _] |- _ => cbn [In] in X; repeat destruct X as [X|X]; try (now destruct X); injection X; clear X; intros; subst; try discriminate end;
    try discriminate; try contradiction;
    repeat match goal with A : hex_of ?v ?x, B : hex_of ?w ?x |- _ => let E0 := fresh in assert (E0 := hex_fun v w x A B); clear B; try subst v end; auto.
Qed.
Lemma ascii_text_fun t b t' b' s s' : ascii_text t b -> ascii_text t' b' -> t ++ s = t' ++ s' -> b = b' /\ t = t' /\ s = s'.
Proof.
  intros H H' E. destruct H, H'; cbn in E; injection E; intros; subst; try discriminate; try contradiction; try (now exfalso; auto);
    repeat match goal with X : In _ [_; _; _; _; _; _] |- _ => cbn [In] in X; repeat destruct X as [X|X]; try (now destruct X); injection X; clear X; intros; subst; try discriminate end;
    try discriminate; try contradiction;
    repeat match goal with A : hex_of ?v ?x, B : hex_of ?w ?x |- _ => let E0 := fresh in assert (E0 := hex_fun v w x A B); clear B; try subst v end; auto.
Qed.
Lemma hex2_text b : (b < 256)%N -> exists v w, hex_of v (hex_digit (b / 16)%N) /\ hex_of w (hex_digit (b mod 16)%N) /\ b = (16 * v + w)%N.
Proof.
  intros H. exists (b / 16)%N, (b mod 16)%N. split; [apply hex_digit_of, N.div_lt_upper_bound; lia|]. split; [apply hex_digit_of, N.mod_lt; lia|]. apply N.div_mod. lia.
Qed.
Lemma show_byte_text b : (b < 256)%N -> byte_text (show_byte_char b) b.
Proof.
  intros H. unfold show_byte_char.
  destruct ((33 <=? b)%N && (b <=? 126)%N) eqn:E1.
  { destruct ((b =? 39)%N || (b =? 92)%N) eqn:E2.
    - apply (bt_escape b b). apply orb_true_iff in E2 as [E2|E2]; apply N.eqb_eq in E2; subst b; cbn; tauto.
    - apply (bt_char b); lia. }
  destruct (N.eqb_spec b 9) as [->|E3]; [apply (bt_escape (ch "t") 9); cbn; tauto|].
  destruct (N.eqb_spec b 10) as [->|E4]; [apply (bt_escape (ch "n") 10); cbn; tauto|].
  destruct (N.eqb_spec b 13) as [->|E5]; [apply (bt_escape (ch "r") 13); cbn; tauto|].
  destruct (N.eqb_spec b 32) as [->|E6]; [apply (bt_char 32); lia|].
  destruct (N.eqb_spec b 12) as [->|E7]; [apply (bt_code 12 (ch "c")); reflexivity|].
  destruct (hex2_text b H) as (v & w & Hv & Hw & Hb). rewrite Hb at 2. apply (bt_hex v w _ _ Hv Hw).
Qed.
Lemma escape_ascii_text b : (b < 256)%N -> ascii_text (escape_ascii b) b.
Proof.
  intros H. unfold escape_ascii.
  destruct (N.eqb_spec b 9) as [->|E3]; [apply (at_escape (ch "t") 9); cbn; tauto|].
  destruct (N.eqb_spec b 10) as [->|E4]; [apply (at_escape (ch "n") 10); cbn; tauto|].
  destruct (N.eqb_spec b 13) as [->|E5]; [apply (at_escape (ch "r") 13); cbn; tauto|].
  destruct ((b =? 39)%N || (b =? 34)%N || (b =? 92)%N) eqn:E2.
  { apply (at_escape b b). assert (X : b = 39%N \/ b = 34%N \/ b = 92%N) by lia. destruct X as [->|[->| ->]]; cbn; tauto. }
  destruct ((32 <=? b)%N && (b <=? 126)%N) eqn:E1; [apply at_char; lia|].
  destruct (hex2_text b H) as (v & w & Hv & Hw & Hb). rewrite Hb at 2. apply (at_hex v w _ _ Hv Hw).
Qed.
Lemma byte_text_ne b : ~ byte_text [] b.
Proof. intros H. inversion H. Qed.
Lemma show_range_text r : byte_range r -> range_text (show_byte_range r) (fst r) (snd r).
Proof.
  destruct r as [a b]. intros [H1 H2]. cbn [fst snd] in *. unfold show_byte_range. cbn [fst snd]. destruct (N.eqb_spec a b) as [->|E]; [now apply rt_one, show_byte_text|]. now apply rt_two; apply show_byte_text.
Qed.
Lemma range_text_fun t lo hi lo' hi' : range_text t lo hi -> range_text t lo' hi' -> lo = lo' /\ hi = hi'.
Proof.
  intros H H'. destruct H as [t b Hb|t u lo hi Ht Hu]; inversion H' as [t' b' Hb'|t' u' ? ? Ht' Hu' E]; subst.
  - destruct (byte_text_fun _ _ _ _ [] [] Hb Hb' eq_refl) as [-> _]. now split.
  - exfalso. rewrite <- (app_nil_r (t' ++ s2l "..=" ++ u')) in Hb. assert (X := byte_text_fun _ _ _ _ [] (s2l "..=" ++ u') Hb Ht'). rewrite !app_nil_r in X. destruct (X eq_refl) as (_ & _ & X2). discriminate.
  - exfalso. assert (X := byte_text_fun _ _ _ _ (s2l "..=" ++ u) [] Ht Hb'). rewrite !app_nil_r in X. destruct (X eq_refl) as (_ & _ & X2). discriminate.
  - symmetry in E. destruct (byte_text_fun _ _ _ _ _ _ Ht Ht' E) as (-> & -> & E2). injection E2 as <-. destruct (byte_text_fun _ _ _ _ [] [] Hu Hu' eq_refl) as [-> _]. now split.
Qed.
Lemma ascii_bracket t b : ascii_text (s2l "[" ++ t) b -> t = [].
Proof. intros H. inversion H; subst; try discriminate. reflexivity. Qed.
Lemma show_byte_class r : byte_range r -> byte_class (show_u8_atom r) (fst r) (snd r).
Proof.
  destruct r as [a b]. intros [H1 H2]. cbn [fst snd] in *. unfold show_u8_atom. cbn [fst snd]. destruct (N.eqb_spec a b) as [->|E]; [now apply ct_one, escape_ascii_text|]. now apply ct_two; apply escape_ascii_text.
Qed.
Lemma byte_class_fun t lo hi lo' hi' : byte_class t lo hi -> byte_class t lo' hi' -> lo = lo' /\ hi = hi'.
Proof.
  intros H H'. destruct H as [t b Hb|t u lo hi Ht Hu]; inversion H' as [t' b' Hb'|t' u' ? ? Ht' Hu' E]; subst.
  - destruct (ascii_text_fun _ _ _ _ [] [] Hb Hb' eq_refl) as [-> _]. now split.
  - exfalso. apply ascii_bracket in Hb. destruct t'; discriminate.
  - exfalso. apply ascii_bracket in Hb'. destruct t; discriminate.
  - symmetry in E. destruct (ascii_text_fun _ _ _ _ _ _ Ht Ht' E) as (-> & -> & E2). injection E2 as E2. destruct (ascii_text_fun _ _ _ _ _ _ Hu Hu' E2) as (-> & _ & _). now split.
Qed.
Lemma byte_text_no_dollar b : ~ byte_text (s2l "$") b.
Proof. intros H. inversion H. Qed.
Lemma range_no_dollar lo hi : ~ range_text (s2l "$") lo hi.
Proof. intros H. inversion H as [? ? Hb E|? ? ? ? Ht Hu E]; subst; [now apply byte_text_no_dollar in Hb|]. destruct Ht; cbn in E; discriminate. Qed.
Lemma range_ne lo hi : ~ range_text [] lo hi.
Proof. intros H. inversion H as [? ? Hb E|? ? ? ? Ht Hu E]; subst; [now apply byte_text_ne in Hb|]. destruct Ht; cbn in E; discriminate. Qed.
Lemma zero_not_prints l e t : zero_label l e -> ~ prints l t.
Proof.
  intros Hz H. destruct Hz as [i num Hn|i num Hn|i num Hn|i num k grp Hn Hk|i num k grp Hn Hk]; try exact (not_prints_dollar _ _ H).
  assert (G : exists t', prints (s2l "$_{" ++ num ++ s2l "}$") t'); [|destruct G as [t' G]; exact (not_prints_dollar _ _ G)].
  change (s2l "{\textasciicircum}$_{" ++ num ++ s2l "}$") with (s2l "{\" ++ s2l "textasciicircum" ++ s2l "}" ++ (s2l "$_{" ++ num ++ s2l "}$")) in H.
  remember (s2l "$_{" ++ num ++ s2l "}$") as rest. remember (s2l "{\" ++ s2l "textasciicircum" ++ s2l "}" ++ rest) as full eqn:Ef.
  inversion H as [E|? s1 ? Hc' Hp' E|? s1 ? Hc' Hp' E|w' c' s1 t1 Hw' Hp' E].
  - rewrite Ef in E. discriminate.
  - rewrite Ef in E. injection E as E1 E2. rewrite E1 in Hc'. discriminate.
  - rewrite Ef in E. discriminate.
  - rewrite Ef in E. apply app_inv_head in E. cbn [In] in Hw'. destruct Hw' as [Hw'|[Hw'|[Hw'|[]]]]; injection Hw' as <- <-; try discriminate.
    cbn in E. injection E as E. subst s1. eauto.
Qed.
Lemma digits_split c c' s s' a : ~ is_digit c -> ~ is_digit c' -> forall b, Forall is_digit a -> Forall is_digit b -> a ++ c :: s = b ++ c' :: s' -> a = b.
Proof.
  intros Hc Hc'. induction a as [|x a IH]; intros b Ha Hb E.
  - destruct b as [|y b]; [reflexivity|]. cbn in E. injection E as -> _. inversion Hb; subst. contradiction.
  - destruct b as [|y b]; [cbn in E; injection E as <- _; inversion Ha; subst; contradiction|]. cbn in E. injection E as -> E. inversion Ha; inversion Hb; subst. f_equal. now apply IH.
Qed.
Lemma zero_label_fun0 l l' e e' : zero_label l e -> zero_label l' e' -> l' = l -> e = e'.
Proof.
  assert (D : forall c, In c (s2l "\{}()_$") -> ~ is_digit c).
  { intros c Hc Hd. unfold is_digit in Hd. cbn in Hc. repeat destruct Hc as [<-|Hc]; vm_compute in Hd; destruct Hd as [Hd1 Hd2]; try (now apply Hd1); try (now apply Hd2); destruct Hc. }
  assert (F : forall n a s, decimal n (a :: s) -> is_digit a) by (intros n a s (_ & Hd & _); now inversion Hd).
  assert (Z : forall n s, decimal n s -> exists a s', s = a :: s') by (intros n [|a s] (Hn & _); [congruence|eauto]).
  assert (K : forall k k' g g' c s c' s', decimal (N.of_nat k) g -> decimal (N.of_nat k') g' -> In c (s2l "\{}()_$") -> In c' (s2l "\{}()_$") -> g ++ c :: s = g' ++ c' :: s' -> k = k').
  { intros k k' g g' c s c' s' (_ & H1 & H2) (_ & H3 & H4) Hc Hc' E. assert (g = g') by (eapply digits_split; [apply (D c Hc)|apply (D c' Hc')|assumption|assumption|exact E]). subst g'. lia. }
  assert (Q : forall k g c s s', decimal (N.of_nat k) g -> In c (s2l "\{}()_$") -> g ++ s = c :: s' -> False).
  { intros k g c s s' Hk Hc E. destruct (Z _ _ Hk) as (a & g0 & ->). apply F in Hk. cbn in E. injection E as -> _. exact (D c Hc Hk). }
  intros H H' E. destruct H as [i num Hn|i num Hn|i num Hn|i num k grp Hn Hk|i num k grp Hn Hk];
    destruct H' as [i' num' Hn'|i' num' Hn'|i' num' Hn'|i' num' k' grp' Hn' Hk'|i' num' k' grp' Hn' Hk']; try reflexivity; cbn in E; try discriminate E; injection E as E;
    try (exfalso; eapply (Q _ _ _ _ _ Hk'); [|exact E]; cbn; tauto); try (exfalso; symmetry in E; eapply (Q _ _ _ _ _ Hk); [|exact E]; cbn; tauto).
  - f_equal. symmetry. eapply (K _ _ _ _ _ _ _ _ Hk' Hk); [| |exact E]; cbn; tauto.
  - f_equal. symmetry. eapply (K _ _ _ _ _ _ _ _ Hk' Hk); [| |exact E]; cbn; tauto.
Qed.
Lemma zero_label_fun l e e' : zero_label l e -> zero_label l e' -> e = e'.
Proof. intros H H'. exact (zero_label_fun0 _ _ _ _ H H' eq_refl). Qed.
Lemma eps_label_zero i e : zero_label (eps_label i e) e.
Proof. destruct e; unfold eps_label; econstructor; apply show_nat_decimal. Qed.

(** ** NFA drawings *)
Lemma enum_nth {A B} (f : nat * A -> B) l x : nth_error (map f (enumerate l)) x = option_map (fun a => f (x, a)) (nth_error l x).
Proof.
  rewrite nth_error_map. destruct (nth_error l x) as [a|] eqn:E.
  - apply In_enumerate in E. assert (G := E). apply In_nth_error in G as (k & G). assert (X : k = x); [|now subst; rewrite G]. clear E. revert G. unfold enumerate.
    assert (Y : forall o, nth_error (combine (seq o (length l)) l) k = Some (x, a) -> x = o + k); [|intros G; apply Y in G; lia].
    revert k. induction l as [|y l IH]; intros [|k] o; cbn; intros G; try discriminate; [injection G as <- _; lia|]. apply IH in G. lia.
  - cbn. apply nth_error_None in E. destruct (nth_error (enumerate l) x) eqn:G; [|reflexivity]. assert (x < length (enumerate l)) by (apply nth_error_Some; congruence). rewrite enumerate_length in *. lia.
Qed.
Section NfaWalk.
  Context {A : Type}.
  Variable show : A -> list N.
  Variable check : A -> N -> bool.
  Variable has : list N -> N -> Prop.
  Variable m : nfa A.
  Hypothesis Hh : forall x y a, In (y, a) (trans (get m x)) -> forall c, has (show a) c <-> check a c = true.
  Let g := nfa_graph show m.
  Lemma nfa_arrow x l y : arc_to g x l y <->
    (exists r, In (y, r) (trans (get m x)) /\ l = escape_latex (show r)) \/ (exists k e, nth_error (eps (get m x)) k = Some (y, e) /\ l = eps_label k e).
  Proof.
    unfold arc_to, g, nfa_graph. rewrite enum_nth. unfold get. destruct (nth_error m x) as [st|] eqn:E.
    - rewrite (nth_error_nth _ _ _ E). cbn [option_map]. split.
      + intros (s & [= <-] & H). cbn [g_trans] in H. apply in_app_or in H as [H|H]; apply in_map_iff in H as (t & Et & Ht).
        * left. destruct t as [y' r]. injection Et as <- <-. eauto.
        * right. destruct t as [k [y' e]]. injection Et as <- <-. apply In_enumerate in Ht. eauto.
      + intros H. eexists. split; [reflexivity|]. cbn [g_trans]. apply in_or_app. destruct H as [(r & H & ->)|(k & e & H & ->)].
        * left. apply in_map_iff. exists (y, r). auto.
        * right. apply in_map_iff. exists (k, (y, e)). split; [reflexivity|]. now apply In_enumerate.
    - rewrite (nth_overflow _ _ (proj1 (nth_error_None _ _) E)). cbn. split; [intros (s & H & _); discriminate|]. intros [(r & [] & _)|([|k] & e & H & _)]; discriminate.
  Qed.
  Lemma tour_path x w y : tour has g x w y <-> path check m x w y.
  Proof using Hh.
    split.
    - induction 1 as [x|x l y t b w z Ha Hp Hb Hw IH|x l y w z Ha Hz Hw IH|x l y e w z Ha Hz He Hw IH]; [constructor|..]; apply nfa_arrow in Ha as [(r & Hr & ->)|(k & e' & Hk & ->)].
      + assert (Et := prints_fun _ _ Hp _ (escape_prints (show r))). subst t. eapply p_sym; [exact Hr| |exact IH]. now apply (Hh _ _ _ Hr).
      + exfalso. exact (zero_not_prints _ _ _ (eps_label_zero k e') Hp).
      + exfalso. exact (zero_not_prints _ _ _ Hz (escape_prints _)).
      + rewrite (zero_label_fun _ _ _ (eps_label_zero k e') Hz) in Hk. apply nth_error_In in Hk. exact (p_eps check m x y ENone w z Hk IH).
      + exfalso. exact (zero_not_prints _ _ _ Hz (escape_prints _)).
      + rewrite (zero_label_fun _ _ _ (eps_label_zero k e') Hz) in Hk. apply nth_error_In in Hk. assert (X := p_eps check m x y e w z Hk IH). destruct e; [congruence|exact X..].
    - induction 1 as [x|x t e w u Ht Hw IH|x t a c w u Ht Hc Hw IH]; [constructor|..].
      + apply In_nth_error in Ht as (k & Hk). assert (Ha : arc_to g x (eps_label k e) t) by (apply nfa_arrow; right; eauto).
        destruct e; [exact (to_skip _ _ _ _ _ _ _ Ha (eps_label_zero k _) IH)|cbn [mark app]; eapply to_mark; [exact Ha|apply eps_label_zero|discriminate|exact IH]..].
      + eapply to_read; [apply nfa_arrow; left; exists a; split; [exact Ht|reflexivity]|apply escape_prints| |exact IH]. now apply (Hh _ _ _ Ht).
  Qed.
  Lemma nfa_tours w : m <> [] -> tours has g w <-> lang check m w.
  Proof using Hh.
    intros Hn. unfold tours, lang. assert (N : forall x, (exists s, nth_error g x = Some s /\ g_initial s = true) <-> x = 0 /\ x < length m).
    { intros x. unfold g, nfa_graph. rewrite enum_nth. destruct (nth_error m x) as [st|] eqn:E.
      - assert (L : x < length m) by (apply nth_error_Some; congruence). cbn [option_map]. split; [intros (s & [= <-] & H); cbn in H; lia|]. intros [-> _]. eexists. split; reflexivity.
      - apply nth_error_None in E. split; [intros (s & H & _); discriminate|lia]. }
    assert (K : forall x, (exists s, nth_error g x = Some s /\ g_accept s = true) <-> x + 1 = length m).
    { intros x. unfold g, nfa_graph. rewrite enum_nth. destruct (nth_error m x) as [st|] eqn:E.
      - cbn [option_map]. split; [intros (s & [= <-] & H); cbn in H; lia|]. intros H. eexists. split; [reflexivity|]. cbn. lia.
      - apply nth_error_None in E. split; [intros (s & H & _); discriminate|lia]. }
    assert (L : 1 <= length m) by (destruct m; [congruence|cbn; lia]). unfold initial, accepting. split.
    - intros (x & y & Hx & Ht & Hy). apply N in Hx as [-> _]. apply K in Hy. apply tour_path in Ht. now replace (length m - 1) with y by lia.
    - intros H. exists 0, (length m - 1). split; [apply N; lia|]. split; [now apply tour_path|apply K; lia].
  Qed.
End NfaWalk.
Lemma byte_tours m w : bytes_nfa m -> m <> [] -> tours has_byte (nfa_graph show_u8_atom m) w <-> lang byte_check m w.
Proof.
  intros Hm. apply nfa_tours. intros x y r H c. assert (B : byte_range r).
  { unfold get in H. destruct (Nat.lt_ge_cases x (length m)) as [L|L]; [|rewrite (nth_overflow _ _ L) in H; destruct H].
    unfold bytes_nfa in Hm. rewrite Forall_forall in Hm. specialize (Hm _ (nth_In _ empty_state L)). rewrite Forall_forall in Hm. exact (Hm _ H). }
  unfold has_byte, byte_check, in_range. split.
  - intros (lo & hi & Ht & Hc). destruct (byte_class_fun _ _ _ _ _ Ht (show_byte_class r B)) as [-> ->]. destruct r. cbn [fst snd] in *. lia.
  - intros Hc. exists (fst r), (snd r). split; [now apply show_byte_class|]. destruct r. cbn [fst snd] in *. lia.
Qed.

Lemma atom_unique a b t : G_atom a t -> G_atom b t -> a = b.
Proof.
  assert (G : forall a, G_atom a t -> G_ere [[PSingle (XAtom a)]] t).
  { intros x H. apply Ge_one. rewrite <- (app_nil_r t). apply Gbr_cons; [|constructor]. now apply Gp_single, Gx_atom. }
  intros Ha Hb. assert (E := grammar_unique _ _ _ (G a Ha) (G b Hb)). now injection E.
Qed.
Lemma any_no_atom a : ~ G_atom a (s2l "[^]").
Proof.
  assert (L : forall ts, ~ G_list ts (s2l "]")).
  { intros ts H. inversion H as [? ? Hn Hb|? ? Hb]; subst; [apply Hn; cbn; eexists; reflexivity|inversion Hb]. }
  intros H. inversion H as [| | |ts t Hn Hl E|ts t Hl E]; subst.
  - apply Hn. cbn. eexists. reflexivity.
  - exact (L _ Hl).
Qed.
Lemma grammar_written :
  (forall p t, G_part p t -> part_atoms (fun a => exists u, G_atom a u) p) /\
  (forall e t, G_expr e t -> expr_atoms (fun a => exists u, G_atom a u) e) /\
  (forall b t, G_branch b t -> branch_atoms (fun a => exists u, G_atom a u) b) /\
  (forall e t, G_ere e t -> ere_atoms (fun a => exists u, G_atom a u) e).
Proof.
  apply G_mutind; intros; cbn; eauto.
Qed.
Lemma working_written s e n : G_ere e s -> Forall scalar s -> working_new (tree_of e) = Ok n -> n <> [] ->
  forall x y a, In (y, a) (trans (get n x)) -> a = NonmatchingList [] \/ exists u, G_atom a u.
Proof.
  intros Hg Hs En Hn. assert (Ha : ere_atoms atom_ok e) by (eapply grammar_atoms_ok; eauto).
  assert (He : ere_atoms (fun a => a = NonmatchingList [] \/ exists u, G_atom a u) e).
  { apply (proj2 (proj2 (proj2 (atoms_In _)))). intros a Hi. right. revert a Hi. apply (proj2 (proj2 (proj2 (atoms_In (fun a => exists u, G_atom a u))))). eapply grammar_written; eauto. }
  destruct (working_spec true true (tree_of e)) as (n' & En' & H).
  - eapply tree_labels_mono; [|apply tree_of_labels; exact Ha]. auto.
  - apply tree_of_ok.
  - apply tree_of_length.
  - unfold working_new in En. rewrite En in En'. injection En' as <-. destruct H as [[-> _]|(_ & _ & _ & _ & _ & H6)]; [congruence|].
    assert (HF : Forall (lab (fun a => a = NonmatchingList [] \/ exists u, G_atom a u) (mark_in 0 (S (groups e)))) n).
    { apply H6; [exact I|now left|]. apply tree_of_labels. exact He. }
    intros x y a Hin. unfold get in Hin. destruct (Nat.lt_ge_cases x (length n)) as [L|L]; [|rewrite (nth_overflow _ _ L) in Hin; destruct Hin].
    rewrite Forall_forall in HF. destruct (HF _ (nth_In _ empty_state L)) as [HT _]. exact (HT _ _ Hin).
Qed.
Lemma char_tours s e n w : G_ere e s -> Forall scalar s -> working_new (tree_of e) = Ok n -> n <> [] -> tours has_char (nfa_graph show_atom n) w <-> lang acheck n w.
Proof.
  intros Hg Hs En Hn. apply nfa_tours; [|exact Hn]. intros x y a Hin c. unfold has_char, acheck. rewrite andb_true_iff, atom_check_iff. unfold scalar.
  destruct (working_written s e n Hg Hs En Hn x y a Hin) as [->|(u & Hu)].
  - cbn [show_atom flat_map app]. split; [|intros [_ H]; split; [exact H|now left]]. intros [H _]. split; [|exact H]. cbn. intros (t & [] & _).
  - apply show_atom_ok in Hu. split.
    + intros [H [E|(b & Hb & Hc)]]; [rewrite E in Hu; now apply any_no_atom in Hu|]. split; [|exact H]. now rewrite (atom_unique _ _ _ Hu Hb).
    + intros [H1 H2]. split; [exact H2|]. right. exists a. auto.
Qed.

(** ** DFA drawings *)
Definition node_of (s : option nat) : nat := match s with None => 0 | Some i => S i end.
Lemma dfa_nth d s : dlabel d s -> nth_error (d_start d :: d_states d) (node_of s) = Some (d_get d s).
Proof. destruct s as [i|]; cbn; [|reflexivity]. apply nth_error_nth'. Qed.
Definition acc_arrow (d : dfa) (a : dacc) (l : list N) (y : nat) : Prop :=
  y = length (d_states d) + 1 /\ (a = DAnchored /\ l = s2l "\$" \/ a = DAlways /\ l = []).
Definition trans_arrow (ts : list (nat * range)) (l : list N) (y : nat) : Prop :=
  exists t, In t ts /\ y = fst t + 1 /\ l = escape_latex (show_byte_range (snd t)).
Lemma nth_tail {A} (l : list A) a x : nth_error (l ++ [a]) x = if x <? length l then nth_error l x else if x =? length l then Some a else None.
Proof.
  destruct (Nat.ltb_spec x (length l)) as [H|H]; [now apply nth_error_app1|]. rewrite nth_error_app2 by assumption.
  destruct (Nat.eqb_spec x (length l)) as [->|Hn]; [now rewrite Nat.sub_diag|]. apply nth_error_None. cbn. lia.
Qed.
Lemma dfa_arrow d s l y : dlabel d s -> arc_to (dfa_graph d) (node_of s) l y <-> trans_arrow (ds_trans (d_get d s)) l y \/ acc_arrow d (ds_acc (d_get d s)) l y.
Proof.
  intros Hs. assert (L : node_of s < length (d_start d :: d_states d)) by (apply nth_error_Some; rewrite (dfa_nth d s Hs); discriminate).
  unfold arc_to, dfa_graph. rewrite nth_tail, map_length, enumerate_length. destruct (Nat.ltb_spec (node_of s) (length (d_start d :: d_states d))) as [_|X]; [|lia].
  rewrite enum_nth, (dfa_nth d s Hs). cbn [option_map]. unfold trans_arrow, acc_arrow. split.
  - intros (st & [= <-] & H). cbn [g_trans] in H. apply in_app_or in H as [H|H].
    + left. apply in_map_iff in H as (t & E & Ht). injection E as <- <-. eauto.
    + right. destruct (ds_acc (d_get d s)); cbn in H; [destruct H as [H|[]]; injection H as <- <-; auto..|destruct H].
  - intros H. eexists. split; [reflexivity|]. cbn [g_trans]. apply in_or_app. destruct H as [(t & Ht & -> & ->)|(-> & [(-> & ->)|(-> & ->)])].
    + left. apply in_map_iff. exists t. auto.
    + right. now left.
    + right. now left.
Qed.
Lemma dfa_initial d x : initial (dfa_graph d) x <-> x = 0.
Proof.
  unfold initial, dfa_graph. rewrite nth_tail, map_length, enumerate_length. destruct (Nat.ltb_spec x (length (d_start d :: d_states d))) as [L|L].
  - rewrite enum_nth. destruct (nth_error (d_start d :: d_states d) x) eqn:E; [|apply nth_error_None in E; lia]. cbn [option_map]. split; [intros (s & [= <-] & H); cbn in H; lia|].
    intros ->. eexists. split; reflexivity.
  - destruct (Nat.eqb_spec x (length (d_start d :: d_states d))) as [->|Hn]; (split; [intros (s & E & H); [injection E as <-; discriminate|discriminate]|cbn in *; lia]) || (split; [intros (s & E & H); try discriminate; injection E as <-; discriminate|cbn in *; lia]).
Qed.
Lemma dfa_accepting d x : accepting (dfa_graph d) x <-> x = length (d_states d) + 1.
Proof.
  unfold accepting, dfa_graph. rewrite nth_tail, map_length, enumerate_length. destruct (Nat.ltb_spec x (length (d_start d :: d_states d))) as [L|L].
  - rewrite enum_nth. destruct (nth_error (d_start d :: d_states d) x) eqn:E; [|apply nth_error_None in E; lia]. cbn [option_map]. split; [intros (s & [= <-] & H); discriminate H|cbn in L; lia].
  - destruct (Nat.eqb_spec x (length (d_start d :: d_states d))) as [->|Hn]; split; intros H; try (cbn; lia); try (cbn in *; lia); [eexists; split; reflexivity|destruct H as (s & H & _); discriminate].
Qed.
Lemma find_only b ts t : StronglySorted (fun a b : nat * range => (snd (snd a) < fst (snd b))%N) ts -> In t ts -> in_range b (snd t) = true -> find (fun t => in_range b (snd t)) ts = Some t.
Proof.
  induction 1 as [|x ts Hs IH Hx]; intros Ht Hb; [destruct Ht|]. cbn [find]. destruct Ht as [->|Ht]; [now rewrite Hb|]. rewrite Forall_forall in Hx. specialize (Hx t Ht).
  destruct (in_range b (snd x)) eqn:E; [|auto]. exfalso. unfold in_range in *. destruct x as [? [? ?]], t as [? [? ?]]. cbn [fst snd] in *. lia.
Qed.
Lemma dollar_prints : prints (s2l "\$") (s2l "$").
Proof. apply (pr_symbol (ch "$") [] []); [cbn; tauto|constructor]. Qed.
Section DfaWalk.
  Variable d : dfa.
  Hypothesis Hv : dvalid d.
  Hypothesis Hb : bytes_dfa d.
  Hypothesis Ho : forall s, In s (d_start d :: d_states d) -> StronglySorted (fun a b : nat * range => (snd (snd a) < fst (snd b))%N) (ds_trans s).
  Let g := dfa_graph d.
  Definition leads (x : nat) (bytes : list N) : Prop := exists pre post y l z,
    bytes = pre ++ post /\ byte_walk g x pre y /\ arc_to g y l z /\ accepting g z /\ (l = [] \/ prints l (s2l "$") /\ post = []).
  Lemma trans_bytes s t : dlabel d s -> In t (ds_trans (d_get d s)) -> byte_range (snd t).
  Proof using Hb. intros Hs Ht. unfold bytes_dfa in Hb. rewrite Forall_forall in Hb. specialize (Hb _ (d_get_In d s Hs)). rewrite Forall_forall in Hb. exact (Hb _ Ht). Qed.
  Lemma leads_here s (bytes : list N) : dlabel d s -> (exists l z, arc_to g (node_of s) l z /\ accepting g z /\ (l = [] \/ prints l (s2l "$") /\ bytes = [])) <->
    (ds_acc (d_get d s) = DAlways \/ ds_acc (d_get d s) = DAnchored /\ bytes = []).
  Proof using Hv Hb.
    intros Hs. split.
    - intros (l & z & Ha & Hz & Hl). apply dfa_accepting in Hz. apply dfa_arrow in Ha as [(t & Ht & Hy & _)|(_ & [(Ha & ->)|(Ha & ->)])]; [| |now left|exact Hs].
      + specialize (Hv _ t (d_get_In d s Hs) Ht). lia.
      + destruct Hl as [Hl|[_ Hl]]; [discriminate|now right].
    - intros [H|[H E]]; [exists [], (length (d_states d) + 1)|exists (s2l "\$"), (length (d_states d) + 1)]; (split; [apply dfa_arrow; [exact Hs|right; split; auto]|split; [now apply dfa_accepting|]]); [now left|right; split; [exact dollar_prints|exact E]].
  Qed.
  Lemma leads_step s b bytes : dlabel d s -> (exists l y t lo hi, arc_to g (node_of s) l y /\ prints l t /\ range_text t lo hi /\ (lo <= b <= hi)%N /\ leads y bytes) <->
    exists to r, find (fun t => in_range b (snd t)) (ds_trans (d_get d s)) = Some (to, r) /\ leads (node_of (Some to)) bytes.
  Proof using Hv Hb Ho.
    intros Hs. split.
    - intros (l & y & t & lo & hi & Ha & Hp & Hr & Hlh & Hl). apply dfa_arrow in Ha as [([to r] & Ht & -> & ->)|(_ & [(_ & ->)|(_ & ->)])]; [| | |exact Hs].
      + cbn [fst snd] in *. rewrite (prints_fun _ _ Hp _ (escape_prints _)) in Hr. destruct (range_text_fun _ _ _ _ _ Hr (show_range_text r (trans_bytes s _ Hs Ht))) as [-> ->].
        exists to, r. replace (node_of (Some to)) with (to + 1) by (cbn; lia). split; [|exact Hl]. apply find_only; [apply Ho, d_get_In, Hs|exact Ht|]. unfold in_range. cbn [snd]. destruct r. cbn [fst snd] in *. lia.
      + exfalso. rewrite (prints_fun _ _ Hp _ dollar_prints) in Hr. exact (range_no_dollar _ _ Hr).
      + exfalso. rewrite (prints_fun _ _ Hp _ pr_nil) in Hr. exact (range_ne _ _ Hr).
    - intros (to & r & E & Hl). apply find_some in E as [Ht Hr]. cbn [snd] in Hr. exists (escape_latex (show_byte_range r)), (to + 1), (show_byte_range r), (fst r), (snd r).
      split; [apply dfa_arrow; [exact Hs|left; exists (to, r); auto]|]. split; [apply escape_prints|]. split; [apply show_range_text; exact (trans_bytes s _ Hs Ht)|].
      split; [unfold in_range in Hr; destruct r; cbn [fst snd] in *; lia|]. now replace (to + 1) with (node_of (Some to)) by (cbn; lia).
  Qed.
  Lemma leads_cases x (bytes : list N) : leads x bytes <-> (exists l z, arc_to g x l z /\ accepting g z /\ (l = [] \/ prints l (s2l "$") /\ bytes = [])) \/
    exists b bs, bytes = b :: bs /\ exists l y t lo hi, arc_to g x l y /\ prints l t /\ range_text t lo hi /\ (lo <= b <= hi)%N /\ leads y bs.
  Proof using Type.
    split.
    - intros (pre & post & y & l & z & -> & Hw & Ha & Hz & Hl). inversion Hw as [|? l1 y1 t lo hi b bs ? H1 H2 H3 H4 H5]; subst.
      + left. exists l, z. auto.
      + right. exists b, (bs ++ post). split; [reflexivity|]. exists l1, y1, t, lo, hi. repeat (split; [assumption|]). exists bs, post, y, l, z. auto.
    - intros [(l & z & Ha & Hz & Hl)|(b & bs & -> & l1 & y1 & t & lo & hi & H1 & H2 & H3 & H4 & pre & post & y & l & z & -> & Hw & Ha & Hz & Hl)].
      + exists [], bytes, x, l, z. split; [reflexivity|]. split; [constructor|]. auto.
      + exists (b :: pre), post, y, l, z. split; [reflexivity|]. split; [econstructor; eauto|]. auto.
  Qed.
  Lemma loop_leads bytes : forall s, dlabel d s -> dfa_test_loop d s bytes = true <-> leads (node_of s) bytes.
  Proof using Hv Hb Ho.
    induction bytes as [|c bytes IH]; intros s Hs; rewrite leads_cases, (leads_here s _ Hs); cbn [dfa_test_loop].
    - destruct (ds_acc (d_get d s)) eqn:E; split; auto; try discriminate. intros [[H|[H _]]|(b & bs & H & _)]; discriminate.
    - assert (X : (exists b bs, c :: bytes = b :: bs /\ exists l y t lo hi, arc_to g (node_of s) l y /\ prints l t /\ range_text t lo hi /\ (lo <= b <= hi)%N /\ leads y bs) <->
                  match find (fun t => in_range c (snd t)) (ds_trans (d_get d s)) with Some (to, _) => dfa_test_loop d (Some to) bytes | None => false end = true).
      { assert (Y := leads_step s c bytes Hs). split.
        - intros (b & bs & [= <- <-] & H). apply Y in H as (to & r & E & Hl). rewrite E. apply IH; [|exact Hl]. apply find_some in E as [E _]. exact (Hv _ _ (d_get_In d s Hs) E).
        - destruct (find _ _) as [[to r]|] eqn:E; [|discriminate]. intros H. exists c, bytes. split; [reflexivity|]. apply Y. exists to, r. split; [reflexivity|]. apply IH; [|exact H]. apply find_some in E as [E _]. exact (Hv _ _ (d_get_In d s Hs) E). }
      destruct (ds_acc (d_get d s)) eqn:E; rewrite X; split; try tauto; intros [[H|[H H']]|H]; try discriminate; tauto.
  Qed.
  Lemma dfa_accepts bytes : accepts g bytes <-> dfa_run_test d bytes = true.
  Proof using Hv Hb Ho.
    assert (E : dfa_run_test d bytes = dfa_test_loop d None bytes) by (unfold dfa_run_test; destruct bytes as [|c w]; cbn [dfa_test_loop d_get]; destruct (ds_acc (d_start d)); reflexivity).
    rewrite E, (loop_leads bytes None I). unfold accepts, leads. split.
    - intros (x & pre & post & y & l & z & Hx & H). apply dfa_initial in Hx. subst x. exists pre, post, y, l, z. exact H.
    - intros (pre & post & y & l & z & H). exists 0, pre, post, y, l, z. split; [now apply dfa_initial|exact H].
  Qed.
End DfaWalk.

(** The drawing of the tagged DFA has the same arrows as that of its untagged form. *)
Lemma accepts_same g g' bytes : (forall x l y, arc_to g x l y <-> arc_to g' x l y) -> (forall x, initial g x <-> initial g' x) -> (forall x, accepting g x <-> accepting g' x) ->
  accepts g bytes <-> accepts g' bytes.
Proof.
  assert (W : forall g g', (forall x l y, arc_to g x l y <-> arc_to g' x l y) -> forall x w y, byte_walk g x w y -> byte_walk g' x w y).
  { intros h h' H x w y Hw. induction Hw; [constructor|]. econstructor; eauto. now apply H. }
  intros H1 H2 H3. unfold accepts. split; intros (x & pre & post & y & l & z & A & B & C & D & E & F); exists x, pre, post, y, l, z.
  - split; [now apply H2|]. split; [exact B|]. split; [eapply W; [exact H1|exact C]|]. split; [now apply H1|]. split; [now apply H3|exact F].
  - split; [now apply H2|]. split; [exact B|]. split; [eapply W; [intros; symmetry; apply H1|exact C]|]. split; [now apply H1|]. split; [now apply H3|exact F].
Qed.
Lemma tdfa_same d : (forall x l y, arc_to (tdfa_graph d) x l y <-> arc_to (dfa_graph (base_dfa d)) x l y) /\ (forall x, initial (tdfa_graph d) x <-> initial (dfa_graph (base_dfa d)) x) /\
  (forall x, accepting (tdfa_graph d) x <-> accepting (dfa_graph (base_dfa d)) x).
Proof.
  unfold arc_to, initial, accepting, tdfa_graph, dfa_graph. cbn [d_start d_states base_dfa]. change (dstate_of (td_start d) :: map dstate_of (td_states d)) with (map dstate_of (td_start d :: td_states d)).
  set (L := td_start d :: td_states d).
  split; [|split]; [intros x l y|intros x|intros x]; rewrite !nth_tail, !map_length, !enumerate_length, ?map_length; (destruct (x <? length L); [|destruct (x =? length L); tauto]); rewrite !enum_nth, nth_error_map;
    destruct (nth_error L x) as [st|]; cbn [option_map]; try (split; intros (s & H & _); discriminate); split; intros (s & [= <-] & H); (eexists; split; [reflexivity|]); try exact H; cbn [g_trans] in *.
  - apply in_app_or in H as [H|H]; apply in_or_app; [left|right].
    + apply in_map_iff in H as (t & <- & Ht). apply in_map_iff. exists (tt_to t, tt_sym t). split; [reflexivity|]. unfold dstate_of. cbn [ds_trans]. eapply Permutation_in; [apply sort_perm|]. apply (in_map (fun t => (tt_to t, tt_sym t))). exact Ht.
    + unfold dstate_of. cbn [ds_acc]. destruct (ts_acc st); exact H.
  - apply in_app_or in H as [H|H]; apply in_or_app; [left|right].
    + apply in_map_iff in H as (t & <- & Ht). unfold dstate_of in Ht. cbn [ds_trans] in Ht. eapply Permutation_in in Ht; [|apply Permutation_sym, sort_perm]. apply in_map_iff in Ht as (t0 & <- & Ht). apply in_map_iff. exists t0. split; [reflexivity|exact Ht].
    + unfold dstate_of in H. cbn [ds_acc] in H. destruct (ts_acc st); exact H.
Qed.
