(** How many ways of passing over groups an engine tabulates: between the states and the orders of the tags. *)
From Coq Require Import String.
From Verif Require Import PStrip PCompile PCount PSize SpecSize.
From Coq Require Import ZifyBool ZifyNat ZifyN.
Open Scope nat_scope.
Open Scope list_scope.

(** ** Patterns with exponentially many *)
Definition question : quant := {| q_type := QQuestion; q_alt := false |}.
Definition option_part : part := PQuant (XSub [[PQuant (XAtom (NormalChar 97%N)) question]]) question.
Definition options (k : nat) : ere := [repeat option_part k].
Definition options_text (k : nat) : list N := concat (repeat (s2l "(a?)?") k).
Lemma option_grammar : G_part option_part (s2l "(a?)?").
Proof.
  change (s2l "(a?)?") with ((s2l "(" ++ (([97%N] ++ s2l "?") ++ []) ++ s2l ")") ++ s2l "?").
  apply Gp_quant; [|apply Gq_default, Gq_question]. apply Gx_sub. apply Ge_one. apply Gbr_cons; [|constructor].
  apply Gp_quant; [|apply Gq_default, Gq_question]. apply Gx_atom, Ga_char. cbn. intuition discriminate.
Qed.
Lemma options_grammar k : G_ere (options k) (options_text k).
Proof.
  apply Ge_one. unfold options_text. induction k as [|k IH]; cbn [repeat concat]; [constructor|]. apply Gbr_cons; [apply option_grammar|exact IH].
Qed.
Lemma options_scalar k : Forall scalar (options_text k).
Proof. unfold options_text. induction k as [|k IH]; cbn [repeat concat]; [constructor|]. apply Forall_app. split; [repeat constructor|exact IH]. Qed.
Lemma options_length k : List.length (options_text k) = 5 * k.
Proof. unfold options_text. induction k as [|k IH]; [reflexivity|]. cbn [repeat concat]. rewrite app_length, IH. change (List.length (s2l "(a?)?")) with 5. lia. Qed.
Lemma options_size k : size (fun _ => 0) (options k) = 2 + 7 * k.
Proof.
  unfold size, options. cbn [map]. unfold size_branch. unfold list_sum at 1. cbn [fold_right].
  assert (H : list_sum (map (size_part (fun _ => 0)) (repeat option_part k)) = 7 * k) by (induction k as [|k IH]; [reflexivity|]; cbn [repeat map]; change (list_sum (?x :: ?l)) with (x + list_sum l); rewrite IH; cbn; lia).
  rewrite H. lia.
Qed.
Lemma options_occurs k : occurs (options k) [].
Proof.
  exists 0, 0, ([] ++ [(0, (0, 0))]), []. split; [|reflexivity]. apply ma_here. generalize 1 as g. induction k as [|k IH]; intros g; cbn [repeat]; [constructor; cbn; lia|].
  change (@nil (nat * (nat * nat))) with (@nil (nat * (nat * nat)) ++ []). eapply mb_cons; [|apply IH]. apply mp_quant with (n := 0); [cbn; lia|]. constructor. cbn; lia.
Qed.

(** One word for every set of groups. *)
Fixpoint choices (k g : nat) : list word :=
  match k with
  | 0 => [[]]
  | S k => map (fun u => IM (ESC g) :: IM (EEC g) :: u) (choices k (S g)) ++ choices k (S g)
  end.
Lemma choices_length k : forall g, List.length (choices k g) = 2 ^ k.
Proof. induction k as [|k IH]; intros g; [reflexivity|]. cbn [choices]. rewrite app_length, map_length, !IH. cbn. lia. Qed.
Lemma choices_chars k : forall g u, In u (choices k g) -> chars u = [].
Proof.
  induction k as [|k IH]; intros g u H; cbn [choices] in H; [destruct H as [<-|[]]; reflexivity|].
  apply in_app_or in H as [H|H]; [|eauto]. apply in_map_iff in H as (v & <- & H). cbn. eauto.
Qed.
Lemma choices_from k : forall g u i, In u (choices k g) -> In (IM (ESC i)) u -> g <= i.
Proof.
  induction k as [|k IH]; intros g u i H Hi; cbn [choices] in H; [destruct H as [<-|[]]; destruct Hi|].
  apply in_app_or in H as [H|H]; [|apply (IH (S g)) in Hi; [lia|assumption]]. apply in_map_iff in H as (v & <- & H). destruct Hi as [Hi|[Hi|Hi]]; [injection Hi as <-; lia|discriminate|apply (IH (S g)) in Hi; [lia|assumption]].
Qed.
Lemma choices_inj k : forall g u v, In u (choices k g) -> In v (choices k g) -> (forall i, In (IM (ESC i)) u <-> In (IM (ESC i)) v) -> u = v.
Proof.
  induction k as [|k IH]; intros g u v Hu Hv E; cbn [choices] in *; [destruct Hu as [<-|[]], Hv as [<-|[]]; reflexivity|].
  assert (Hno : forall x, In x (choices k (S g)) -> ~ In (IM (ESC g)) x) by (intros x Hx Hi; apply (choices_from k (S g)) in Hi; [lia|assumption]).
  apply in_app_or in Hu. apply in_app_or in Hv. destruct Hu as [Hu|Hu], Hv as [Hv|Hv].
  - apply in_map_iff in Hu as (x & <- & Hx). apply in_map_iff in Hv as (y & <- & Hy). do 2 f_equal. apply (IH (S g)); [assumption..|]. intros i. specialize (E i).
    destruct (Nat.eq_dec i g) as [->|Hne]; [split; intros H; [destruct (Hno x Hx H)|destruct (Hno y Hy H)]|].
    assert (K : forall z, In (IM (ESC i)) (IM (ESC g) :: IM (EEC g) :: z) -> In (IM (ESC i)) z) by (intros z [G|[G|G]]; [injection G as G; congruence|discriminate|assumption]).
    split; intros H; apply K, E; right; right; exact H.
  - apply in_map_iff in Hu as (x & <- & Hx). exfalso. apply (Hno v Hv). apply E. now left.
  - apply in_map_iff in Hv as (x & <- & Hx). exfalso. apply (Hno u Hu). apply E. now left.
  - eauto.
Qed.
Lemma choices_NoDup k : forall g, NoDup (choices k g).
Proof.
  induction k as [|k IH]; intros g; cbn [choices]; [constructor; [intros []|constructor]|]. apply NoDup_app_intro; [|apply IH|].
  - apply FinFun.Injective_map_NoDup; [|apply IH]. intros x y E. now injection E.
  - intros x Hx Hy. apply in_map_iff in Hx as (y & <- & _). apply (choices_from k (S g) _ g) in Hy; [lia|now left].
Qed.
Lemma choices_words chk k : forall g u, In u (choices k g) -> tlang chk (TConcat (branch_trees (repeat option_part k) g)) u.
Proof.
  induction k as [|k IH]; intros g u H; cbn [choices repeat] in *.
  - destruct H as [<-|[]]. constructor.
  - rewrite branch_trees_cons. change (groups_part option_part) with 1. rewrite Nat.add_1_r.
    assert (P : exists v x, u = v ++ x /\ In x (choices k (S g)) /\ (v = [] \/ v = [IM (ESC g); IM (EEC g)])).
    { apply in_app_or in H as [H|H]; [|exists [], u; auto]. apply in_map_iff in H as (x & <- & Hx). exists [IM (ESC g); IM (EEC g)], x. auto. }
    destruct P as (v & x & -> & Hx & Hv). assert (HP : tlang chk (part_tree option_part g) v).
    2:{ revert HP. generalize (part_tree option_part g). intros t HP. cbn. constructor; [exact HP|exact (IH _ _ Hx)]. }
    unfold option_part. rewrite part_tree_quant. apply quant_lang. destruct Hv as [->| ->].
    + exists 0. split; [cbn; lia|constructor].
    + exists 1. split; [cbn; lia|]. change [IM (ESC g); IM (EEC g)] with ([IM (ESC g); IM (EEC g)] ++ []). constructor; [|constructor].
      rewrite expr_tree_sub. exists []. split; [|reflexivity]. rewrite ere_trees_cons. left. rewrite branch_trees_cons.
      assert (HQ : tlang chk (part_tree (PQuant (XAtom (NormalChar 97%N)) question) (S g)) []) by (rewrite part_tree_quant; apply quant_lang; exists 0; split; [cbn; lia|constructor]).
      revert HQ. generalize (part_tree (PQuant (XAtom (NormalChar 97%N)) question) (S g)). intros t HQ. cbn. apply (cat_cons (tlang chk t) [] [] []); [exact HQ|constructor].
Qed.
Definition chosen (u : word) : word := IM (ESC 0) :: u ++ [IM (EEC 0)].
Lemma chosen_accepted k u : In u (choices k 1) -> accepted [] (options k) (chosen u).
Proof.
  intros H. assert (C := choices_chars _ _ _ H). assert (W : tlang acheck (tree_of (options k)) (chosen u)).
  { rewrite tree_of_eq. exists u. split; [|reflexivity]. unfold options. rewrite ere_trees_cons. left. now apply choices_words. }
  split.
  - exists [], (chosen u), []. rewrite app_nil_r. cbn [map app]. do 5 (split; [solve [auto]|]). exact W.
  - assert (Z : chars (chosen u) = []) by (unfold chosen; cbn; rewrite chars_app, C; reflexivity).
    apply (zero_reads [] 0 _ Z (Nat.le_0_l _)). split; reflexivity.
Qed.
Lemma chosen_tags k t u v : In u (choices k 1) -> In v (choices k 1) -> ep_of t (chosen u) = ep_of t (chosen v) -> u = v.
Proof.
  intros Hu Hv E. apply (choices_inj k 1); [assumption..|]. injection E as E _ _.
  assert (G : forall i x, In x (choices k 1) -> In (IM (ESC i)) x <-> In (TagS i) (tags_of (chosen x)) /\ 1 <= i).
  { intros i x Hx. unfold tags_of. rewrite tags_of_In. split.
    - intros Hi. split; [|eapply choices_from; eauto]. right. exists (IM (ESC i)). split; [|now left]. right. apply in_or_app. now left.
    - intros [[[]|(y & Hy & Ht)] Hi]. destruct y as [c|[| | |j|j]]; cbn in Ht; try tauto; destruct Ht as [Ht|[]]; try discriminate. injection Ht as ->.
      destruct Hy as [Hy|Hy]; [injection Hy as Hy; lia|]. apply in_app_or in Hy as [Hy|[Hy|[]]]; [assumption|discriminate]. }
  intros i. rewrite (G i u Hu), (G i v Hv), E. reflexivity.
Qed.
(** Any list that has a thread for every accepted zero-width word. *)
Lemma many k t (l : list eprop) : (forall u, In u (choices k 1) -> In (ep_of t (chosen u)) l) -> 2 ^ k <= List.length l.
Proof.
  intros H. rewrite <- (choices_length k 1), <- (map_length (fun u => ep_of t (chosen u))). apply NoDup_incl_length.
  - assert (N := choices_NoDup k 1). assert (I : incl (choices k 1) (choices k 1)) by apply incl_refl. revert N I. generalize (choices k 1) at 1 2 4 as l0. induction l0 as [|u l0 IH]; intros N I; cbn; [constructor|].
    inversion N as [|x y N1 N2]; subst. constructor; [|apply IH; [assumption|intros x Hx; apply I; now right]].
    intros Hi. apply in_map_iff in Hi as (v & E & Hv). assert (v = u) by (eapply chosen_tags; [apply I; now right|apply I; now left|exact E]). now subst.
  - intros p Hp. apply in_map_iff in Hp as (u & <- & Hu). auto.
Qed.
Lemma row_flat {A} (chk : A -> N -> bool) (n : nfa A) k : ok n -> 2 <= List.length n -> groups_ok n -> (forall u, In u (choices k 1) -> lang chk n (chosen u)) ->
  exists tbl, flat_make n = Ok tbl /\ 2 ^ k <= List.length (nth 0 tbl []).
Proof.
  intros Ho Hl Hg Hw. destruct (flat_make_spec n (ok_wf _ Ho) ltac:(lia) Hg) as (tbl & Et & _ & _ & H). exists tbl. split; [assumption|]. apply (many k (List.length n - 1)).
  intros u Hu. apply H; [lia|now left| |].
  - eapply path_zpath; [apply Hw; exact Hu|]. unfold chosen. cbn. rewrite chars_app, (choices_chars _ _ _ Hu). reflexivity.
  - unfold retained. cbn [ep_of ep_state]. destruct (trans _); [|reflexivity]. apply Nat.eqb_eq. lia.
Qed.
Lemma options_named k a : In a (atoms (options k)) -> named_well a.
Proof.
  unfold atoms, options. cbn [flat_map]. rewrite app_nil_r. induction k as [|k IH]; [intros []|]. cbn [repeat flat_map]. intros H. apply in_app_or in H as [H|H]; [|auto].
  cbn in H. destruct H as [<-|[]]. exact I.
Qed.
Lemma options_flat k : exists n tbl, compile_flat (options_text k) = Ok (EFlat n) /\ flat_make n = Ok tbl /\ List.length n <= 28 * k + 20 /\ 2 ^ k <= List.length (nth 0 tbl []).
Proof.
  assert (Hg := options_grammar k). assert (Hs := options_scalar k). assert (Hp := Hg). apply parse_iff in Hp.
  destruct (flat_compiles _ _ Hp Hs [] (options_named k) (Forall_nil _) (options_occurs k)) as (en & He). assert (He' := He).
  apply with_ere_ok in He as (e & Hp' & H). rewrite Hp in Hp'. injection Hp' as <-. apply bind_ok in H as (n & En & H). unfold make_flat in H. apply bind_ok in H as (tbl & Et & H).
  destruct (nfa_compiles n); [|discriminate]. injection H as <-. exists n, tbl. split; [assumption|]. split; [assumption|].
  destruct (parsed_working_ne _ _ Hp Hs n En (flat_make_ne _ _ Et)) as [(N1 & N2 & _ & N4 & _) Hgo]. split.
  - assert (L := working_size _ _ En). rewrite options_size in L. lia.
  - destruct (row_flat acheck n k N1 N2 Hgo) as (tbl' & Et' & H); [|congruence]. intros u Hu. apply (N4 [] (chosen u) (Forall_nil _)). now apply chosen_accepted.
Qed.
Lemma enc_zero w : chars w = [] -> enc w = w.
Proof. induction w as [|[c|e] w IH]; intros H; [reflexivity|discriminate|]. cbn in *. f_equal. auto. Qed.
Lemma options_flat_u8 k : exists m tbl, compile_flat_u8 (options_text k) = Ok (EFlatU8 m) /\ flat_make m = Ok tbl /\ 2 ^ k <= List.length (nth 0 tbl []).
Proof.
  assert (Hg := options_grammar k). assert (Hs := options_scalar k). assert (Hp := Hg). apply parse_iff in Hp.
  destruct (flat_u8_compiles _ _ Hp Hs [] (Forall_nil _) (options_occurs k)) as (en & He). assert (He' := He).
  apply with_ere_ok in He as (e & Hp' & H). rewrite Hp in Hp'. injection Hp' as <-. apply bind_ok in H as (n & En & H). apply bind_ok in H as (m & Em & H). unfold make_flat_u8 in H. apply bind_ok in H as (tbl & Et & H).
  injection H as <-. exists m, tbl. split; [assumption|]. split; [assumption|].
  destruct (parsed_u8_ne _ _ Hp Hs n m En Em (flat_make_ne _ _ Et)) as (M1 & M2 & _ & M4 & M5 & _).
  destruct (row_flat byte_check m k M1 M2 M5) as (tbl' & Et' & H); [|congruence]. intros u Hu. apply (M4 [] (chosen u) (Forall_nil _)). exists (chosen u). split; [now apply chosen_accepted|].
  symmetry. apply enc_zero. unfold chosen. cbn. rewrite chars_app, (choices_chars _ _ _ Hu). reflexivity.
Qed.

(** ** A bound for all patterns *)
Fixpoint arrange (f : nat) (U : list tag) : list (list tag) :=
  match f with
  | 0 => [[]]
  | S f => [] :: flat_map (fun x => map (cons x) (arrange f (filter (fun y => negb (tag_eqb x y)) U))) U
  end.
Lemma filter_less {X} (f : X -> bool) l x : In x l -> f x = false -> List.length (filter f l) < List.length l.
Proof.
  induction l as [|y l IH]; intros Hi Hf; [destruct Hi|]. assert (L : List.length (filter f l) <= List.length l) by (clear; induction l as [|z l IH]; cbn; [lia|]; destruct (f z); cbn; lia). destruct Hi as [->|Hi]; cbn.
  - rewrite Hf. lia.
  - specialize (IH Hi Hf). destruct (f y); cbn; lia.
Qed.
Lemma arrange_length f : forall U, List.length U <= f -> List.length (arrange f U) <= arrangements f.
Proof.
  induction f as [|f IH]; intros U HU; [reflexivity|]. cbn [arrange arrangements List.length]. apply le_n_S.
  assert (G : forall V, incl V U -> List.length (flat_map (fun x => map (cons x) (arrange f (filter (fun y => negb (tag_eqb x y)) U))) V) <= List.length V * arrangements f).
  { induction V as [|x V IHV]; intros HV; [reflexivity|]. cbn [flat_map List.length]. rewrite app_length, map_length.
    assert (Hx : List.length (filter (fun y => negb (tag_eqb x y)) U) < List.length U) by (apply filter_less with (x := x); [apply HV; now left|]; apply negb_false_iff, tag_eqb_iff; reflexivity).
    specialize (IH (filter (fun y => negb (tag_eqb x y)) U) ltac:(lia)). specialize (IHV (fun y Hy => HV y (or_intror Hy))). lia. }
  specialize (G U (incl_refl _)). nia.
Qed.
Lemma arrange_In f : forall U l, List.length U <= f -> NoDup l -> incl l U -> In l (arrange f U).
Proof.
  induction f as [|f IH]; intros U l HU N I.
  - destruct U; [|cbn in HU; lia]. destruct l as [|x l]; [now left|]. destruct (I x). now left.
  - destruct l as [|x l]; [now left|]. cbn [arrange]. right. apply in_flat_map. exists x. split; [apply I; now left|]. apply in_map. inversion N as [|y l' N1 N2]; subst. apply IH.
    + assert (Hx : List.length (filter (fun y => negb (tag_eqb x y)) U) < List.length U) by (apply filter_less with (x := x); [apply I; now left|]; apply negb_false_iff, tag_eqb_iff; reflexivity). lia.
    + assumption.
    + intros y Hy. apply filter_In. split; [apply I; now right|]. apply negb_true_iff. destruct (tag_eqb x y) eqn:E; [|reflexivity]. apply tag_eqb_iff in E. subst. contradiction.
Qed.
Lemma tags_NoDup w : forall ts, NoDup ts -> NoDup (fold_left add_item w ts).
Proof.
  induction w as [|i w IH]; intros ts H; [assumption|]. cbn [fold_left]. apply IH. destruct i as [c|[| | |k|k]]; cbn; try assumption; now apply NoDup_add_tag.
Qed.
Definition all_tags (G : nat) : list tag := map TagS (seq 0 G) ++ map TagE (seq 0 G).
Lemma all_tags_In G x : tag_group x < G -> In x (all_tags G).
Proof. intros H. apply in_or_app. destruct x as [k|k]; cbn in H; [left|right]; apply in_map, in_seq; lia. Qed.
Lemma props_few {A} (n : nfa A) s l G : wf n -> (forall s t k, In (t, ESC k) (eps (get n s)) \/ In (t, EEC k) (eps (get n s)) -> k < G) -> s < List.length n -> eps_props n s = Ok l ->
  List.length l <= 4 * List.length n * arrangements (2 * G).
Proof.
  intros Hw Hg Hs El. destruct (eps_props_spec n Hw s Hs) as (l' & El' & N & H). rewrite El in El'. injection El' as <-.
  set (all := map (fun p : nat * (list tag * (bool * bool)) => mkEp (fst p) (fst (snd p)) (fst (snd (snd p))) (snd (snd (snd p))))
                (list_prod (seq 0 (List.length n)) (list_prod (arrange (2 * G) (all_tags G)) (list_prod [true; false] [true; false])))).
  assert (I : incl l all).
  { intros p Hp. apply H in Hp as (t & w & Hz & ->). unfold all. apply in_map_iff. exists (t, (tags_of w, (has EStart w, has EEnd w))). split; [reflexivity|].
    apply in_prod; [apply in_seq; split; [lia|]|apply in_prod; [|apply in_prod; [destruct (has EStart w)|destruct (has EEnd w)]; cbn; auto]].
    - cbn. clear - Hw Hz Hs. induction Hz; [assumption|]. eapply wf_eps; eauto.
    - apply arrange_In.
      + unfold all_tags. rewrite app_length, !map_length, seq_length. lia.
      + apply tags_NoDup. constructor.
      + intros x Hx. apply all_tags_In. apply tags_of_In in Hx as [[]|(i & Hi & Ht)]. destruct i as [c|e]; [destruct Ht|].
        destruct (zpath_items n _ _ _ Hz e Hi) as (q & v & He). destruct e; cbn in Ht; try tauto; destruct Ht as [<-|[]]; cbn; eauto. }
  apply NoDup_incl_length in I; [|assumption]. unfold all in I. rewrite map_length, !prod_length, seq_length in I.
  assert (L := arrange_length (2 * G) (all_tags G)). unfold all_tags in L at 1. rewrite app_length, !map_length, seq_length in L. specialize (L ltac:(lia)). cbn [List.length] in I. nia.
Qed.
Lemma char_few s e n q l : parse_str s = ROk e -> Forall scalar s -> working_new (tree_of e) = Ok n -> q < List.length n -> eps_props n q = Ok l -> List.length l <= 4 * List.length n * arrangements (2 * S (groups e)).
Proof.
  intros Hp Hs En Hq El. assert (Hn : n <> []) by (intros ->; cbn in Hq; lia). destruct (parsed_working_ne s e Hp Hs n En Hn) as [Ha Hg]. assert (Hc := automaton_count e n Ha). destruct Ha as (N1 & _).
  eapply props_few; eauto using ok_wf. intros s0 t k Hk. apply Hg in Hk. lia.
Qed.
Lemma byte_few s e n m q l : parse_str s = ROk e -> Forall scalar s -> working_new (tree_of e) = Ok n -> u8_new n = Ok m -> q < List.length m -> eps_props m q = Ok l -> List.length l <= 4 * List.length m * arrangements (2 * S (groups e)).
Proof.
  intros Hp Hs En Em Hq El. assert (Hm : m <> []) by (intros ->; cbn in Hq; lia). assert (Ha := parsed_u8_ne s e Hp Hs n m En Em Hm). assert (Hc := byte_count e m Ha). destruct Ha as (M1 & _ & _ & _ & M5 & _).
  eapply props_few; eauto using ok_wf. intros s0 t k Hk. apply M5 in Hk. lia.
Qed.
