(** The text of drawings. *)
From Coq Require Import String ZArith.
From Verif Require Export PParser PDfaRun PLayout Layout SpecDraw.
From Coq Require Import ZifyBool ZifyNat ZifyN Permutation.
Open Scope nat_scope.
Open Scope list_scope.
Set Default Proof Using "Type".

(** ** Escaping *)
Lemma prints_app s t s' t' : prints s t -> prints s' t' -> prints (s ++ s') (t ++ t').
Proof.
  induction 1 as [|c s t Hc Hp IH|c s t Hc Hp IH|w c s t Hw Hp IH]; intros H; cbn [app].
  - exact H.
  - apply pr_plain; auto.
  - apply pr_symbol; auto.
  - rewrite <- !app_assoc. apply pr_word; auto.
Qed.
Lemma escape_char_prints c : prints (escape_char c) [c].
Proof.
  unfold escape_char.
  destruct (N.eqb_spec c (ch "\")) as [->|N1]; [exact (pr_word (s2l "textbackslash") _ [] [] ltac:(now left) pr_nil)|].
  destruct (N.eqb_spec c (ch "&")) as [->|N2]; [apply (pr_symbol _ []); [now left|constructor]|].
  destruct (N.eqb_spec c (ch "%")) as [->|N3]; [apply (pr_symbol _ []); [do 1 right; now left|constructor]|].
  destruct (N.eqb_spec c (ch "$")) as [->|N4]; [apply (pr_symbol _ []); [do 2 right; now left|constructor]|].
  destruct (N.eqb_spec c (ch "#")) as [->|N5]; [apply (pr_symbol _ []); [do 3 right; now left|constructor]|].
  destruct (N.eqb_spec c (ch "_")) as [->|N6]; [apply (pr_symbol _ []); [do 4 right; now left|constructor]|].
  destruct (N.eqb_spec c (ch "{")) as [->|N7]; [apply (pr_symbol _ []); [do 5 right; now left|constructor]|].
  destruct (N.eqb_spec c (ch "}")) as [->|N8]; [apply (pr_symbol _ []); [do 6 right; now left|constructor]|].
  destruct (N.eqb_spec c (ch "~")) as [->|N9]; [exact (pr_word (s2l "textasciitilde") _ [] [] ltac:(right; now left) pr_nil)|].
  destruct (N.eqb_spec c (ch "^")) as [->|N10]; [exact (pr_word (s2l "textasciicircum") _ [] [] ltac:(right; right; now left) pr_nil)|].
  apply pr_plain; [|constructor]. unfold special. apply not_true_iff_false. intros H. apply existsb_exists in H as (d & Hd & E). apply N.eqb_eq in E. subst d.
  cbn [s2l List.map list_ascii_of_string] in Hd. repeat destruct Hd as [<-|Hd]; try (now apply N1); try (now apply N2); try (now apply N3); try (now apply N4); try (now apply N5);
    try (now apply N6); try (now apply N7); try (now apply N8); try (now apply N9); try (now apply N10).
Qed.
(** C42 *)
Lemma escape_prints s : prints (escape_latex s) s.
Proof. induction s as [|c s IH]; [constructor|]. change (escape_latex (c :: s)) with (escape_char c ++ escape_latex s). change (c :: s) with ([c] ++ s). apply prints_app; [apply escape_char_prints|exact IH]. Qed.
(** A source text prints at most one text. *)
Lemma prints_fun s t : prints s t -> forall t', prints s t' -> t = t'.
Proof.
  assert (Sb : special (ch "\") = true) by reflexivity. assert (So : special (ch "{") = true) by reflexivity.
  induction 1 as [|c s t Hc Hp IH|c s t Hc Hp IH|w c s t Hw Hp IH]; intros t' H'.
  - inversion H'. reflexivity.
  - inversion H' as [|? ? ? Hc' Hp'|? ? ? Hc' Hp'|w ? ? ? Hw Hp']; subst; [f_equal; auto| |]; discriminate.
  - inversion H' as [|? ? ? Hc' Hp'|? ? ? Hc' Hp'|]; subst; [discriminate|f_equal; auto].
  - remember (s2l "{\" ++ w ++ s2l "}" ++ s) as full eqn:Ef. inversion H' as [E|? s1 ? Hc' Hp' E|? s1 ? Hc' Hp' E|w' c' s1 t1 Hw' Hp' E]; subst t'.
    + rewrite Ef in E. discriminate.
    + rewrite Ef in E. injection E as E1 E2. rewrite E1 in Hc'. discriminate.
    + rewrite Ef in E. discriminate.
    + rewrite Ef in E. apply app_inv_head in E.
      assert (G : w' = w /\ s1 = s /\ c' = c).
      { cbn [In] in Hw, Hw'. destruct Hw as [Hw|[Hw|[Hw|[]]]]; injection Hw as <- <-; destruct Hw' as [Hw'|[Hw'|[Hw'|[]]]]; injection Hw' as <- <-; try discriminate; cbn in E; injection E as E; auto. }
      destruct G as (-> & -> & ->). f_equal. auto.
Qed.

(** ** Commands *)
Lemma show_N_decimal n : decimal n (show_N n).
Proof.
  unfold decimal, show_N. apply show_N_fuel_ok. destruct n as [|p]; [cbn; lia|]. pose proof (N.size_gt (N.pos p)) as Hs.
  replace (N.of_nat (N.size_nat (N.pos p))) with (N.size (N.pos p)); [assumption|].
  cbn [N.size N.size_nat]. clear. induction p; cbn [Pos.size Pos.size_nat]; lia.
Qed.
Lemma show_nat_decimal n : decimal (N.of_nat n) (show_nat n).
Proof. apply show_N_decimal. Qed.
Lemma show_Z_signed z : signed z (show_Z z).
Proof.
  unfold signed, show_Z. destruct (Z.ltb_spec z 0) as [H|H].
  - right. split; [exact H|]. exists (show_N (Z.abs_N z)). split; [reflexivity|]. replace (Z.to_N (- z)) with (Z.abs_N z) by lia. apply show_N_decimal.
  - left. split; [exact H|]. cbn [app]. replace (Z.to_N z) with (Z.abs_N z) by lia. apply show_N_decimal.
Qed.
Lemma node_at_cmd i s p : node_cmd (Some p) i s (node_at i s p).
Proof.
  destruct p as [x y]. unfold node_at, node_mods. cbn [fst snd]. assert (C := nc_at x y i s _ _ _ _ (show_nat_decimal i) (show_nat_decimal (2 * x)) (show_Z_signed y) (escape_prints (g_label s))).
  unfold style in C. rewrite <- !app_assoc in *. exact C.
Qed.
Lemma node_in_line_cmd i s : node_cmd None i s (node_in_line i s).
Proof.
  destruct i as [|i]; cbn [node_in_line]; unfold node_mods.
  - assert (C := nc_first s (s2l "0") _ (show_nat_decimal 0) (escape_prints (g_label s))). unfold style in C. rewrite <- !app_assoc in *. exact C.
  - assert (C := nc_right i s _ _ _ (show_nat_decimal i) (show_nat_decimal (S i)) (escape_prints (g_label s))). unfold style in C. rewrite <- !app_assoc in *. exact C.
Qed.
Lemma edge_bent_cmd i tr : edge_cmd i tr (edge_bent i tr).
Proof.
  unfold edge_bent. destruct (Nat.eqb_spec (fst tr) i) as [E|E].
  - exact (ec i tr (s2l "[loop below] ") _ _ ltac:(right; right; now left) (show_nat_decimal i) (show_nat_decimal (fst tr)) (fun _ => E)).
  - exact (ec i tr (s2l "[bend left]  ") _ _ ltac:(right; now left) (show_nat_decimal i) (show_nat_decimal (fst tr)) ltac:(discriminate)).
Qed.
Lemma edge_straight_cmd i tr : edge_cmd i tr (edge_straight i tr).
Proof.
  exact (ec i tr (s2l "") _ _ ltac:(now left) (show_nat_decimal i) (show_nat_decimal (fst tr)) ltac:(discriminate)).
Qed.
Lemma Forall2_flat {A B C} (f : A -> list B) (R : B -> C -> Prop) l (h : list (list C)) :
  Forall2 (fun a cs => Forall2 R (f a) cs) l h -> Forall2 R (flat_map f l) (concat h).
Proof. induction 1 as [|a cs l h H Hr IH]; cbn; [constructor|]. apply Forall2_app; assumption. Qed.

Definition draw_ok (lay : option (list (nat * Z))) (x : nat * gstate) (t : list N * list N) : Prop :=
  node_cmd (match lay with None => None | Some ps => nth_error ps (fst x) end) (fst x) (snd x) (fst t) /\
  exists es, snd t = concat es /\ Forall2 (fun tr => edge_cmd (fst x) tr) (g_trans (snd x)) es.
Lemma draw_state_ok g lay x : graph_ok g -> nth_error g (fst x) = Some (snd x) -> (forall ps, lay = Some ps -> length ps = length g) ->
  exists t, draw_state lay (fst x) (snd x) = Ok t /\ draw_ok lay x t.
Proof.
  intros Hg Hx Hl. destruct x as [i s]. cbn [fst snd] in *. unfold draw_state, draw_ok. cbn [fst snd]. destruct lay as [ps|].
  - specialize (Hl ps eq_refl). assert (Hi : i < length ps) by (rewrite Hl; apply nth_error_Some; congruence).
    destruct (nth_error ps i) as [p|] eqn:Ep; [|apply nth_error_None in Ep; lia].
    match goal with |- context [mapM ?f (g_trans s)] => set (F := f) end.
    destruct (mapM_spec F (fun tr => edge_cmd i tr) (g_trans s)) as (es & Ees & Hes).
    { intros [y lb] Hy. unfold F. cbn [fst]. assert (Y : y < length ps) by (rewrite Hl; apply (Hg s y lb); [eapply nth_error_In; eauto|exact Hy]).
      destruct (nth_error ps y) as [q|] eqn:Eq; [|apply nth_error_None in Eq; lia]. eexists. split; [reflexivity|]. destruct (fst p + 1 <? fst q); [apply edge_bent_cmd|apply edge_straight_cmd]. }
    rewrite Ees. cbn [bind]. eexists. split; [reflexivity|]. cbn [fst snd]. split; [apply node_at_cmd|]. exists es. split; [reflexivity|exact Hes].
  - eexists. split; [reflexivity|]. cbn [fst snd]. split; [apply node_in_line_cmd|]. exists (map (edge_bent i) (g_trans s)). split; [apply flat_map_concat_map|].
    induction (g_trans s) as [|tr l IH]; cbn; constructor; [apply edge_bent_cmd|exact IH].
Qed.
Lemma graph_tikz_lay g lay : graph_ok g -> (forall ps, lay = Some ps -> length ps = length g) ->
  exists parts nodes edges, mapM (fun x => draw_state lay (fst x) (snd x)) (enumerate g) = Ok parts /\ flat_map fst parts = concat nodes /\ flat_map snd parts = concat edges /\
    Forall2 (fun '(i, s) t => node_cmd (match lay with None => None | Some ps => nth_error ps i end) i s t) (enumerate g) nodes /\
    Forall2 (fun '(i, tr) t => edge_cmd i tr t) (all_trans g) edges.
Proof.
  intros Hg Hl. destruct (mapM_spec (fun x => draw_state lay (fst x) (snd x)) (draw_ok lay) (enumerate g)) as (parts & Ep & Hp).
  { intros [i s] H. apply In_enumerate in H. apply (draw_state_ok g); assumption. }
  assert (G : exists edges, flat_map snd parts = concat edges /\ Forall2 (fun '(i, tr) t => edge_cmd i tr t) (all_trans g) edges).
  { unfold all_trans. revert Hp. generalize (enumerate g). clear. intros l H. induction H as [|[i s] [t1 t2] l parts Hx Hr IH]; [exists []; split; [reflexivity|constructor]|].
    destruct Hx as (_ & es & E & Hes). cbn [fst snd] in *. destruct IH as (edges & E2 & H2). exists (es ++ edges). split; [cbn; now rewrite concat_app, E, E2|].
    cbn [flat_map]. apply Forall2_app; [|exact H2]. clear - Hes. induction Hes; cbn; constructor; auto. }
  destruct G as (edges & G1 & G2). exists parts, (map fst parts), edges. split; [exact Ep|]. split; [apply flat_map_concat_map|]. split; [exact G1|]. split; [|exact G2].
  clear - Hp. induction Hp as [|[i s] t l parts Hx Hr IH]; cbn; constructor; [|exact IH]. apply Hx.
Qed.
(** C43 *)
Lemma graph_tikz_spec g doc : graph_ok g -> exists pos nodes edges,
  graph_tikz g doc = Ok ((if doc then doc_head else []) ++ s2l "\begin{tikzpicture}[node distance=2cm, auto]" ++ newline ++ concat nodes ++ concat edges
                         ++ s2l "\end{tikzpicture}" ++ newline ++ (if doc then s2l "\end{document}" ++ newline else [])) /\
  positioned g pos /\
  Forall2 (fun '(i, s) t => exists p, nth_error pos i = Some p /\ node_cmd p i s t) (enumerate g) nodes /\
  Forall2 (fun '(i, tr) t => edge_cmd i tr t) (all_trans g) edges.
Proof.
  intros Hg. destruct (check_dag_spec g Hg) as (b & Eb & Hb).
  assert (X : exists lay pos, (do d <- dag_new g; match d with None => Ok None | Some l => do ps <- dag_place l; Ok (Some ps) end) = Ok lay /\ (forall ps, lay = Some ps -> length ps = length g) /\
     positioned g pos /\ (forall i, i < length g -> nth_error pos i = Some (match lay with None => None | Some ps => nth_error ps i end))).
  { destruct b.
    - destruct (placed g Hg (proj1 Hb eq_refl)) as (l & ps & E1 & E2 & Hlen & Hn & H1 & H2). exists (Some ps), (map Some ps). rewrite E1. cbn [bind]. rewrite E2. split; [reflexivity|].
      split; [intros ? [= <-]; exact Hlen|]. split.
      + right. split; [now apply Hb|]. exists ps. auto.
      + intros i Hi. rewrite nth_error_map. destruct (nth_error ps i) eqn:E; [reflexivity|]. apply nth_error_None in E. lia.
    - assert (N : ~ layered g) by (intros H; apply Hb in H; discriminate). exists None, (repeat None (length g)). rewrite (dag_new_not g Hg N). split; [reflexivity|].
      split; [discriminate|]. split; [left; auto|]. intros i Hi. clear - Hi. revert i Hi. induction (length g) as [|k IH]; intros [|i] Hi; cbn; try lia; auto. apply IH. lia. }
  destruct X as (lay & pos & El & Hl & Hpos & Hnth). destruct (graph_tikz_lay g lay Hg Hl) as (parts & nodes & edges & Ep & E1 & E2 & H1 & H2).
  exists pos, nodes, edges. split; [|split; [exact Hpos|split; [|exact H2]]].
  - unfold graph_tikz. destruct (dag_new g) as [d| | |]; cbn [bind] in El |- *; try discriminate. rewrite El. cbn [bind]. rewrite Ep. cbn [bind]. rewrite E1, E2. reflexivity.
  - assert (B : forall i s, In (i, s) (enumerate g) -> i < length g) by (intros i s H; apply In_enumerate in H; apply nth_error_Some; congruence).
    clear - H1 B Hnth. revert H1 B. generalize (enumerate g). intros l H1. induction H1 as [|[i s] t l nodes' Hx Hr IH]; intros B; constructor.
    + eexists. split; [apply Hnth; eapply B; now left|exact Hx].
    + apply IH. intros j s' H. eapply B. right. exact H.
Qed.

(** ** Graphs of automata *)
Lemma nfa_graph_length {A} (show : A -> list N) n : length (nfa_graph show n) = length n.
Proof. unfold nfa_graph. now rewrite map_length, enumerate_length. Qed.
Lemma nfa_graph_ok {A} (show : A -> list N) n : SpecAuto.closed n -> graph_ok (nfa_graph show n).
Proof.
  intros Hc s y l Hs Hy. rewrite nfa_graph_length. unfold nfa_graph in Hs. apply in_map_iff in Hs as ([i st] & <- & Hi). apply In_get in Hi as (Hi & ->). cbn [g_trans] in Hy.
  apply in_app_or in Hy as [Hy|Hy]; apply in_map_iff in Hy as (t & E & Ht).
  - apply (Hc i y). right. injection E as <- _. destruct t as [to a]. exists a. exact Ht.
  - destruct t as [k [to e]]. injection E as <- _. apply In_enumerate in Ht. apply nth_error_In in Ht. apply (Hc i to). left. exists e. exact Ht.
Qed.
Lemma tdfa_graph_length d : length (tdfa_graph d) = length (td_states d) + 2.
Proof. unfold tdfa_graph. rewrite app_length, map_length, enumerate_length. cbn. lia. Qed.
Lemma dfa_graph_length d : length (dfa_graph d) = length (d_states d) + 2.
Proof. unfold dfa_graph. rewrite app_length, map_length, enumerate_length. cbn. lia. Qed.
Lemma dfa_graph_ok d : (forall s t, In s (d_start d :: d_states d) -> In t (ds_trans s) -> fst t < length (d_states d)) -> graph_ok (dfa_graph d).
Proof.
  intros Hv s y l Hs Hy. rewrite dfa_graph_length. unfold dfa_graph in Hs. apply in_app_or in Hs as [Hs|[<-|[]]]; [|destruct Hy].
  apply in_map_iff in Hs as ([i st] & <- & Hi). cbn [g_trans] in Hy. apply In_enumerate, nth_error_In in Hi. apply in_app_or in Hy as [Hy|Hy].
  - apply in_map_iff in Hy as (t & E & Ht). injection E as <- _. specialize (Hv st t Hi Ht). lia.
  - destruct (ds_acc st); cbn in Hy; [destruct Hy as [E|[]]|destruct Hy as [E|[]]|destruct Hy]; injection E as <- _; lia.
Qed.
Lemma tdfa_graph_ok d : (forall s t, In s (td_start d :: td_states d) -> In t (ts_trans s) -> tt_to t < length (td_states d)) -> graph_ok (tdfa_graph d).
Proof.
  intros Hv s y l Hs Hy. rewrite tdfa_graph_length. unfold tdfa_graph in Hs. apply in_app_or in Hs as [Hs|[<-|[]]]; [|destruct Hy].
  apply in_map_iff in Hs as ([i st] & <- & Hi). cbn [g_trans] in Hy. apply In_enumerate, nth_error_In in Hi. apply in_app_or in Hy as [Hy|Hy].
  - apply in_map_iff in Hy as (t & E & Ht). injection E as <- _. specialize (Hv st t Hi Ht). lia.
  - destruct (ts_acc st); cbn in Hy; [destruct Hy as [E|[]]|destruct Hy as [E|[]]|destruct Hy as [E|[]]|destruct Hy]; injection E as <- _; lia.
Qed.
Lemma tdfa_targets n max d : SpecAuto.closed n -> 1 <= length n -> tdfa_from_nfa n max = Ok (Some d) ->
  forall s t, In s (td_start d :: td_states d) -> In t (ts_trans s) -> tt_to t < length (td_states d).
Proof.
  intros Hc Hl E s t Hs Ht. apply closed_wf in Hc. destruct (tdfa_from_nfa_spec n Hc Hl max) as (o & E' & Ho). rewrite E in E'. injection E' as <-.
  assert (V := base_valid n Hl max d Ho). apply validate_valid in V. 
  assert (X : fst (tt_to t, tt_sym t) < length (d_states (base_dfa d))).
  { apply (V (dstate_of s)).
    - unfold base_dfa. cbn [d_start d_states]. destruct Hs as [<-|Hs]; [now left|]. right. now apply in_map.
    - unfold dstate_of. cbn [ds_trans]. eapply Permutation_in; [apply sort_perm|]. apply (in_map (fun t => (tt_to t, tt_sym t))). exact Ht. }
  unfold base_dfa in X. cbn [d_states fst] in X. now rewrite map_length in X.
Qed.
Lemma dfa_targets n max d d' : SpecAuto.closed n -> 1 <= length n -> tdfa_from_nfa n max = Ok (Some d) -> dfa_from_tagged d = Ok d' ->
  forall s t, In s (d_start d' :: d_states d') -> In t (ds_trans s) -> fst t < length (d_states d').
Proof.
  intros Hc Hl E E2. apply closed_wf in Hc. destruct (tdfa_from_nfa_spec n Hc Hl max) as (o & E' & Ho). rewrite E in E'. injection E' as <-.
  assert (V := base_valid n Hl max d Ho). destruct (from_tagged_spec d V) as (m0 & E1 & E4 & _). rewrite E2 in E1. injection E1 as <-. fold (base_dfa d) in E4. clear E2. rename E4 into E2.
  destruct (minimise_spec _ (base_dfa d) (validate_valid _ V) (le_n _)) as (d2 & E3 & Hv & _). rewrite E2 in E3. injection E3 as <-. exact Hv.
Qed.
