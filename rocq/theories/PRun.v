(** Automata of parsed patterns and the engines that run them, in the terms used by the properties. *)
From Verif Require Export PByte SpecAuto Pick.
From Coq Require Import ZifyBool ZifyNat.
Open Scope nat_scope.
Open Scope list_scope.
Set Default Proof Using "Type".

(** ** Connections and walks *)
Section Auto.
  Context {A : Type}.
  Variable n : nfa A.
  Lemma conn_linked s t : conn n s t <-> linked n s t.
  Proof.
    split.
    - induction 1 as [s|s t u H1 H2 IH]; [constructor|]. apply succ_all_inv in H1 as [(e & H1)|(a & H1)]; [eapply lk_eps|eapply lk_sym]; eauto.
    - induction 1 as [s|s t u e H1 H2 IH|s t u a H1 H2 IH]; [constructor| |]; (econstructor; [|exact IH]); [eapply succ_all_eps|eapply succ_all_trans]; eauto.
  Qed.
  Lemma closed_wf : wf n <-> closed n.
  Proof.
    split.
    - intros Hw s t [(e & H)|(a & H)]; [eapply wf_eps|eapply wf_trans]; eauto.
    - intros H. apply wf_intro; intros s t x Hx; apply (H s); eauto.
  Qed.
  Lemma walk_snoc s es t e u : walk n s es t -> In (u, e) (eps (get n t)) -> walk n s (es ++ [e]) u.
  Proof. induction 1; intros He; cbn; [econstructor; [exact He|constructor]|]. econstructor; eauto. Qed.
  Lemma walk_app s es t fs u : walk n s es t -> walk n t fs u -> walk n s (es ++ fs) u.
  Proof. induction 1; intros He; cbn; [exact He|]. econstructor; eauto. Qed.
  Definition marks (es : list epsk) : word := flat_map mark es.
  Lemma zpath_walk s w t : zpath n s w t <-> exists es, walk n s es t /\ w = marks es.
  Proof.
    split.
    - induction 1 as [|w t e u Hz IH He]; [exists []; split; [constructor|reflexivity]|]. destruct IH as (es & Hw & ->).
      exists (es ++ [e]). split; [eapply walk_snoc; eauto|]. unfold marks. rewrite flat_map_app. cbn. now rewrite app_nil_r.
    - intros (es & Hw & ->). assert (G : forall t0 es u, walk n t0 es u -> forall v, zpath n s v t0 -> zpath n s (v ++ marks es) u).
      { clear. intros t0 es u H. induction H as [t0|t0 t1 u e es H1 H2 IH]; intros v Hv; [unfold marks; cbn; now rewrite app_nil_r|].
        cbn. fold (marks es). rewrite app_assoc. apply IH. econstructor; eauto. }
      apply (G s es t Hw []). constructor.
  Qed.
End Auto.
Lemma tags_firsts l : forall ts, fold_left (fun ts t => add_tag t ts) l ts = ts ++ filter (fun x => negb (existsb (tag_eqb x) ts)) (firsts l).
Proof.
  assert (FF : forall (f g : tag -> bool) l, filter f (filter g l) = filter (fun x => f x && g x) l).
  { intros f g. induction l0 as [|x r IH]; [reflexivity|]. cbn. destruct (g x); cbn; [destruct (f x); cbn; now rewrite ?IH|]. rewrite andb_false_r. exact IH. }
  induction l as [|x l IH]; intros ts; cbn [fold_left firsts filter]; [now rewrite app_nil_r|].
  rewrite IH. unfold add_tag. destruct (existsb (tag_eqb x) ts) eqn:E; cbn [negb].
  - f_equal. rewrite FF. apply filter_ext. intros y. destruct (tag_eqb x y) eqn:Exy; [|now rewrite andb_true_r].
    apply tag_eqb_iff in Exy. subst. rewrite E. reflexivity.
  - rewrite <- app_assoc. cbn [app]. do 2 f_equal. rewrite FF. apply filter_ext. intros y. rewrite existsb_app. cbn. rewrite orb_false_r, negb_orb. f_equal. f_equal.
    destruct (tag_eqb y x) eqn:E1, (tag_eqb x y) eqn:E2; auto.
    + apply tag_eqb_iff in E1. subst. now rewrite (proj2 (tag_eqb_iff x x) eq_refl) in E2.
    + apply tag_eqb_iff in E2. subst. now rewrite (proj2 (tag_eqb_iff y y) eq_refl) in E1.
Qed.
Lemma tags_of_marks es : tags_of (marks es) = firsts (capture_marks es).
Proof.
  unfold tags_of. assert (G : forall ts, fold_left add_item (marks es) ts = fold_left (fun ts t => add_tag t ts) (capture_marks es) ts).
  { induction es as [|e es IH]; intros ts; [reflexivity|]. destruct e; cbn; apply IH. }
  rewrite G, tags_firsts. cbn. clear. induction (firsts (capture_marks es)); cbn; congruence.
Qed.
Lemma has_marks m es : m <> ENone -> has m (marks es) = true <-> In m es.
Proof.
  intros Hm. rewrite has_iff. unfold marks. rewrite in_flat_map. split.
  - intros (e & He & Hi). destruct e; cbn in Hi; intuition congruence.
  - intros H. exists m. split; [assumption|]. destruct m; cbn; auto; congruence.
Qed.

(** ** Running an automaton of a pattern *)
(** What it means for a run over the items of an automaton to have found a word. *)
Definition found {A} (check : A -> N -> bool) (width : N -> nat) (n : nfa A) (g : nat) (T : list N) (o : option bounds) : Prop :=
  match o with
  | Some b => exists W, lang check n W /\ reads T 0 W (length T) /\ b = run_marks width 0 W (no_bounds g)
  | None => forall W, lang check n W -> ~ reads T 0 W (length T)
  end.
(** What it means for [exec] to answer correctly. *)
Definition exec_right (e : ere) (T : list N) (g : nat) (r : res (option (list (option span)))) : Prop :=
  match r with
  | Ok (Some cs) => captures_of e T cs /\ length cs = g
  | Ok None => ~ occurs e T
  | _ => False
  end.
Definition test_right (e : ere) (T : list N) (r : res bool) : Prop :=
  match r with Ok b => b = true <-> occurs e T | _ => False end.

Section Runs.
  Variable e : ere.
  Lemma char_found n T g o : automaton_of e n -> Forall scalar T -> found atom_check len_utf8 n g T o -> exec_right e T g (run_finish T o).
  Proof.
    intros (_ & _ & _ & H & _) HT. destruct o as [b|]; cbn.
    - intros (W & H1 & H2 & ->). assert (Ha : accepted T e W) by (apply H; [assumption|]; split; [now apply (lang_acheck T)|assumption]).
      destruct (accepted_matches T e W Ha) as (i & j & L & Hm & HL). rewrite HL. cbn. split; [|now rewrite map_length, seq_length].
      exists i, j, L. split; [assumption|]. now rewrite map_length, seq_length.
    - intros Hn Ho. apply (occurs_iff T HT) in Ho as (W & Ha). apply (H T W HT) in Ha as [H1 H2]. apply (Hn W); [|assumption]. now apply (lang_acheck T).
  Qed.
  Lemma byte_found m T g o : byte_automaton_of e m -> Forall scalar T -> found byte_check (fun _ => 1) m g (utf8 T) o -> exec_right e T g (run_finish T o).
  Proof.
    intros Hm HT. assert (H := proj1 (proj2 (proj2 (proj2 Hm)))). destruct o as [b|]; cbn.
    - intros (W & H1 & H2 & ->). destruct (proj1 (H T W HT) (conj H1 H2)) as (w & Ha & ->). rewrite run_marks_enc.
      destruct (accepted_matches T e w Ha) as (i & j & L & Hma & HL). rewrite HL. cbn. split; [|now rewrite map_length, seq_length].
      exists i, j, L. split; [assumption|]. now rewrite map_length, seq_length.
    - intros Hn Ho. apply (byte_occurs e m T Hm HT) in Ho as (W & H1 & H2). now apply (Hn W).
  Qed.
  Lemma flat_char_right n T : automaton_of e n -> groups_ok n -> Forall scalar T ->
    test_right e T (flat_char_test n T) /\ exec_right e T (num_capture_groups n) (flat_char_exec n T).
  Proof.
    intros Hn Hg HT. assert (Hw := ok_wf _ (proj1 Hn)). assert (Hl := proj1 (proj2 Hn)). destruct (flat_spec len_utf8 len_utf8_pos atom_check n Hw) as (tbl & Et & Hr); [lia|exact Hg|].
    unfold flat_char_test, flat_char_exec. rewrite Et. cbn [bind]. destruct (Hr T) as [H1 H2]. split.
    - cbn. rewrite H1, (occurs_iff T HT). destruct Hn as (_ & _ & _ & Hn & _). split.
      + intros (W & X & Y). exists W. apply (Hn T W HT). split; [now apply (lang_acheck T)|assumption].
      + intros (W & X). apply (Hn T W HT) in X as [X Y]. exists W. split; [now apply (lang_acheck T)|assumption].
    - apply (char_found n); auto.
  Qed.
  Lemma flat_u8_right m T : byte_automaton_of e m -> Forall scalar T ->
    test_right e T (flat_u8_test m T) /\ exec_right e T (num_capture_groups m) (flat_u8_exec m T).
  Proof.
    intros Hm HT. assert (Hm' := Hm). destruct Hm' as (M1 & M2 & M3 & M4 & M5 & M6 & M7).
    destruct (flat_spec (fun _ => 1) (fun _ => le_n 1) byte_check m (ok_wf _ M1)) as (tbl & Et & Hr); [lia|exact M5|].
    unfold flat_u8_test, flat_u8_exec. rewrite Et. cbn [bind]. destruct (Hr (utf8 T)) as [H1 H2]. split.
    - cbn. rewrite H1, (byte_occurs e m T Hm HT). reflexivity.
    - apply (byte_found m); auto.
  Qed.
End Runs.

(** ** The automata made from a pattern that parses *)
Lemma with_ere_ok {A} s (k : ere -> res A) x : with_ere s k = Ok x -> exists e, parse_str s = ROk e /\ k e = Ok x.
Proof. unfold with_ere. destruct (parse_str s) as [e| |]; [|discriminate|discriminate]. eauto. Qed.
Lemma parsed_with_ere {A} s e (k : ere -> res A) : parse_str s = ROk e -> with_ere s k = k e.
Proof. unfold with_ere. now intros ->. Qed.
Section Parsed.
  Variable s : list N.
  Variable e : ere.
  Hypothesis Hp : parse_str s = ROk e.
  Hypothesis Hs : Forall scalar s.
  Lemma parsed_ok : ere_atoms atom_ok e.
  Proof using Hp Hs. eapply parsed_atoms_ok; eauto. Qed.
  Lemma parsed_working : exists n, working_new (tree_of e) = Ok n /\ ((n = [] /\ forall T, Forall scalar T -> ~ occurs e T) \/ (automaton_of e n /\ groups_ok n)).
  Proof using Hp Hs.
    destruct (working_new_spec e parsed_ok) as (n & En & H). exists n. split; [assumption|]. destruct H as [H|H]; [now left|].
    right. split; [assumption|]. eapply working_groups; eauto; [apply parsed_ok|]. intros ->. destruct H as (_ & H & _). cbn in H. lia.
  Qed.
  Lemma parsed_working_ne n : working_new (tree_of e) = Ok n -> n <> [] -> automaton_of e n /\ groups_ok n.
  Proof using Hp Hs. intros En Hn. destruct parsed_working as (n' & En' & [[H _]|H]); rewrite En in En'; injection En' as <-; [congruence|exact H]. Qed.
  Lemma parsed_u8 n : working_new (tree_of e) = Ok n -> n <> [] -> exists m, u8_new n = Ok m /\ ((m = [] /\ forall T, Forall scalar T -> ~ occurs e T) \/ byte_automaton_of e m).
  Proof using Hp Hs. intros En Hn. apply u8_new_spec; auto; [apply parsed_ok|]. eapply parsed_working_ne; eauto. Qed.
  Lemma u8_nil : u8_new [] = Panic.
  Proof. reflexivity. Qed.
  Lemma parsed_u8_ne n m : working_new (tree_of e) = Ok n -> u8_new n = Ok m -> m <> [] -> byte_automaton_of e m.
  Proof using Hp Hs.
    intros En Em Hm. assert (Hn : n <> []) by (intros ->; rewrite u8_nil in Em; discriminate).
    destruct (parsed_u8 n En Hn) as (m' & Em' & [[H _]|H]); rewrite Em in Em'; injection Em' as <-; [congruence|exact H].
  Qed.
End Parsed.
Lemma flat_make_ne {A} (n : nfa A) tbl : flat_make n = Ok tbl -> n <> [].
Proof. intros H ->. discriminate. Qed.

(** ** Mandatory groups *)
Section Optional.
  Context {A : Type}.
  Variable check : A -> N -> bool.
  Variable n : nfa A.
  Hypothesis Hw : wf n.
  Hypothesis Hl : 1 <= length n.
  Lemma optional_spec k : capture_group_is_optional n k = Ok false -> forall w, lang check n w -> In (IM (ESC k)) w.
  Proof using Hw Hl.
    unfold capture_group_is_optional. rewrite wfb_guard by assumption. cbn [guard bind].
    set (succ := fun s => succ_trans n s ++ succ_eps n (fun e => negb (epsk_eqb e (ESC k))) s).
    destruct (reach_from_spec succ (length n) 0) as (r & -> & Hrl & Hr); [lia| |].
    { intros x y Hy. unfold edge, succ in Hy. apply in_app_or in Hy as [Hy|Hy]; [apply succ_trans_In in Hy as (a & Hy); eapply wf_trans; eauto|].
      apply succ_eps_In in Hy as (e & Hy & _). eapply wf_eps; eauto. }
    cbn [bind]. intros Hb w Hw'. destruct (forallb _ _); [|discriminate]. cbn [guard bind] in Hb. injection Hb as Hb.
    assert (D : In (IM (ESC k)) w \/ ~ In (IM (ESC k)) w).
    { clear. induction w as [|[c|e] w IH]; [right; intros []| |].
      - destruct IH as [IH|IH]; [left; now right|right; intros [E|E]; [discriminate|auto]].
      - destruct IH as [IH|IH]; [left; now right|]. destruct (epsk_eqb e (ESC k)) eqn:E.
        + apply epsk_eqb_iff in E. subst. left. now left.
        + right. intros [E'|E']; [|auto]. injection E' as ->. now rewrite (proj2 (epsk_eqb_iff (ESC k) (ESC k)) eq_refl) in E. }
    destruct D as [D|D]; [assumption|]. exfalso.
    assert (G : forall q u t, path check n q u t -> ~ In (IM (ESC k)) u -> star succ q t).
    { intros q u t H. induction H as [q|q t e u v He Hp IH|q t a c u v Ha Hc Hp IH]; intros Hn.
      - constructor.
      - apply Relation_Operators.rt1n_trans with t; [|apply IH; intros X; apply Hn; apply in_or_app; now right].
        unfold edge, succ. apply in_or_app. right. apply succ_eps_In. exists e. split; [assumption|]. destruct (epsk_eqb e (ESC k)) eqn:E; [|reflexivity].
        apply epsk_eqb_iff in E. subst e. exfalso. apply Hn. now left.
      - apply Relation_Operators.rt1n_trans with t; [|apply IH; intros X; apply Hn; now right].
        unfold edge, succ. apply in_or_app. left. apply succ_trans_In. eauto. }
    rewrite (marked_last r (length n)) in Hb by assumption. apply (G 0 w (length n - 1)) in Hw'; [|assumption]. apply Hr in Hw'. congruence.
  Qed.
End Optional.
Section Mandatory.
  Variable T : list N.
  Variable e : ere.
  Hypothesis HT : Forall scalar T.
  Lemma match_accepted i j L : matches T e i j L -> exists v, accepted T e (map IC (firstn i T) ++ v ++ map IC (skipn j T)) /\ reads T i v j /\ blog i v j L.
  Proof using HT.
    intros H. apply (matches_word T HT) in H as (v & H1 & H2 & H3). exists v. split; [|auto].
    assert (Hl := reads_le _ _ _ _ H2). split.
    - exists (firstn i T), v, (skipn j T). repeat split; try discriminate; auto.
      + apply Forall_forall. intros x Hx. rewrite Forall_forall in HT. apply HT. rewrite <- (firstn_skipn i T). apply in_or_app. auto.
      + apply Forall_forall. intros x Hx. rewrite Forall_forall in HT. apply HT. rewrite <- (firstn_skipn j T). apply in_or_app. auto.
    - apply reads_app. exists i. split.
      + assert (E : length (firstn i T) = i) by (rewrite firstn_length; lia). rewrite <- E at 2. rewrite <- (Nat.add_0_l (length _)).
        apply reads_IC; [rewrite E; reflexivity|lia].
      + apply reads_app. exists j. split; [assumption|].
        assert (E : length (skipn j T) = length T - j) by apply skipn_length.
        replace (length T) with (j + length (skipn j T)) by lia. apply reads_IC; [apply firstn_all|lia].
  Qed.
  Lemma blog_mark i v j L k : blog i v j L -> In (IM (ESC k)) v -> last_of k L <> None.
  Proof.
    induction 1 as [i|i c|i|i|k' i j v L H IH Hf|i j k' u v L1 L2 H1 IH1 H2 IH2]; intros Hi.
    - destruct Hi.
    - destruct Hi as [E|[]]; discriminate.
    - destruct Hi as [E|[]]; discriminate.
    - destruct Hi as [E|[]]; discriminate.
    - rewrite last_of_app. cbn. destruct (Nat.eqb_spec k' k); [discriminate|]. cbn. apply IH.
      destruct Hi as [E|Hi]; [congruence|]. apply in_app_or in Hi as [Hi|[E|[]]]; [assumption|discriminate].
    - rewrite last_of_app. apply in_app_or in Hi as [Hi|Hi].
      + destruct (last_of k L2); cbn; [discriminate|auto].
      + destruct (last_of k L2); [discriminate|]. now apply IH2 in Hi.
  Qed.
  Lemma mandatory_spec n k i j L : automaton_of e n -> capture_group_is_optional n k = Ok false -> matches T e i j L -> last_of k L <> None.
  Proof using HT.
    intros Hn Ho Hm. destruct (match_accepted i j L Hm) as (v & Ha & _ & Hb). destruct Hn as (N1 & N2 & _ & N4 & _). apply (N4 T _ HT) in Ha as [Ha _].
    assert (Hk := optional_spec acheck n (ok_wf _ N1) ltac:(lia) k Ho _ Ha). apply in_app_or in Hk as [Hk|Hk]; [apply in_map_iff in Hk as (c & E & _); discriminate|].
    apply in_app_or in Hk as [Hk|Hk]; [|apply in_map_iff in Hk as (c & E & _); discriminate]. eapply blog_mark; eauto.
  Qed.
  (** Spans of a match lie within the text. *)
  Lemma match_log_ok i j L : matches T e i j L -> log_ok T L.
  Proof using HT. intros Hm. destruct (match_accepted i j L Hm) as (v & _ & Hr & Hb). now apply (blog_marks T) in Hb. Qed.
End Mandatory.

(** ** Engines *)
Definition engine_right (e : ere) (en : engine) : Prop := forall T, Forall scalar T ->
  test_right e T (engine_test en T) /\ exec_right e T (engine_groups en) (engine_exec en T).
Lemma num_groups_pos {A} (n : nfa A) : 1 <= num_capture_groups n.
Proof. unfold num_capture_groups. lia. Qed.
Lemma compile_flat_right s en : compile_flat s = Ok en -> Forall scalar s -> exists e, G_ere e s /\ engine_right e en /\ 1 <= engine_groups en.
Proof.
  intros H Hs. apply with_ere_ok in H as (e & Hp & H). exists e. split; [now apply parse_iff|].
  destruct (working_new (tree_of e)) as [n| | |] eqn:En; try discriminate. cbn [bind] in H. unfold make_flat in H.
  destruct (flat_make n) as [tbl| | |] eqn:Et; try discriminate. cbn [bind] in H. destruct (nfa_compiles n); [|discriminate]. injection H as <-.
  destruct (parsed_working_ne s e Hp Hs n En (flat_make_ne _ _ Et)) as [Ha Hg]. split; [|apply num_groups_pos]. intros T HT. now apply flat_char_right.
Qed.
Lemma compile_flat_u8_right s en : compile_flat_u8 s = Ok en -> Forall scalar s -> exists e, G_ere e s /\ engine_right e en /\ 1 <= engine_groups en.
Proof.
  intros H Hs. apply with_ere_ok in H as (e & Hp & H). exists e. split; [now apply parse_iff|].
  destruct (working_new (tree_of e)) as [n| | |] eqn:En; try discriminate. cbn [bind] in H.
  destruct (u8_new n) as [m| | |] eqn:Em; try discriminate. cbn [bind] in H. unfold make_flat_u8 in H.
  destruct (flat_make m) as [tbl| | |] eqn:Et; try discriminate. cbn [bind] in H. injection H as <-.
  assert (Hm := parsed_u8_ne s e Hp Hs n m En Em (flat_make_ne _ _ Et)). split; [|apply num_groups_pos]. intros T HT. now apply flat_u8_right.
Qed.
Section Right.
  Variable e : ere.
  Variable en : engine.
  Hypothesis Hr : engine_right e en.
  Variable T : list N.
  Hypothesis HT : Forall scalar T.
  Lemma right_test : exists b, engine_test en T = Ok b /\ (b = true <-> occurs e T).
  Proof using Hr HT. destruct (Hr T HT) as [H _]. destruct (engine_test en T) as [b| | |]; [exists b; split; [reflexivity|exact H]| | |]; destruct H. Qed.
  Lemma right_exec : exists o, engine_exec en T = Ok o /\ match o with Some cs => captures_of e T cs /\ length cs = engine_groups en | None => ~ occurs e T end.
  Proof using Hr HT. destruct (Hr T HT) as [_ H]. destruct (engine_exec en T) as [[cs|]| | |]; [exists (Some cs); split; [reflexivity|exact H]|exists None; split; [reflexivity|exact H]| | |]; destruct H. Qed.
  Lemma right_agree : engine_test en T = Ok true <-> exists cs, engine_exec en T = Ok (Some cs).
  Proof using Hr HT.
    destruct right_test as (b & Eb & Hb), right_exec as (o & Eo & Ho). rewrite Eb, Eo. split.
    - intros E. injection E as ->. destruct o as [cs|]; [eauto|]. exfalso. apply Ho, Hb. reflexivity.
    - intros (cs & E). injection E as ->. f_equal. apply Hb. destruct Ho as [(i & j & L & Hm & _) _]. now exists i, j, L.
  Qed.
  Lemma right_spans cs : engine_exec en T = Ok (Some cs) -> forall k a b, nth_error cs k = Some (Some (a, b)) ->
    exists i j, i <= j <= length T /\ a = byte_pos T i /\ b = byte_pos T j.
  Proof using Hr HT.
    intros E k a b Hk. destruct right_exec as (o & Eo & Ho). rewrite E in Eo. injection Eo as <-. destruct Ho as [(i & j & L & Hm & Hc) _].
    assert (Hk' : nth_error (map (capture T L) (seq 0 (length cs))) k = Some (Some (a, b))) by (eapply eq_trans; [apply (f_equal (fun l => nth_error l k)); symmetry; exact Hc|exact Hk]). clear Hk. rename Hk' into Hk. assert (Hlt : k < length (seq 0 (length cs))) by (rewrite <- (map_length (capture T L) (seq 0 (length cs))); apply nth_error_Some; rewrite Hk; discriminate).
    rewrite seq_length in Hlt. rewrite (map_nth_error (capture T L) k (seq 0 (length cs)) (d := k)) in Hk; [|rewrite (nth_error_nth' _ 0) by (now rewrite seq_length); now rewrite seq_nth].
    injection Hk as Hk. unfold capture in Hk. destruct (last_of k L) as [[x y]|] eqn:El; [|discriminate]. injection Hk as <- <-.
    exists x, y. split; [|auto]. assert (Hlog := match_log_ok T e HT i j L Hm). unfold log_ok in Hlog. rewrite Forall_forall in Hlog. apply last_of_In in El. exact (Hlog _ El).
  Qed.
  Lemma right_nth cs k : engine_exec en T = Ok (Some cs) -> k < length cs -> (forall i j L, matches T e i j L -> last_of k L <> None) -> exists sp, nth_error cs k = Some (Some sp).
  Proof using Hr HT.
    intros E Hk Hm. destruct right_exec as (o & Eo & Ho). rewrite E in Eo. injection Eo as <-. destruct Ho as [(i & j & L & Hma & Hc) _].
    apply Hm in Hma. assert (G : exists sp, nth_error (map (capture T L) (seq 0 (length cs))) k = Some (Some sp)); [|destruct G as (sp & G); exists sp; eapply eq_trans; [apply (f_equal (fun l => nth_error l k)); exact Hc|exact G]]. rewrite (map_nth_error (capture T L) k (seq 0 (length cs)) (d := k)); [|rewrite (nth_error_nth' _ 0) by (now rewrite seq_length); now rewrite seq_nth].
    unfold capture. destruct (last_of k L) as [[x y]|]; [eauto|congruence].
  Qed.
  Lemma match_zero i j L : matches T e i j L -> last_of 0 L = Some (i, j).
  Proof. intros (L' & _ & ->). rewrite last_of_app. reflexivity. Qed.
End Right.
