(** Fixed offsets. *)
From Verif Require Export PTopo POnePass.
From Coq Require Import ZifyBool ZifyNat Permutation.
Open Scope nat_scope.
Open Scope list_scope.
Set Default Proof Using "Type".

Lemma list_eqb_iff {A} (eqb : A -> A -> bool) : (forall x y, eqb x y = true <-> x = y) -> forall l m, list_eqb eqb l m = true <-> l = m.
Proof.
  intros H. induction l as [|x l IH]; intros [|y m]; cbn; try (split; congruence). rewrite andb_true_iff, H, IH. split; [intros [-> ->]; reflexivity|]. intros E. injection E; auto.
Qed.
Lemma opt_nat_eqb_iff x y : opt_nat_eqb x y = true <-> x = y.
Proof. destruct x, y; cbn; rewrite ?Nat.eqb_eq; split; congruence. Qed.
Lemma bound_eqb_iff x y : bound_eqb x y = true <-> x = y.
Proof. destruct x, y. unfold bound_eqb. cbn. rewrite andb_true_iff, !opt_nat_eqb_iff. split; [intros [-> ->]; reflexivity|]. intros E. injection E; auto. Qed.
Lemma bounds_eqb_iff x y : bounds_eqb x y = true <-> x = y.
Proof. apply list_eqb_iff, bound_eqb_iff. Qed.
Section Fixed.
  Variable n : nfa range.
  Hypothesis Hbyte : forall s t r, In (t, r) (trans (get n s)) -> byte_ok r.
  Notation marks1 := (run_marks (fun _ => 1)).
  Lemma fo_eps_marks off k b w : marks1 off (mark k ++ w) b = marks1 off w (fo_eps off k b).
  Proof. destruct k; reflexivity. Qed.
  (** The bounds found are those of the words leading to the end. *)
  Lemma fo_paths_spec fuel : forall s off b ps, fo_paths fuel n s off b = Ok ps -> 1 <= length n -> s < length n -> wf n ->
    forall p, In p ps <-> exists w, path byte_check n s w (length n - 1) /\ p = marks1 off w b.
  Proof using Hbyte.
    induction fuel as [|f IH]; intros s off b ps H Hl Hs Hw p; [discriminate|]. cbn [fo_paths] in H.
    destruct (mapM (fun t => fo_paths f n (fst t) (off + 1) b) (trans (get n s))) as [ts| | |] eqn:Et; try discriminate. cbn [bind] in H.
    destruct (mapM (fun e => fo_paths f n (fst e) off (fo_eps off (snd e) b)) (eps (get n s))) as [es| | |] eqn:Ee; try discriminate. cbn [bind] in H.
    injection H as <-. rewrite !in_app_iff.
    assert (M : forall (A B : Type) (g : A -> res B) l ys, mapM g l = Ok ys -> forall y, In y ys -> exists x, In x l /\ g x = Ok y).
    { intros A B g. induction l as [|x l IHl]; intros ys E y Hy; cbn in E; [injection E as <-; destruct Hy|].
      destruct (g x) as [z| | |] eqn:Ex; try discriminate. cbn [bind] in E. destruct (mapM g l) as [zs| | |] eqn:El; try discriminate. injection E as <-.
      destruct Hy as [<-|Hy]; [exists x; split; [now left|assumption]|]. destruct (IHl zs eq_refl y Hy) as (x' & H1 & H2). exists x'. split; [now right|assumption]. }
    assert (M2 : forall (A B : Type) (g : A -> res B) l ys, mapM g l = Ok ys -> forall x, In x l -> exists y, In y ys /\ g x = Ok y).
    { intros A B g. induction l as [|x l IHl]; intros ys E x0 Hx; [destruct Hx|]. cbn in E.
      destruct (g x) as [z| | |] eqn:Ex; try discriminate. cbn [bind] in E. destruct (mapM g l) as [zs| | |] eqn:El; try discriminate. injection E as <-.
      destruct Hx as [<-|Hx]; [exists z; split; [now left|assumption]|]. destruct (IHl zs eq_refl x0 Hx) as (y & H1 & H2). exists y. split; [now right|assumption]. }
    split.
    - intros [H|[H|H]].
      + destruct (Nat.eqb_spec (s + 1) (length n)); [|destruct H]. destruct H as [<-|[]]. exists []. split; [|reflexivity]. replace (length n - 1) with s by lia. constructor.
      + apply in_concat in H as (bs & Hb & Hp). destruct (M _ _ _ _ _ Et bs Hb) as ([t r] & Hx & E). cbn [fst snd] in E.
        destruct (proj1 (IH _ _ _ _ E Hl (wf_trans _ _ _ _ Hw Hx) Hw p) Hp) as (w & Hpath & ->). destruct (Hbyte _ _ _ Hx) as [B1 B2].
        exists (IC (fst r) :: w). split; [|reflexivity]. eapply p_sym; eauto. unfold byte_check, in_range. lia.
      + apply in_concat in H as (bs & Hb & Hp). destruct (M _ _ _ _ _ Ee bs Hb) as ([t k] & Hx & E). cbn [fst snd] in E.
        destruct (proj1 (IH _ _ _ _ E Hl (wf_eps _ _ _ _ Hw Hx) Hw p) Hp) as (w & Hpath & ->).
        exists (mark k ++ w). split; [eapply p_eps; eauto|]. now rewrite fo_eps_marks.
    - intros (w & Hp & ->). inversion Hp as [|? t k w' ? Hx Hp'|? t r c w' ? Hx Hc Hp']; subst.
      + left. destruct (Nat.eqb_spec (length n - 1 + 1) (length n)); [now left|lia].
      + right. right. destruct (M2 _ _ _ _ _ Ee _ Hx) as (bs & Hb & E). cbn [fst snd] in E. apply in_concat. exists bs. split; [assumption|].
        rewrite fo_eps_marks. apply (IH _ _ _ _ E Hl (wf_eps _ _ _ _ Hw Hx) Hw). eauto.
      + right. left. destruct (M2 _ _ _ _ _ Et _ Hx) as (bs & Hb & E). cbn [fst snd] in E. apply in_concat. exists bs. split; [assumption|].
        apply (IH _ _ _ _ E Hl (wf_trans _ _ _ _ Hw Hx) Hw). eexists. split; [exact Hp'|]. reflexivity.
  Qed.
  (** It ends when the automaton is in topological order. *)
  Lemma mapM_ok {A B} (g : A -> res B) l : (forall x, In x l -> exists y, g x = Ok y) -> exists ys, mapM g l = Ok ys.
  Proof.
    induction l as [|x l IH]; intros H; [exists []; reflexivity|]. cbn. destruct (H x (or_introl eq_refl)) as (y & ->). cbn.
    destruct IH as (ys & ->); [intros z Hz; apply H; now right|]. cbn. eauto.
  Qed.
  Lemma fo_paths_ends l : (forall l1 x l2, l = l1 ++ x :: l2 -> forall y, arrow n x y -> In y l2) ->
    forall fuel l1 s l2 off b, l = l1 ++ s :: l2 -> length l2 < fuel -> exists ps, fo_paths fuel n s off b = Ok ps.
  Proof.
    intros Ht. induction fuel as [|f IH]; intros l1 s l2 off b El Hf; [clear - Hf; lia|]. cbn [fo_paths].
    assert (G : forall y off b, arrow n s y -> exists ps, fo_paths f n y off b = Ok ps).
    { intros y o b' Hy. apply (Ht _ _ _ El) in Hy. apply in_split in Hy as (m1 & m2 & ->). apply (IH (l1 ++ s :: m1) y m2); [rewrite El; now rewrite <- app_assoc|].
      rewrite app_length in Hf. cbn [length] in Hf. clear - Hf. lia. }
    destruct (mapM_ok (fun t => fo_paths f n (fst t) (off + 1) b) (trans (get n s))) as (ts & ->); [intros [t r] Hx; apply G; right; eauto|]. cbn [bind].
    destruct (mapM_ok (fun e => fo_paths f n (fst e) off (fo_eps off (snd e) b)) (eps (get n s))) as (es & ->); [intros [t r] Hx; apply G; left; eauto|]. cbn [bind].
    eauto.
  Qed.
  Lemma fo_tags_ok_spec : groups_ok n -> fo_tags_ok n = true.
  Proof.
    intros Hg. unfold fo_tags_ok. apply forallb_forall. intros st Hs. apply forallb_forall. intros [t k] He.
    apply In_nth with (d := empty_state) in Hs as (s & _ & <-). cbn [snd]. destruct k as [ | | |k|k]; auto; apply Nat.ltb_lt; apply (Hg s t); [left|right]; exact He.
  Qed.
  Lemma fixed_offsets_spec : wf n -> 1 <= length n -> groups_ok n ->
    exists o, fixed_offsets n = Ok o /\
      forall offs, o = Some offs <-> (exists l, topological_ordering n = Ok (Some l)) /\ (exists W, lang byte_check n W) /\
                                    (forall W, lang byte_check n W -> marks1 0 W (no_bounds (num_capture_groups n)) = offs).
  Proof using Hbyte.
    intros Hw Hl Hg. destruct (topological_spec n (proj1 (closed_wf n) Hw) Hl) as (o & Eo & Ho). unfold fixed_offsets. rewrite Eo. cbn [bind].
    destruct o as [l|].
    - destruct Ho as (P & Ht & _). rewrite (fo_tags_ok_spec Hg). cbn [guard bind].
      assert (H0 : In 0 l) by (apply (Permutation_in _ (Permutation_sym P)); apply in_seq; lia).
      apply in_split in H0 as (l1 & l2 & El). assert (Hlen := Permutation_length P). rewrite seq_length, El, app_length in Hlen. cbn [length] in Hlen.
      destruct (fo_paths_ends l Ht (length n) l1 0 l2 0 (no_bounds (num_capture_groups n)) El) as (ps & Eps); [lia|]. rewrite Eps. cbn [bind].
      assert (Sp := fo_paths_spec _ _ _ _ _ Eps Hl Hl Hw). destruct ps as [|p r].
      + eexists. split; [reflexivity|]. intros offs. split; [discriminate|]. intros (_ & (W & HW) & _). exfalso. apply (proj2 (Sp (marks1 0 W (no_bounds (num_capture_groups n))))). eauto.
      + eexists. split; [reflexivity|]. intros offs. split.
        * destruct (forallb (bounds_eqb p) r) eqn:Ef; [|discriminate]. intros E. injection E as <-. split; [eauto|]. split.
          -- destruct (proj1 (Sp p) (or_introl eq_refl)) as (W & HW & _). eauto.
          -- intros W HW. assert (Hi : In (marks1 0 W (no_bounds (num_capture_groups n))) (p :: r)) by (apply Sp; eauto).
             destruct Hi as [<-|Hi]; [reflexivity|]. rewrite forallb_forall in Ef. apply Ef, bounds_eqb_iff in Hi. congruence.
        * intros (_ & _ & H). assert (A : forall x, In x (p :: r) -> x = offs) by (intros x Hx; apply Sp in Hx as (W & HW & ->); now apply H).
          rewrite (A p) by (now left). replace (forallb (bounds_eqb offs) r) with true; [reflexivity|]. symmetry. apply forallb_forall. intros x Hx.
          apply bounds_eqb_iff. symmetry. apply A. now right.
    - eexists. split; [reflexivity|]. intros offs. split; [discriminate|]. intros ((l & E) & _). discriminate.
  Qed.
End Fixed.

(** ** The engine around another one *)
Lemma fo_finish T b cs : finish T b = Ok cs -> mapM (fo_slice T) b = Ok cs.
Proof.
  revert cs. unfold finish. induction b as [|[x y] b IH]; intros cs H; [exact H|]. cbn [mapM] in *.
  destruct (finish_one T (x, y)) as [z| | |] eqn:E; try discriminate. cbn [bind] in H. destruct (mapM (finish_one T) b) as [zs| | |]; try discriminate.
  rewrite (IH zs eq_refl). assert (E' : fo_slice T (x, y) = Ok z) by (destruct x, y; cbn in *; try discriminate; exact E). rewrite E'. exact H.
Qed.
Lemma fixed_every e m offs : byte_automaton_of e m -> fixed_offsets m = Ok (Some offs) ->
  length offs = num_capture_groups m /\
  (forall T i j L, Forall scalar T -> matches T e i j L -> fo_exec offs true T = Ok (Some (map (capture T L) (seq 0 (length offs))))).
Proof.
  intros Hm Ef. assert (Hm' := Hm). destruct Hm' as (M1 & M2 & M3 & M4 & M5 & M6 & M7).
  destruct (fixed_offsets_spec m M6 (ok_wf _ M1) ltac:(lia) M5) as (o & Eo & Ho). rewrite Ef in Eo. injection Eo as <-.
  destruct (proj1 (Ho offs) eq_refl) as (_ & (W0 & HW0) & Hall).
  assert (Hlen : length offs = num_capture_groups m) by (rewrite <- (Hall W0 HW0), run_marks_length; apply repeat_length).
  split; [assumption|]. intros T i j L HT Hma. destruct (match_accepted T e HT i j L Hma) as (v & Ha & Hr & Hbl).
  assert (X : lang byte_check m (enc (map IC (firstn i T) ++ v ++ map IC (skipn j T)))) by (apply (M4 T _ HT); eauto).
  apply Hall in X. rewrite run_marks_enc in X. unfold fo_exec. rewrite (fo_finish T offs (map (capture T L) (seq 0 (length offs)))); [reflexivity|]. rewrite <- X at 1. rewrite Hlen.
  assert (Li : length (firstn i T) = i) by (assert (Q := reads_le _ _ _ _ Hr); rewrite firstn_length; lia).
  apply finish_marks with (j := j); [apply Ha|rewrite Li; assumption|rewrite Li; assumption].
Qed.
Lemma fixed_right e m b offs : byte_automaton_of e m -> fixed_offsets m = Ok (Some offs) -> (forall T, Forall scalar T -> test_right e T (engine_test b T)) ->
  engine_right e (EFixed b offs).
Proof.
  intros Hm Ef Hb. destruct (fixed_every e m offs Hm Ef) as [Hlen Every]. intros T HT. split; [exact (Hb T HT)|]. cbn [engine_exec]. specialize (Hb T HT). unfold test_right in Hb. destruct (engine_test b T) as [[|]| | |]; try contradiction.
  - cbn [bind]. destruct (proj1 Hb eq_refl) as (i & j & L & Hma). rewrite (Every T i j L HT Hma). cbn. split; [|now rewrite map_length, seq_length].
    exists i, j, L. split; [assumption|]. now rewrite map_length, seq_length.
  - cbn. intros Ho'. apply Hb in Ho'. discriminate.
Qed.
