(** The preferred run of the finished character automaton is the preferred match. *)
From Verif Require Export PPrioSpec PPrioOpt.
From Coq Require Import ZifyBool ZifyNat ZifyN.
Open Scope nat_scope.
Open Scope list_scope.
Set Default Proof Using "Type".

(** At the accept state the whole text has been read. *)
Definition k0 (T : list N) (j : nat) : option word := if j =? length T then Some [] else None.
Definition K0 (T : list N) (j : nat) (r : option word) : Prop := r = k0 T j.
Lemma K0_det T : kdet (K0 T).
Proof. intros j r r' -> ->. reflexivity. Qed.

Definition any_tree : tree := TStar (TSymbol (NonmatchingList [])) false.
Definition firsts (f : nat -> option word) (l : list nat) : option word := fold_right (fun i r => orelse (f i) r) None l.
Lemma firsts_ext f g l : (forall i, In i l -> f i = g i) -> firsts f l = firsts g l.
Proof. intros H. induction l as [|i l IH]; cbn; [reflexivity|]. rewrite (H i) by now left. f_equal. apply IH. intros; apply H. now right. Qed.
Lemma firsts_pre u f l : firsts (fun i => pre u (f i)) l = pre u (firsts f l).
Proof. unfold firsts. induction l as [|i l IH]; cbn [fold_right]; [reflexivity|]. now rewrite IH, pre_orelse. Qed.
Definition slice (T : list N) (i j : nat) : list N := firstn (j - i) (skipn i T).
Lemma nth_skipn {A} (l : list A) i c : nth_error l i = Some c -> skipn i l = c :: skipn (S i) l.
Proof.
  revert i; induction l as [|x l IH]; intros [|i] H; cbn in *; try discriminate.
  - now injection H as ->.
  - rewrite (IH i H). destruct l; reflexivity.
Qed.

Ltac two := repeat match goal with |- Forall2 _ _ _ => constructor | |- Forall _ _ => constructor end.

Section Pad.
  Variable T : list N.
  Hypothesis HT : Forall scalar T.
  Notation sym := (tways acheck T (TSymbol (NonmatchingList []))).

  Lemma sym_step i : sym i = match nth_error T i with Some c => [(S i, [IC c])] | None => [] end.
  Proof using HT.
    cbn. unfold canb. destruct (nth_error T i) as [c|] eqn:E; [|reflexivity]. rewrite any_atom.
    apply (scalar_at T HT) in E. unfold scalar in E. now rewrite E.
  Qed.
  Lemma sym_grows : grows T sym.
  Proof using HT. intros i j u Hi Hin. rewrite sym_step in Hin. destruct (nth_error T i); [|destruct Hin]. destruct Hin as [E|[]]. injection E as <- _. lia. Qed.
  Lemma any_fs k m : forall i, i <= length T -> length T - i <= m ->
    fs (up_to sym true m i) k = firsts (fun x => pre (map IC (slice T i x)) (k x)) (seq i (S (length T) - i)).
  Proof using HT.
    assert (Es : forall x, slice T x x = []) by (intros x; unfold slice; now rewrite Nat.sub_diag).
    induction m as [|m IH]; intros i Hi Hm.
    - replace (S (length T) - i) with 1 by lia. cbn [up_to seq firsts fold_right]. rewrite fs_one, Es. cbn [map]. now rewrite orelse_none.
    - change true with (negb false) at 1. rewrite fs_up_to. cbv zeta. cbn [negb]. rewrite sym_step.
      replace (S (length T) - i) with (S (length T - i)) by lia. cbn [seq firsts fold_right]. rewrite Es, pre_nil. f_equal.
      destruct (nth_error T i) as [c|] eqn:E.
      + assert (i < length T) by (apply nth_error_Some; congruence). rewrite fs_one, IH by lia.
        replace (S (length T) - S i) with (length T - i) by lia. rewrite <- firsts_pre. apply firsts_ext. intros x Hx. apply in_seq in Hx.
        rewrite <- pre_app. f_equal. unfold slice. rewrite (nth_skipn T i c E). replace (x - i) with (S (x - S i)) by lia. reflexivity.
      + apply nth_error_None in E. replace (length T - i) with 0 by lia. reflexivity.
  Qed.
  Lemma any_end m : forall j, j <= length T -> length T - j <= m -> fs (up_to sym true m j) (k0 T) = Some (map IC (skipn j T)).
  Proof using HT.
    induction m as [|m IH]; intros j Hj Hm.
    - assert (j = length T) as -> by lia. cbn [up_to]. rewrite fs_one, pre_nil. unfold k0. rewrite Nat.eqb_refl, skipn_all. reflexivity.
    - change true with (negb false) at 1. rewrite fs_up_to. cbv zeta. cbn [negb]. rewrite sym_step. unfold k0 at 1.
      destruct (Nat.eqb_spec j (length T)) as [->|Hn]; [now rewrite skipn_all|]. cbn [orelse].
      destruct (nth_error T j) as [c|] eqn:E; [|apply nth_error_None in E; lia].
      rewrite fs_one, IH by lia. rewrite (nth_skipn T j c E). reflexivity.
  Qed.

  (** The preferred padded word. *)
  Definition best (w : nat -> ways item) : option word :=
    firsts (fun i => pre (map IC (firstn i T)) (fs (w i) (fun j => Some (map IC (skipn j T))))) (seq 0 (S (length T))).
  Lemma best_fs w : inr T w ->
    fs (cat_ways [cat_ways [tways acheck T any_tree; w]; tways acheck T any_tree] 0) (k0 T) = best w.
  Proof using HT.
    intros Hw. cbn [cat_ways]. rewrite fs_then. unfold any_tree. change (tways acheck T (TStar ?t false)) with (up_to (tways acheck T t) true (length T)).
    rewrite fs_then. rewrite any_fs by lia. rewrite Nat.sub_0_r. unfold best. apply firsts_ext. intros i Hi. apply in_seq in Hi.
    unfold slice. rewrite Nat.sub_0_r. cbn [skipn]. f_equal. rewrite fs_then. apply fs_ext. intros j u Hin.
    apply Hw in Hin; [|lia]. rewrite fs_one, pre_nil. rewrite fs_then.
    rewrite (fs_ext _ _ (k0 T)) by (intros j' u' _; now rewrite fs_one, pre_nil). apply any_end; lia.
  Qed.

  Theorem working_best t n : tree_labels atom_ok (fun _ => True) t -> tree_ok t -> 2 <= length (build t) -> tloops acheck T t ->
    working_new t = Ok n -> n <> [] -> ev acheck T n (K0 T) (alts n 0) 0 (best (tways acheck T t)).
  Proof using HT.
    intros Hat Ht Hlen Hlo. unfold working_new, working_new_loop_opt. assert (Hok := build_ok t Ht). assert (HB := build_follows acheck T t Ht Hlo).
    set (b := build t) in *. rewrite wfb_guard by (try apply Hok; lia). cbn [guard bind].
    destruct (clean_start_spec acheck b) as (b1 & E1 & T1 & V1); [apply Hok|lia|]. rewrite E1. cbn [bind].
    assert (O1 : ok b1) by (eapply thin_ok; eauto).
    destruct (clean_end_spec acheck b1) as (b2 & E2 & T2 & V2); [apply O1|rewrite (proj1 T1); lia|]. rewrite E2. cbn [bind].
    assert (O2 : ok b2) by (eapply thin_ok; eauto).
    assert (K1 : keeps_all acheck b b1) by (eapply clean_start_keeps; [apply Hok| |exact E1]; lia).
    assert (K2 : keeps_all acheck b1 b2) by (eapply clean_end_keeps; [apply O1| |exact E2]; rewrite (proj1 T1); lia).
    assert (HB2 : follows acheck T b2 (tways acheck T t)).
    { intros K k i Hi HK. apply K2; [assumption|]. apply K1; [assumption|]. now apply HB. }
    assert (HA : follows acheck T any_loop (tways acheck T any_tree)).
    { change any_loop with (build any_tree). apply build_follows; [repeat constructor|]. split; [exact sym_grows|exact I]. }
    assert (OF := loop_front_ok true b2 O2). assert (OB := loop_back_ok true _ OF). unfold loop_back, loop_front in OB, OF.
    set (f := nfa_concat [any_loop; b2]) in *. set (N := nfa_concat [f; any_loop]) in *.
    assert (HF : follows acheck T f (cat_ways [tways acheck T any_tree; tways acheck T t])).
    { apply concat_follows; two; auto; try apply any_loop_ok; try apply O2; apply tways_inr. }
    assert (HN : follows acheck T N (cat_ways [cat_ways [tways acheck T any_tree; tways acheck T t]; tways acheck T any_tree])).
    { apply concat_follows; two; auto; try apply any_loop_ok; try apply OF; try apply tways_inr.
      apply inr_cat. two; apply tways_inr. }
    intros E Hne.
    assert (HK : keeps acheck N n).
    { eapply (finalize_keeps acheck atom_eqb atom_ok); [apply reading_acheck| |exact OB| |exact E|exact Hne].
      - assert (GA : Forall (lab atom_ok (fun _ => True)) any_loop) by (apply (build_labels _ _ any_tree); [exact I|]; cbn; constructor).
        assert (G0 : Forall (lab atom_ok (fun _ => True)) b2).
        { apply (build_labels _ _ t I) in Hat. apply lab_iff in Hat as [L1 L2]. assert (TT : thin b2 b) by (eapply thin_trans; eauto). apply lab_iff. split.
          - eapply thin_syms; eauto.
          - eapply thin_marks; eauto. }
        assert (GN : Forall (lab atom_ok (fun _ => True)) N) by (apply lab_concat; [exact I|]; constructor; [apply lab_concat; [exact I|]; constructor; [exact GA|constructor; [exact G0|constructor]]|constructor; [exact GA|constructor]]).
        apply lab_iff in GN as [GN _]. intros s u a Ha. eauto.
      - unfold N. rewrite nfa_concat_length; [lia|]. two; [apply OF|apply any_loop_ok]. }
    apply HK; [apply K0_det|lia|]. rewrite <- best_fs by apply tways_inr. apply HN; [lia|]. intros j u Hin. reflexivity.
  Qed.

  (** ** The preferred word and the preferred match *)
  Variable has : atom -> N -> bool.
  Hypothesis Hhas : forall a c, has a c = true <-> atom_has a c.
  Definition picks (m : option (nat * nat * log)) (W : option word) (e : ere) : Prop :=
    match m, W with
    | None, None => True
    | Some (i, j, L), Some W => exists u, W = map IC (firstn i T) ++ u ++ map IC (skipn j T) /\
        tlang acheck (tree_of e) u /\ reads T i u j /\ blog i u j L
    | _, _ => False
    end.
  Lemma whole_aligned e i : i <= length T ->
    Forall2 (same i) (map (fun p => (fst p, snd p ++ [(0, (i, fst p))])) (w_alts has T e 1 i)) (tways acheck T (tree_of e) i).
  Proof using HT Hhas.
    intros Hi. rewrite tree_of_eq. change (tways acheck T (TCapture ?t ?k) i) with (map (fun p => (fst p, IM (ESC k) :: snd p ++ [IM (EEC k)])) (tways acheck T t i)).
    assert (IH := proj2 (proj2 (proj2 (ways_aligned T HT has Hhas))) e 1 i Hi).
    assert (HF : forall q, In q (tways acheck T (TUnion (ere_trees e 1)) i) -> fresh 0 (snd q)).
    { intros [j u] Hin. apply tways_sound in Hin as [Hin _]; [|assumption]. eapply ere_fresh; eauto. }
    induction IH as [|[j L] [j' u] l l' [E Hb] H IHl]; [constructor|]. cbn in E, Hb. subst j'. cbn [map]. constructor.
    - split; [reflexivity|]. cbn. constructor; [assumption|]. apply (HF (j, u)). now left.
    - apply IHl. intros q Hq. apply HF. now right.
  Qed.
  Lemma best_picks e : picks (hd_error (all_matches has T e)) (best (tways acheck T (tree_of e))) e.
  Proof using HT Hhas.
    unfold best, all_matches. assert (HS : forall i, In i (seq 0 (S (length T))) -> i <= length T) by (intros i Hi; apply in_seq in Hi; lia).
    revert HS. generalize (seq 0 (S (length T))) as l. induction l as [|i l IH]; intros HS; [exact I|].
    cbn [flat_map firsts fold_right]. assert (Hi : i <= length T) by (apply HS; now left).
    assert (HA := whole_aligned e i Hi). assert (HW := fun j u => tways_sound T (tree_of e) i j u Hi).
    assert (IH' := IH (fun x Hx => HS x (or_intror Hx))). clear IH.
    replace (map (fun p => (i, fst p, snd p ++ [(0, (i, fst p))])) (w_alts has T e 1 i))
      with (map (fun p : nat * log => (i, fst p, snd p)) (map (fun p => (fst p, snd p ++ [(0, (i, fst p))])) (w_alts has T e 1 i)))
      by (rewrite map_map; reflexivity).
    destruct HA as [|[j L] [j' u] l1 l2 [E Hb] _].
    - cbn. exact IH'.
    - cbn in E, Hb. subst j'. cbn. exists u. destruct (HW j u) as [H1 H2]; [now left|]. split; [reflexivity|]. auto.
  Qed.
End Pad.
