(** Anchor cleaning and removal of symbols that can only be read before [^] or after [$] keep all valid
    words; the invariants of [PThompson] survive removal of edges. *)
From Verif Require Export PSearch.
From Coq Require Import ZifyBool ZifyNat Relation_Operators Operators_Properties.
Open Scope nat_scope.
Open Scope list_scope.
Set Default Proof Using "Type".

Lemma nth_combine_seq {A} (l : list A) k i d : i < length l -> nth i (combine (seq k (length l)) l) (0, d) = (k + i, nth i l d).
Proof.
  revert k i; induction l as [|x l IH]; intros k i H; cbn in *; [lia|].
  destruct i as [|i]; [now rewrite Nat.add_0_r|]. rewrite IH by lia. now rewrite Nat.add_succ_r.
Qed.
Lemma enumerate_length {A} (l : list A) : length (enumerate l) = length l.
Proof. unfold enumerate. rewrite combine_length, seq_length. lia. Qed.
Lemma nth_enumerate {A} (l : list A) i d : i < length l -> nth i (enumerate l) (0, d) = (i, nth i l d).
Proof. intros H. unfold enumerate. now rewrite nth_combine_seq. Qed.
Lemma In_enumerate {A} (l : list A) i x : In (i, x) (enumerate l) <-> nth_error l i = Some x.
Proof.
  unfold enumerate. split.
  - intros H. apply (In_nth _ _ (0, x)) in H as (j & Hj & E). fold (enumerate l) in Hj. rewrite enumerate_length in Hj.
    rewrite nth_combine_seq in E by assumption. injection E as <- E. cbn.
    rewrite <- E. now apply nth_error_nth'.
  - intros H. assert (Hi : i < length l) by (apply nth_error_Some; congruence).
    assert (E := nth_combine_seq l 0 i x Hi). cbn in E. rewrite (nth_error_nth _ _ _ H) in E.
    rewrite <- E. apply nth_In. fold (enumerate l). now rewrite enumerate_length.
Qed.

Section Gen.
  Context {A : Type}.
  Implicit Types n : nfa A.

  Lemma get_enum_map n (f : nat -> state A -> state A) i : f i empty_state = empty_state ->
    get (map (fun '(i, s) => f i s) (enumerate n)) i = f i (get n i).
  Proof.
    intros Hf. destruct (Nat.lt_ge_cases i (length n)) as [Hi|Hi].
    - unfold get. set (F := fun p : nat * state A => let '(i, s) := p in f i s).
      rewrite (nth_indep _ _ (F (0, empty_state))) by now rewrite map_length, enumerate_length.
      rewrite map_nth, nth_enumerate by assumption. reflexivity.
    - rewrite !get_over; [now rewrite Hf|assumption|]. now rewrite map_length, enumerate_length.
  Qed.
  Lemma get_map n (f : state A -> state A) i : f empty_state = empty_state -> get (map f n) i = f (get n i).
  Proof. intros Hf. unfold get. rewrite <- Hf at 1. apply map_nth. Qed.

  Lemma fin_iff n : fin n <-> 1 <= length n /\ get n (length n - 1) = empty_state.
  Proof.
    split.
    - intros H. destruct (fin_last _ H). auto.
    - intros [H1 H2]. destruct n as [|s n] using rev_ind; [cbn in H1; lia|]. clear IHn.
      exists n. f_equal. f_equal. unfold get in H2. rewrite app_length in H2. cbn in H2.
      rewrite app_nth2 in H2 by lia. replace (length n + 1 - 1 - length n) with 0 in H2 by lia. exact H2.
  Qed.
  Lemma pure_iff n : Forall pure n <-> forall s, pure (get n s).
  Proof.
    split.
    - intros H s. destruct (Nat.lt_ge_cases s (length n)) as [Hi|Hi].
      + rewrite Forall_forall in H. apply H. now apply get_In.
      + rewrite get_over by assumption. now left.
    - intros H. apply Forall_forall. intros s Hs. apply (In_nth _ _ empty_state) in Hs as (i & Hi & <-). apply H.
  Qed.

  (** [n'] has a subset of the edges of [n]. *)
  Definition thin (n' n : nfa A) : Prop :=
    length n' = length n /\
    forall s, incl (trans (get n' s)) (trans (get n s)) /\ incl (eps (get n' s)) (eps (get n s)).
  Lemma thin_refl n : thin n n.
  Proof. split; [reflexivity|]. intros s; split; apply incl_refl. Qed.
  Lemma thin_trans a b c : thin a b -> thin b c -> thin a c.
  Proof.
    intros [H1 H2] [H3 H4]. split; [congruence|]. intros s. destruct (H2 s), (H4 s).
    split; eapply incl_tran; eauto.
  Qed.
  Lemma incl_nil {B} (l : list B) : incl l [] -> l = [].
  Proof. destruct l as [|x l]; [reflexivity|]. intros H. destruct (H x (or_introl eq_refl)). Qed.
  Lemma thin_ok n' n : thin n' n -> ok n -> ok n'.
  Proof.
    intros [HL HE] [Hf Hw Hp Ha]. split.
    - apply fin_iff in Hf as [Hf1 Hf2]. apply fin_iff. rewrite HL. split; [assumption|].
      destruct (HE (length n - 1)) as [H1 H2]. rewrite Hf2 in H1, H2. apply incl_nil in H1, H2.
      destruct (get n' (length n - 1)); cbn in *. subst; reflexivity.
    - apply wf_intro; intros s t x Hx; rewrite HL; apply (HE s) in Hx; [eapply wf_eps|eapply wf_trans]; eauto.
    - apply pure_iff. intros s. rewrite pure_iff in Hp. destruct (HE s) as [H1 H2].
      destruct (Hp s) as [E|E]; rewrite E in *; [left|right]; now apply incl_nil.
    - destruct Ha as [h Hh]. exists h. intros q t Ht. apply Hh. now apply (HE q).
  Qed.
  Section Check.
    Variable check : A -> N -> bool.
    Lemma thin_path n' n s w t : thin n' n -> path check n' s w t -> path check n s w t.
    Proof.
      intros [_ HE] Hp. induction Hp as [s|s t e w u He Hp IH|s t a c w u He Hc Hp IH].
      - apply p_nil.
      - eapply p_eps; [apply (proj2 (HE s)); exact He|assumption].
      - eapply p_sym; [apply (proj1 (HE s)); exact He|exact Hc|assumption].
    Qed.
    Lemma thin_lang n' n w : thin n' n -> lang check n' w -> lang check n w.
    Proof. intros H. unfold lang. rewrite (proj1 H). eapply thin_path; eauto. Qed.
  End Check.

  (** ** Paths and reachability *)
  Lemma succ_eps_In n p s t : In t (succ_eps n p s) <-> exists e, In (t, e) (eps (get n s)) /\ p e = true.
  Proof.
    unfold succ_eps. rewrite in_map_iff. split.
    - intros ([t' e] & <- & H). apply filter_In in H as [H1 H2]. eauto.
    - intros (e & H1 & H2). exists (t, e). split; [reflexivity|]. apply filter_In. auto.
  Qed.
  Lemma succ_trans_In n s t : In t (succ_trans n s) <-> exists a, In (t, a) (trans (get n s)).
  Proof.
    unfold succ_trans. rewrite in_map_iff. split.
    - intros ([t' a] & <- & H). eauto.
    - intros (a & H). exists (t, a). auto.
  Qed.
  Lemma In_get n i s : In (i, s) (enumerate n) <-> i < length n /\ s = get n i.
  Proof.
    rewrite In_enumerate. split.
    - intros H. assert (Hi : i < length n) by (apply nth_error_Some; congruence). split; [assumption|].
      symmetry. unfold get. now apply nth_error_nth.
    - intros [Hi ->]. now apply nth_error_nth'.
  Qed.
  Lemma pred_eps_In n p s t : In s (pred_eps n p t) <-> In t (succ_eps n p s).
  Proof.
    rewrite succ_eps_In. unfold pred_eps. rewrite in_flat_map. split.
    - intros ([i st] & Hi & H). apply In_get in Hi as [Hi ->].
      apply in_map_iff in H as ([t' e] & <- & H). apply filter_In in H as [H1 H2]. cbn in H2.
      apply andb_true_iff in H2 as [H2 H3]. apply Nat.eqb_eq in H2 as ->. eauto.
    - intros (e & H1 & H2). assert (Hs := eps_range _ _ _ H1).
      exists (s, get n s). split; [now apply In_get|]. apply in_map_iff. exists (t, e). split; [reflexivity|].
      apply filter_In. split; [assumption|]. cbn. rewrite Nat.eqb_refl. assumption.
  Qed.
  Lemma pred_all_In n p s t : In s (pred_all n p t) <-> In t (succ_eps n p s ++ succ_trans n s).
  Proof.
    rewrite in_app_iff, <- pred_eps_In, succ_trans_In. unfold pred_all, pred_eps. rewrite !in_flat_map. split.
    - intros ([i st] & Hi & H). apply in_app_or in H as [H|H].
      + left. eauto.
      + right. apply In_get in Hi as [Hi ->]. apply in_map_iff in H as ([t' a] & <- & H).
        apply filter_In in H as [H1 H2]. cbn in H2. apply Nat.eqb_eq in H2 as ->. eauto.
    - intros [([i st] & Hi & H)|(a & H)].
      + exists (i, st). split; [assumption|]. apply in_or_app. auto.
      + assert (Hs := trans_range _ _ _ H). exists (s, get n s). split; [now apply In_get|].
        apply in_or_app. right. apply in_map_iff. exists (t, a). split; [reflexivity|].
        apply filter_In. split; [assumption|]. cbn. apply Nat.eqb_refl.
  Qed.
  Lemma star_rev succ pred : (forall x y, In y (succ x) <-> In x (pred y)) ->
    forall x y, star succ x y <-> star pred y x.
  Proof.
    intros H x y. unfold star. rewrite <- !clos_rt_rt1n_iff. split.
    - induction 1; [apply rt_step, H; assumption|apply rt_refl|eapply rt_trans; eauto].
    - induction 1; [apply rt_step, H; assumption|apply rt_refl|eapply rt_trans; eauto].
  Qed.
  Lemma star_snoc succ x y z : star succ x y -> In z (succ y) -> star succ x z.
  Proof.
    intros H Hz. unfold star in *. rewrite <- clos_rt_rt1n_iff in *. eapply rt_trans; [exact H|]. now apply rt_step.
  Qed.
  Lemma star_app succ x y z : star succ x y -> star succ y z -> star succ x z.
  Proof. unfold star. rewrite <- !clos_rt_rt1n_iff. apply rt_trans. Qed.
End Gen.
Arguments thin {A}.

Section Clean.
  Context {A : Type}.
  Variable check : A -> N -> bool.
  Implicit Types n : nfa A.

  Definition marks_ok (p : epsk -> bool) (w : word) : Prop := forall e, In (IM e) w -> p e = true.
  Lemma path_star n p s w t : p ENone = true -> marks_ok p w -> path check n s w t ->
    star (fun s => succ_eps n p s ++ succ_trans n s) s t.
  Proof.
    intros Hn Hm Hp. induction Hp as [s|s t e w u He Hp IH|s t a c w u He Hc Hp IH].
    - constructor.
    - econstructor; [|apply IH; intros x Hx; apply Hm, in_or_app; now right].
      apply in_or_app. left. apply succ_eps_In. exists e. split; [assumption|].
      destruct e; [exact Hn|apply Hm; now left..].
    - econstructor; [|apply IH; intros x Hx; apply Hm; now right].
      apply in_or_app. right. apply succ_trans_In. eauto.
  Qed.
  Lemma path_eps_star n s w t : chars w = [] -> path check n s w t -> star (succ_eps n any_eps) s t.
  Proof.
    intros Hw Hp. induction Hp as [s|s t e w u He Hp IH|s t a c w u He Hc Hp IH].
    - constructor.
    - rewrite chars_app, chars_mark in Hw. econstructor; [|apply IH; assumption].
      apply succ_eps_In. eauto.
    - discriminate.
  Qed.

  Lemma succ_eps_lt n p x y : wf n -> edge (succ_eps n p) x y -> y < length n.
  Proof. intros Hw H. apply succ_eps_In in H as (e & H & _). eapply wf_eps; eauto. Qed.
  Lemma pred_eps_lt n p x y : edge (pred_eps n p) x y -> y < length n.
  Proof. intros H. apply pred_eps_In, succ_eps_In in H as (e & H & _). eapply eps_range; eauto. Qed.
  Lemma succ_all_lt n p x y : wf n -> edge (fun s => succ_eps n p s ++ succ_trans n s) x y -> y < length n.
  Proof.
    intros Hw H. apply in_app_or in H as [H|H]; [eapply succ_eps_lt; eauto|].
    apply succ_trans_In in H as (a & H). eapply wf_trans; eauto.
  Qed.
  Lemma pred_all_lt n p x y : edge (pred_all n p) x y -> y < length n.
  Proof.
    intros H. apply pred_all_In in H. apply in_app_or in H as [H|H].
    - apply succ_eps_In in H as (e & H & _). eapply eps_range; eauto.
    - apply succ_trans_In in H as (e & H). eapply trans_range; eauto.
  Qed.

  (** ** [^] *)
  Lemma clean_start_spec n : wf n -> 1 <= length n ->
    exists n', clean_start_anchors n = Ok n' /\ thin n' n /\
      forall w, valid w -> lang check n w -> lang check n' w.
  Proof.
    intros Hw Hl. unfold clean_start_anchors.
    destruct (reach_from_spec (succ_eps n any_eps) (length n) 0) as (r & -> & Hrl & Hr).
    { lia. } { intros x y. now apply succ_eps_lt. }
    cbn [bind]. eexists. split; [reflexivity|]. set (n' := map _ _).
    assert (HG : forall i, get n' i = mkState (trans (get n i)) (filter (fun e => not_start (snd e) || nth i r false) (eps (get n i)))).
    { intros i. unfold n'.
      apply (get_enum_map n (fun i s => mkState (trans s) (filter (fun e => not_start (snd e) || nth i r false) (eps s)))).
      reflexivity. }
    assert (HL : length n' = length n) by (unfold n'; now rewrite map_length, enumerate_length).
    split.
    - split; [assumption|]. intros s. rewrite HG. cbn. split; [apply incl_refl|apply incl_filter].
    - intros w Hv Hp. unfold lang in *. rewrite HL.
      assert (G : forall s w t, path check n s w t -> forall u, valid (u ++ w) -> (chars u = [] -> star (succ_eps n any_eps) 0 s) -> path check n' s w t).
      { clear w Hv Hp. intros s w t Hp. induction Hp as [s|s t e w z He Hp IH|s t a c w z He Hc Hp IH]; intros u Hv Hu.
        - apply p_nil.
        - eapply p_eps.
          + rewrite HG. cbn. apply filter_In. split; [exact He|]. cbn.
            destruct e; try reflexivity. cbn. apply Hr, Hu.
            destruct Hv as [Hv _]. apply (Hv u w). reflexivity.
          + apply (IH (u ++ mark e)); [now rewrite <- app_assoc|].
            rewrite chars_app, chars_mark, app_nil_r. intros Hc. eapply star_snoc; [now apply Hu|].
            apply succ_eps_In. eauto.
        - eapply p_sym; [rewrite HG; exact He|exact Hc|].
          apply (IH (u ++ [IC c])); [now rewrite <- app_assoc|]. rewrite chars_app. cbn. intros E.
          apply app_eq_nil in E as [_ E]. discriminate. }
      apply (G _ _ _ Hp []); [assumption|]. intros _. constructor.
  Qed.

  (** ** [$] *)
  Lemma clean_end_spec n : wf n -> 1 <= length n ->
    exists n', clean_end_anchors n = Ok n' /\ thin n' n /\
      forall w, valid w -> lang check n w -> lang check n' w.
  Proof.
    intros Hw Hl. unfold clean_end_anchors.
    destruct (reach_from_spec (pred_eps n any_eps) (length n) (length n - 1)) as (r & -> & Hrl & Hr).
    { lia. } { intros x y. apply pred_eps_lt. }
    cbn [bind]. eexists. split; [reflexivity|]. set (n' := map _ _).
    assert (HG : forall i, get n' i = mkState (trans (get n i)) (filter (fun e => not_end (snd e) || nth (fst e) r false) (eps (get n i)))).
    { intros i. unfold n'.
      apply (get_map n (fun s => mkState (trans s) (filter (fun e => not_end (snd e) || nth (fst e) r false) (eps s)))).
      reflexivity. }
    assert (HL : length n' = length n) by (unfold n'; now rewrite map_length).
    split.
    - split; [assumption|]. intros s. rewrite HG. cbn. split; [apply incl_refl|apply incl_filter].
    - intros w Hv Hp. unfold lang in *. rewrite HL.
      assert (G : forall s w t, path check n s w t -> t = length n - 1 -> valid w -> path check n' s w t);
        [clear w Hv Hp|now apply G]. intros s w t Hp.
      induction Hp as [s|s t e w u He Hp IH|s t a c w u He Hc Hp IH]; intros Ez Hv.
      + apply p_nil.
      + eapply p_eps; [|apply IH; auto; eapply valid_app_r; eauto].
        rewrite HG. cbn. apply filter_In. split; [exact He|]. cbn.
        destruct e; try reflexivity. cbn. apply Hr.
        rewrite <- (star_rev (succ_eps n any_eps)) by (intros; symmetry; apply pred_eps_In).
        subst u. eapply path_eps_star; [|exact Hp]. destruct Hv as [_ Hv]. now apply (Hv [] w).
      + eapply p_sym; [rewrite HG; exact He|exact Hc|]. apply IH; auto.
        now apply (valid_app_r [IC c]).
  Qed.

  (** ** Symbols before [^] or after [$] *)
  Lemma valid_mark_before u c w e : valid (u ++ IC c :: w) -> In (IM e) u -> e <> EEnd.
  Proof.
    intros [_ Hv] Hi ->. apply in_split in Hi as (u1 & u2 & ->).
    assert (E : chars (u2 ++ IC c :: w) = []) by (apply (Hv u1); now rewrite <- app_assoc).
    rewrite chars_app in E. cbn in E. apply app_eq_nil in E as [_ E]. discriminate.
  Qed.
  Lemma valid_mark_after u c w e : valid (u ++ IC c :: w) -> In (IM e) w -> e <> EStart.
  Proof.
    intros [Hv _] Hi ->. apply in_split in Hi as (w1 & w2 & ->).
    assert (E : chars (u ++ IC c :: w1) = []) by (apply (Hv _ w2); now rewrite <- app_assoc).
    rewrite chars_app in E. cbn in E. apply app_eq_nil in E as [_ E]. discriminate.
  Qed.
  Lemma zero_spec n : wf n -> 1 <= length n ->
    exists n', zero_symbols n = Ok n' /\ thin n' n /\
      forall w, valid w -> lang check n w -> lang check n' w.
  Proof.
    intros Hw Hl. unfold zero_symbols, nodes_after_end, nodes_before_start.
    destruct (reach_from_spec (fun s => succ_eps n not_end s ++ succ_trans n s) (length n) 0) as (a & -> & Hal & Ha).
    { lia. } { intros x y. now apply succ_all_lt. }
    destruct (reach_from_spec (pred_all n not_start) (length n) (length n - 1)) as (b & -> & Hbl & Hb).
    { lia. } { intros x y. apply pred_all_lt. }
    cbn [bind]. eexists. split; [reflexivity|]. set (n' := map _ _).
    assert (HN : forall (r : list bool) i, i < length r -> nth i (map negb r) false = negb (nth i r false)).
    { intros r i Hi. rewrite (nth_indep _ _ (negb false)) by now rewrite map_length. apply map_nth. }
    assert (HG : forall i, get n' i =
      if nth i (map negb a) false || nth i (map negb b) false then mkState [] (eps (get n i)) else get n i).
    { intros i. unfold n'.
      apply (get_enum_map n (fun i s => if nth i (map negb a) false || nth i (map negb b) false then mkState [] (eps s) else s)).
      destruct (_ || _); reflexivity. }
    assert (HL : length n' = length n) by (unfold n'; now rewrite map_length, enumerate_length).
    split.
    - split; [assumption|]. intros s. rewrite HG. destruct (_ || _); cbn; split; try apply incl_refl. apply incl_nil_l.
    - intros w Hv Hp. unfold lang in *. rewrite HL.
      assert (G : forall s w t, path check n s w t -> t = length n - 1 -> forall u, valid (u ++ w) ->
        path check n 0 u s -> path check n' s w t).
      { clear w Hv Hp. intros s w t Hp. induction Hp as [s|s t e w z He Hp IH|s t x c w z He Hc Hp IH]; intros Ht u Hv Hu.
        - apply p_nil.
        - eapply p_eps.
          + rewrite HG. destruct (_ || _); exact He.
          + apply (IH Ht (u ++ mark e)); [now rewrite <- app_assoc|]. eapply path_app; [exact Hu|]. now apply path_eps1.
        - assert (Hs := trans_range _ _ _ He).
          assert (E1 : nth s (map negb a) false = false).
          { rewrite HN by lia. apply negb_false_iff. apply Ha. eapply path_star; [reflexivity| |exact Hu].
            intros e Hi. assert (He' := valid_mark_before _ _ _ _ Hv Hi). destruct e; try reflexivity; congruence. }
          assert (E2 : nth s (map negb b) false = false).
          { rewrite HN by lia. apply negb_false_iff. apply Hb.
            rewrite <- (star_rev (fun s => succ_eps n not_start s ++ succ_trans n s)) by (intros; symmetry; apply pred_all_In).
            apply (path_star n not_start s (IC c :: w)); [reflexivity| |].
            - intros e [E|Hi]; [discriminate|]. assert (He' := valid_mark_after _ _ _ _ Hv Hi). destruct e; try reflexivity; congruence.
            - subst z. eapply p_sym; eauto. }
          eapply p_sym; [rewrite HG, E1, E2; exact He|exact Hc|].
          apply (IH Ht (u ++ [IC c])); [now rewrite <- app_assoc|]. eapply path_app; [exact Hu|]. eapply path_sym1; eauto. }
      apply (G _ _ _ Hp eq_refl []); [assumption|apply p_nil].
  Qed.
End Clean.
