(** The Thompson construction: the automaton built from a simplified tree has exactly the words of the
    tree, and satisfies the structural invariants used by the optimisation passes. *)
From Verif Require Export Words.
From Coq Require Import ZifyBool ZifyNat.
Open Scope nat_scope.
Open Scope list_scope.

Set Default Proof Using "Type".
Ltac inv H := inversion H; subst; clear H.

Section List_.
  Context {A : Type}.
  Lemma modify_last_app (f : A -> A) l m : m <> [] -> modify_last f (l ++ m) = l ++ modify_last f m.
  Proof.
    intros Hm. induction l as [|x l IH]; [reflexivity|]. cbn [app modify_last].
    destruct (l ++ m) eqn:E; [apply app_eq_nil in E; now destruct E|]. now rewrite <- IH.
  Qed.
  Lemma modify_last_length (f : A -> A) l : length (modify_last f l) = length l.
  Proof. induction l as [|x [|y l] IH]; cbn in *; congruence. Qed.
  Lemma modify_length (f : A -> A) i l : length (modify i f l) = length l.
  Proof. revert i; induction l as [|x l IH]; intros [|i]; cbn; congruence. Qed.
  Lemma upd_length (x : A) i l : length (upd i x l) = length l.
  Proof. revert i; induction l as [|y l IH]; intros [|i]; cbn; congruence. Qed.
  Lemma modify_app_r (f : A -> A) l m i : modify (length l + i) f (l ++ m) = l ++ modify i f m.
  Proof. induction l as [|x l IH]; cbn; [reflexivity|]. now rewrite IH. Qed.
  Lemma modify_app_l (f : A -> A) l m i : i < length l -> modify i f (l ++ m) = modify i f l ++ m.
  Proof.
    revert i; induction l as [|x l IH]; intros [|i] H; cbn in *; try lia; [reflexivity|].
    now rewrite IH by lia.
  Qed.
  Lemma modify_last_modify (f : A -> A) l : modify_last f l = modify (length l - 1) f l.
  Proof.
    induction l as [|x [|y l] IH]; [reflexivity|reflexivity|].
    cbn [modify_last] in *. rewrite IH. cbn. rewrite Nat.sub_0_r. reflexivity.
  Qed.
  Lemma nth_modify (f : A -> A) d i j l :
    nth j (modify i f l) d = if (j =? i) && (i <? length l) then f (nth j l d) else nth j l d.
  Proof.
    revert i j; induction l as [|x l IH]; intros i j.
    - destruct i, j; cbn; rewrite ?andb_false_r; reflexivity.
    - destruct i, j; cbn [modify nth length]; try reflexivity.
      rewrite IH. reflexivity.
  Qed.
  Lemma nth_upd (x d : A) i j l :
    nth j (upd i x l) d = if (j =? i) && (i <? length l) then x else nth j l d.
  Proof.
    revert i j; induction l as [|y l IH]; intros i j.
    - destruct i, j; cbn; rewrite ?andb_false_r; reflexivity.
    - destruct i, j; cbn [upd nth length]; try reflexivity. rewrite IH. reflexivity.
  Qed.
End List_.

Section Gen.
  Context {A : Type}.
  Variable check : A -> N -> bool.
  Notation nfa := (nfa A).
  Implicit Types n sub : nfa.

  (** ** Structural predicates *)
  Definition bounded (m : nat) (s : state A) : Prop :=
    Forall (fun t => fst t < m) (trans s) /\ Forall (fun e => fst e < m) (eps s).
  Definition wf n : Prop := Forall (bounded (length n)) n.
  Definition pure (s : state A) : Prop := trans s = [] \/ eps s = [].
  Definition fin n : Prop := exists n', n = n' ++ [empty_state].

  Lemma wfb_iff n : wfb n = true <-> wf n.
  Proof.
    unfold wfb, wf, bounded. rewrite forallb_forall, Forall_forall.
    split; intros H s Hs; specialize (H s Hs).
    - apply andb_true_iff in H as [H1 H2]. rewrite forallb_forall in H1, H2.
      split; apply Forall_forall; intros x Hx; [apply H1 in Hx|apply H2 in Hx]; now apply Nat.ltb_lt.
    - destruct H as [H1 H2]. rewrite Forall_forall in H1, H2.
      apply andb_true_iff; split; apply forallb_forall; intros x Hx; apply Nat.ltb_lt; auto.
  Qed.
  Lemma get_In n s : s < length n -> In (get n s) n.
  Proof. apply nth_In. Qed.
  Lemma get_over n s : length n <= s -> get n s = empty_state.
  Proof. apply nth_overflow. Qed.
  Lemma edge_range n s : trans (get n s) <> [] \/ eps (get n s) <> [] -> s < length n.
  Proof.
    intros H. destruct (Nat.lt_ge_cases s (length n)) as [|Hs]; auto.
    rewrite get_over in H by exact Hs. destruct H as [H|H]; now destruct H.
  Qed.
  Lemma eps_range n s x : In x (eps (get n s)) -> s < length n.
  Proof. intros H. apply edge_range. right. intros E; rewrite E in H; destruct H. Qed.
  Lemma trans_range n s x : In x (trans (get n s)) -> s < length n.
  Proof. intros H. apply edge_range. left. intros E; rewrite E in H; destruct H. Qed.
  Lemma wf_eps n s t e : wf n -> In (t, e) (eps (get n s)) -> t < length n.
  Proof.
    intros H He. assert (Hs := eps_range _ _ _ He). apply get_In in Hs.
    unfold wf in H. rewrite Forall_forall in H. apply H in Hs as [_ Hs].
    rewrite Forall_forall in Hs. now apply Hs in He.
  Qed.
  Lemma wf_trans n s t a : wf n -> In (t, a) (trans (get n s)) -> t < length n.
  Proof.
    intros H He. assert (Hs := trans_range _ _ _ He). apply get_In in Hs.
    unfold wf in H. rewrite Forall_forall in H. apply H in Hs as [Hs _].
    rewrite Forall_forall in Hs. now apply Hs in He.
  Qed.
  Lemma wf_intro n : (forall s t e, In (t, e) (eps (get n s)) -> t < length n) ->
    (forall s t a, In (t, a) (trans (get n s)) -> t < length n) -> wf n.
  Proof.
    intros H1 H2. apply Forall_forall. intros s Hs.
    apply (In_nth _ _ empty_state) in Hs as (i & Hi & E). split; apply Forall_forall; intros [t x] Hx; cbn.
    - apply (H2 i t x). unfold get. now rewrite E.
    - apply (H1 i t x). unfold get. now rewrite E.
  Qed.
  Lemma path_in n s w t : wf n -> s < length n -> path check n s w t -> t < length n.
  Proof.
    intros Hw Hs Hp. induction Hp as [s|s t e w u He Hp IH|s t a c w u He Hc Hp IH]; auto.
    - apply IH. eapply wf_eps; eauto.
    - apply IH. eapply wf_trans; eauto.
  Qed.
  Lemma fin_last n : fin n -> get n (length n - 1) = empty_state /\ 1 <= length n.
  Proof.
    intros [m ->]. rewrite app_length; cbn. split; [|lia]. unfold get.
    rewrite app_nth2 by lia. replace (length m + 1 - 1 - length m) with 0 by lia. reflexivity.
  Qed.
  Lemma path_last n w t : fin n -> path check n (length n - 1) w t -> w = [] /\ t = length n - 1.
  Proof.
    intros Hf Hp. apply fin_last in Hf as [Hf _]. inv Hp; auto; rewrite Hf in H; destruct H.
  Qed.

  Lemma bounded_mono m m' s : m <= m' -> bounded m s -> bounded m' s.
  Proof. intros H [H1 H2]. split; eapply Forall_impl; try eassumption; cbn; intros; lia. Qed.
  Lemma bounded_shift k m s : bounded m s -> bounded (k + m) (shift k s).
  Proof.
    intros [H1 H2]. split; cbn; rewrite Forall_map; cbn; eapply Forall_impl; try eassumption; cbn; intros; lia.
  Qed.
  Lemma bounded_push m x e s : x < m -> bounded m s -> bounded m (push_eps (x, e) s).
  Proof. intros Hx [H1 H2]. split; cbn; auto. apply Forall_app; split; auto. Qed.
  Lemma bounded_one m x e : x < m -> bounded m (mkState [] [(x, e)]).
  Proof. intros H. split; cbn; [constructor|]. constructor; [exact H|constructor]. Qed.
  Lemma bounded_empty m : bounded m empty_state.
  Proof. split; constructor. Qed.
  Lemma Forall_modify_last {B} (P : B -> Prop) f l : Forall P l -> (forall x, P x -> P (f x)) -> Forall P (modify_last f l).
  Proof.
    intros H Hf. induction H as [|x l Hx Hl IH]; [constructor|].
    destruct l as [|y l]; constructor; auto.
  Qed.

  (** ** Sub-automata inside an automaton *)
  (** Positions [k ..] of [N] hold [sub] shifted, with extra epsilons on its (empty) last state. *)
  Definition sub_at (N sub : nfa) (k : nat) (ex : list (nat * epsk)) : Prop :=
    forall q, q < length sub ->
      get N (k + q) = if q =? length sub - 1 then mkState [] ex else shift k (get sub q).
  Definition seg (k : nat) (sub : nfa) (x : nat * epsk) : nfa := modify_last (push_eps x) (map (shift k) sub).

  Lemma shift_empty k : shift k (@empty_state A) = empty_state.
  Proof. reflexivity. Qed.
  Lemma seg_length k sub x : length (seg k sub x) = length sub.
  Proof. unfold seg. now rewrite modify_last_length, map_length. Qed.
  Lemma get_map_shift k sub q : get (map (shift k) sub) q = shift k (get sub q).
  Proof. unfold get. change empty_state with (shift k (@empty_state A)) at 1. apply map_nth. Qed.
  Lemma get_seg k sub x q : fin sub -> q < length sub ->
    get (seg k sub x) q = if q =? length sub - 1 then mkState [] [x] else shift k (get sub q).
  Proof.
    intros Hf Hq. unfold seg, get. rewrite modify_last_modify, nth_modify, map_length.
    fold (get (map (shift k) sub) q). rewrite get_map_shift.
    destruct (Nat.eqb_spec q (length sub - 1)) as [->|H].
    - assert (E : length sub - 1 <? length sub = true) by lia. rewrite E. cbn [andb].
      apply fin_last in Hf as [-> _]. reflexivity.
    - reflexivity.
  Qed.
  Lemma sub_at_seg pre post k sub x : fin sub -> k = length pre ->
    sub_at (pre ++ seg k sub x ++ post) sub k [x].
  Proof.
    intros Hf -> q Hq. unfold get. rewrite app_nth2 by lia.
    replace (length pre + q - length pre) with q by lia.
    rewrite app_nth1 by now rewrite seg_length. now apply get_seg.
  Qed.

  Lemma sub_in N sub k ex s w t : fin sub -> wf sub -> sub_at N sub k ex -> s < length sub ->
    path check sub s w t -> path check N (k + s) w (k + t).
  Proof.
    intros Hf Hw Hs Hr Hp. induction Hp as [s|s t e w u He Hp IH|s t a c w u He Hc Hp IH].
    - apply p_nil.
    - assert (Hl : s <> length sub - 1).
      { intros ->. rewrite (proj1 (fin_last _ Hf)) in He. destruct He. }
      eapply p_eps; [|apply IH; eapply wf_eps; eauto].
      rewrite Hs by exact Hr. destruct (Nat.eqb_spec s (length sub - 1)); [lia|].
      cbn. apply in_map_iff. exists (t, e). cbn. split; [f_equal; lia|exact He].
    - assert (Hl : s <> length sub - 1).
      { intros ->. rewrite (proj1 (fin_last _ Hf)) in He. destruct He. }
      eapply p_sym; [|exact Hc|apply IH; eapply wf_trans; eauto].
      rewrite Hs by exact Hr. destruct (Nat.eqb_spec s (length sub - 1)); [lia|].
      cbn. apply in_map_iff. exists (t, a). cbn. split; [f_equal; lia|exact He].
  Qed.
  (** A path that leaves the region does so through the last state. *)
  Lemma sub_out N sub k ex s w t : fin sub -> wf sub -> sub_at N sub k ex -> s < length sub ->
    (t < k \/ k + length sub <= t) ->
    path check N (k + s) w t ->
    exists w1 w2 x e, In (x, e) ex /\ w = w1 ++ mark e ++ w2 /\
      path check sub s w1 (length sub - 1) /\ path check N x w2 t.
  Proof.
    intros Hf Hw Hs Hr Ht Hp. remember (k + s) as s0 eqn:E0. revert s Hr E0.
    induction Hp as [s0|s0 t e w u He Hp IH|s0 t a c w u He Hc Hp IH]; intros s Hr ->.
    - lia.
    - rewrite Hs in He by exact Hr. destruct (Nat.eqb_spec s (length sub - 1)) as [Es|Hl].
      + cbn in He. exists [], w, t, e. repeat split; auto. rewrite Es. apply p_nil.
      + cbn in He. apply in_map_iff in He as ([t' e'] & E & He). inv E. cbn in *.
        destruct (IH Ht t') as (w1 & w2 & x & e' & Hx & -> & H1 & H2); [eapply wf_eps; eauto|lia|].
        exists (mark e ++ w1), w2, x, e'. rewrite app_assoc. repeat split; auto. eapply p_eps; eauto.
    - rewrite Hs in He by exact Hr. destruct (Nat.eqb_spec s (length sub - 1)) as [Es|Hl].
      + destruct He.
      + cbn in He. apply in_map_iff in He as ([t' a'] & E & He). inv E. cbn in *.
        destruct (IH Ht t') as (w1 & w2 & x & e' & Hx & -> & H1 & H2); [eapply wf_trans; eauto|lia|].
        exists (IC c :: w1), w2, x, e'. repeat split; auto. eapply p_sym; eauto.
  Qed.
  (** One segment with one exit. *)
  Lemma seg_iff N sub k x e w t : fin sub -> wf sub -> sub_at N sub k [(x, e)] ->
    (t < k \/ k + length sub <= t) ->
    path check N k w t <-> exists w1 w2, w = w1 ++ mark e ++ w2 /\ lang check sub w1 /\ path check N x w2 t.
  Proof.
    intros Hf Hw Hs Ht. destruct (fin_last _ Hf) as [_ Hl]. split.
    - intros Hp. rewrite <- (Nat.add_0_r k) in Hp.
      eapply sub_out in Hp; eauto.
      destruct Hp as (w1 & w2 & x' & e' & [E|[]] & -> & H1 & H2). inv E.
      exists w1, w2. auto.
    - intros (w1 & w2 & -> & H1 & H2).
      apply (path_app _ _ _ _ (k + (length sub - 1))).
      { rewrite <- (Nat.add_0_r k) at 1. eapply sub_in; eauto. }
      eapply p_eps; [|exact H2]. rewrite Hs by lia. rewrite Nat.eqb_refl. now left.
  Qed.

  (** ** Ranks: no cycle of unmarked epsilons *)
  (** The states [l], standing at positions [k ..], have unmarked epsilons only to positions from [k] on
      and only down the rank [h]. *)
  Definition ranked_at (k : nat) (h : nat -> nat) (l : list (state A)) : Prop :=
    forall q t, In (t, ENone) (eps (nth q l empty_state)) -> k <= t /\ h t < h (k + q).
  Definition acyclic n : Prop := exists h, ranked_at 0 h n.

  Lemma ranked_app k h l m : ranked_at k h l -> ranked_at (k + length l) h m -> ranked_at k h (l ++ m).
  Proof.
    intros H1 H2 q t Ht. destruct (Nat.lt_ge_cases q (length l)).
    - rewrite app_nth1 in Ht by assumption. auto.
    - rewrite app_nth2 in Ht by assumption. apply H2 in Ht as [Hk Ht].
      replace (k + length l + (q - length l)) with (k + q) in Ht by lia. split; [lia|exact Ht].
  Qed.
  Lemma ranked_cons k h s l : (forall t, In (t, ENone) (eps s) -> k <= t /\ h t < h k) -> ranked_at (S k) h l -> ranked_at k h (s :: l).
  Proof.
    intros H1 H2 [|q] t Ht; cbn in Ht.
    - rewrite Nat.add_0_r. auto.
    - apply H2 in Ht as [Hk Ht]. rewrite Nat.add_succ_r. split; [lia|exact Ht].
  Qed.
  Lemma ranked_nil k h : ranked_at k h [].
  Proof. intros [|q] t H; destruct H. Qed.
  Lemma ranked_one k h : ranked_at k h [empty_state].
  Proof. intros [|[|q]] t H; destruct H. Qed.
  Lemma ranked_seg k h sub x e : fin sub -> ranked_at 0 (fun q => h (k + q)) sub ->
    (e = ENone -> k <= x /\ h x < h (k + (length sub - 1))) -> ranked_at k h (seg k sub (x, e)).
  Proof.
    intros Hf H Hx q t Ht.
    destruct (Nat.lt_ge_cases q (length sub)) as [Hq|Hq].
    2:{ rewrite nth_overflow in Ht by (rewrite seg_length; lia). destruct Ht. }
    change (nth q (seg k sub (x, e)) empty_state) with (get (seg k sub (x, e)) q) in Ht.
    rewrite get_seg in Ht by assumption. destruct (Nat.eqb_spec q (length sub - 1)) as [->|Hl].
    - cbn in Ht. destruct Ht as [E|[]]. inv E. auto.
    - cbn in Ht. apply in_map_iff in Ht as ([t' e'] & E & He). inv E. cbn. apply H in He. cbn in He.
      rewrite (Nat.add_comm t' k). split; [lia|easy].
  Qed.
  Lemma ranked_ext k h h' l : (forall x, k <= x -> h' x = h x) -> ranked_at k h l -> ranked_at k h' l.
  Proof. intros E H q t Ht. apply H in Ht as [Hk Ht]. rewrite !E by lia. auto. Qed.
  Lemma ranked_ext_lt h h' n : wf n -> (forall x, x < length n -> h' x = h x) -> ranked_at 0 h n -> ranked_at 0 h' n.
  Proof.
    intros Hw E H q t Ht. assert (Hq := eps_range n _ _ Ht). assert (Ht' := wf_eps n _ _ _ Hw Ht).
    apply H in Ht as [Hk Ht]. cbn in *. rewrite !E by lia. auto.
  Qed.
  (** Put a ranked automaton before something ranked. *)
  Definition rank_before (k : nat) (n : nfa) (g h : nat -> nat) (x : nat) : nat :=
    if x <? k + length n then S (g (x - k) + h (k + length n)) else h x.
  Lemma ranked_before k n g h l : fin n -> wf n -> ranked_at 0 g n -> ranked_at (k + length n) h l ->
    ranked_at k (rank_before k n g h) (seg k n (k + length n, ENone) ++ l).
  Proof.
    intros Hf Hw Hg Hl. destruct (fin_last _ Hf) as [_ H1]. apply ranked_app.
    - apply ranked_seg; [assumption| |].
      + apply (ranked_ext_lt (fun q => S (g q + h (k + length n)))); [assumption| |].
        * intros x Hx. unfold rank_before. replace (k + x - k) with x by lia.
          destruct (Nat.ltb_spec (k + x) (k + length n)); [reflexivity|lia].
        * intros q t Ht. apply Hg in Ht as [Hk Ht]. split; [lia|]. cbn in *. lia.
      + intros _. split; [lia|]. unfold rank_before. rewrite Nat.ltb_irrefl.
        destruct (Nat.ltb_spec (k + (length n - 1)) (k + length n)); lia.
    - rewrite seg_length. eapply ranked_ext; [|exact Hl].
      intros x Hx. unfold rank_before. destruct (Nat.ltb_spec x (k + length n)); [lia|reflexivity].
  Qed.

  (** ** Concatenation *)
  Fixpoint cl (k : nat) (ns : list nfa) : nfa :=
    match ns with
    | [] => []
    | n :: ns => seg k n (k + length n, ENone) ++ cl (k + length n) ns
    end.
  Lemma sumlen_cons n ns : sumlen (n :: ns) = length n + sumlen ns.
  Proof. reflexivity. Qed.
  Lemma cl_length k ns : length (cl k ns) = sumlen ns.
  Proof. revert k; induction ns as [|n ns IH]; intros k; cbn; [reflexivity|]. now rewrite app_length, seg_length, IH. Qed.
  Lemma seg_app st k n x : n <> [] -> modify_last (push_eps x) (st ++ map (shift k) n) = st ++ seg k n x.
  Proof. intros Hn. apply modify_last_app. destruct n; [congruence|discriminate]. Qed.
  Lemma fin_nonempty n : fin n -> n <> [].
  Proof. intros [m ->]. now destruct m. Qed.
  Lemma concat_layout ns st : Forall fin ns ->
    fold_left (fun states n =>
                 let states := states ++ map (shift (length states)) n in
                 modify_last (push_eps (length states, ENone)) states) ns st = st ++ cl (length st) ns.
  Proof.
    revert st; induction ns as [|n ns IH]; intros st HF; cbn [fold_left cl].
    - now rewrite app_nil_r.
    - inv HF. cbv zeta. rewrite seg_app by now apply fin_nonempty.
      rewrite IH by assumption.
      rewrite !app_length, seg_length, map_length, app_assoc. reflexivity.
  Qed.
  Lemma nfa_concat_eq ns : Forall fin ns -> nfa_concat ns = [mkState [] [(1, ENone)]] ++ cl 1 ns ++ [empty_state].
  Proof. intros H. unfold nfa_concat. rewrite concat_layout by assumption. now rewrite <- app_assoc. Qed.
  Lemma nfa_concat_length ns : Forall fin ns -> length (nfa_concat ns) = 2 + sumlen ns.
  Proof. intros H. rewrite nfa_concat_eq by assumption. rewrite !app_length, cl_length. cbn. lia. Qed.

  Lemma cl_path ns : Forall fin ns -> Forall wf ns -> forall pre w,
    let N := pre ++ cl (length pre) ns ++ [empty_state] in
    path check N (length pre) w (length N - 1) <-> catL (map (lang check) ns) w.
  Proof.
    induction ns as [|n ns IH]; intros Hf Hw pre w; cbv zeta.
    - cbn. split.
      + intros Hp. replace (length pre) with (length (pre ++ [@empty_state A]) - 1) in Hp at 1
          by (rewrite app_length; cbn; lia).
        apply path_last in Hp as [-> _]; [constructor|]. now exists pre.
      + intros H. inv H. rewrite app_length; cbn. replace (length pre + 1 - 1) with (length pre) by lia. apply p_nil.
    - inv Hf. inv Hw. cbn [cl map].
      set (x := (length pre + length n, ENone)).
      set (N := pre ++ (seg (length pre) n x ++ cl (length pre + length n) ns) ++ [empty_state]).
      assert (EN : N = (pre ++ seg (length pre) n x) ++ cl (length (pre ++ seg (length pre) n x)) ns ++ [empty_state]).
      { unfold N. rewrite app_length, seg_length. now rewrite <- !app_assoc. }
      assert (HS : sub_at N n (length pre) [x]).
      { unfold N. rewrite <- app_assoc. now apply sub_at_seg. }
      assert (HL : length N = length pre + length n + sumlen ns + 1).
      { unfold N. rewrite !app_length, seg_length, cl_length. cbn. lia. }
      rewrite (seg_iff _ _ _ _ _ _ _ H1 H3 HS) by lia. cbn [mark app].
      assert (HR : forall v, path check N (length pre + length n) v (length N - 1) <-> catL (map (lang check) ns) v).
      { intros v. pose proof (IH H2 H4 (pre ++ seg (length pre) n x) v) as HI. cbv zeta in HI.
        rewrite <- EN, app_length, seg_length in HI. exact HI. }
      split.
      + intros (w1 & w2 & -> & Hl & Hp). apply HR in Hp. now constructor.
      + intros H. inversion H as [|L Ls u v Hu Hv E1 E2]; subst. exists u, v. repeat split; auto. now apply HR.
  Qed.
  Lemma concat_lang ns w : Forall fin ns -> Forall wf ns ->
    lang check (nfa_concat ns) w <-> catL (map (lang check) ns) w.
  Proof.
    intros Hf Hw. unfold lang at 1. rewrite nfa_concat_eq by assumption.
    pose proof (cl_path ns Hf Hw [mkState [] [(1, ENone)]] w) as HC. cbv zeta in HC. cbn [length] in HC.
    rewrite <- HC. clear HC. set (N := _ ++ _ ++ _). split.
    - intros Hp. inv Hp.
      + unfold N in H2. rewrite !app_length in H2. cbn in H2. lia.
      + cbn in H. destruct H as [E|[]]. inv E. exact H0.
      + destruct H.
    - intros Hp. change w with (mark ENone ++ w). eapply p_eps; [|exact Hp]. cbn. auto.
  Qed.

  Lemma bounded_seg k n x e m : wf n -> k + length n <= m -> x < m -> Forall (bounded m) (seg k n (x, e)).
  Proof.
    intros Hw Hm Hx. apply Forall_modify_last.
    - apply Forall_map. eapply Forall_impl; [|exact Hw]. cbn. intros s Hs.
      eapply bounded_mono; [|apply bounded_shift, Hs]. lia.
    - intros s Hs. now apply bounded_push.
  Qed.
  Lemma cl_bounded ns : Forall wf ns -> forall k m, k + sumlen ns < m -> Forall (bounded m) (cl k ns).
  Proof.
    induction 1 as [|n ns Hn Hns IH]; intros k m Hm; cbn [cl]; [constructor|].
    rewrite sumlen_cons in Hm.
    apply Forall_app; split; [apply bounded_seg; auto; lia|]. apply IH. lia.
  Qed.
  Lemma pure_shift k s : pure s -> pure (shift k s).
  Proof. intros [H|H]; [left|right]; cbn; now rewrite H. Qed.
  Lemma pure_seg k n x : fin n -> Forall pure n -> Forall pure (seg k n x).
  Proof.
    intros [m ->] Hp. unfold seg. rewrite map_app, modify_last_app by discriminate.
    apply Forall_app in Hp as [Hp _].
    apply Forall_app; split; [apply Forall_map; eapply Forall_impl; [|exact Hp]; apply pure_shift|].
    constructor; [now left|constructor].
  Qed.
  Lemma cl_pure ns k : Forall fin ns -> Forall (Forall pure) ns -> Forall pure (cl k ns).
  Proof.
    intros H1; revert k; induction H1 as [|n ns Hf Hfs IH]; intros k Hp; cbn; [constructor|].
    inv Hp. apply Forall_app; split; [now apply pure_seg|auto].
  Qed.
  Lemma cl_ranked ns : Forall fin ns -> Forall wf ns -> Forall acyclic ns -> forall k,
    exists h, ranked_at k h (cl k ns ++ [empty_state]).
  Proof.
    induction ns as [|n ns IH]; intros Hf Hw Ha k; cbn.
    - exists (fun _ => 0). apply ranked_one.
    - inv Hf. inv Hw. inv Ha. destruct (IH H2 H4 H6 (k + length n)) as [h Hh]. destruct H5 as [g Hg].
      exists (rank_before k n g h). rewrite <- app_assoc. now apply ranked_before.
  Qed.

  (** The invariants together. *)
  Record ok (n : nfa) : Prop := mkOk { ok_fin : fin n; ok_wf : wf n; ok_pure : Forall pure n; ok_acy : acyclic n }.
  Lemma ok_all ns : Forall ok ns -> Forall fin ns /\ Forall wf ns /\ Forall (Forall pure) ns /\ Forall acyclic ns.
  Proof. intros H. repeat split; eapply Forall_impl; try exact H; intros a []; assumption. Qed.

  Lemma concat_ok ns : Forall ok ns -> ok (nfa_concat ns).
  Proof.
    intros H. apply ok_all in H as (Hf & Hw & Hp & Ha). split.
    - exists ([mkState [] [(1, ENone)]] ++ cl 1 ns). rewrite nfa_concat_eq by assumption. now rewrite app_assoc.
    - unfold wf. rewrite nfa_concat_length, nfa_concat_eq by assumption.
      cbn [app]. constructor; [apply bounded_one; lia|]. apply Forall_app; split; [|repeat constructor].
      apply cl_bounded; auto; lia.
    - rewrite nfa_concat_eq by assumption. constructor; [now left|].
      apply Forall_app; split; [now apply cl_pure|]. repeat constructor.
    - destruct (cl_ranked ns Hf Hw Ha 1) as [h Hh]. rewrite nfa_concat_eq by assumption.
      exists (fun x => match x with 0 => S (h 1) | _ => h x end). cbn [app]. apply ranked_cons.
      + cbn. intros t [E|[]]. inv E. lia.
      + eapply ranked_ext; [|exact Hh]. intros [|x] Hx; [lia|reflexivity].
  Qed.

  (** ** Union *)
  Fixpoint ul (acc k : nat) (ns : list nfa) : nfa :=
    match ns with [] => [] | n :: ns => seg k n (acc, ENone) ++ ul acc (k + length n) ns end.
  Fixpoint uh (k : nat) (ns : list nfa) : list (nat * epsk) :=
    match ns with [] => [] | n :: ns => (k, ENone) :: uh (k + length n) ns end.
  Lemma ul_length acc k ns : length (ul acc k ns) = sumlen ns.
  Proof. revert k; induction ns as [|n ns IH]; intros k; cbn; [reflexivity|]. now rewrite app_length, seg_length, IH. Qed.
  Lemma union_layout acc ns s0 st : Forall fin ns ->
    fold_left (fun states n =>
                 let k := length states in
                 let states := modify 0 (push_eps (k, ENone)) states in
                 let states := states ++ map (shift k) n in
                 modify_last (push_eps (acc, ENone)) states) ns (s0 :: st)
    = mkState (trans s0) (eps s0 ++ uh (S (length st)) ns) :: st ++ ul acc (S (length st)) ns.
  Proof.
    revert s0 st; induction ns as [|n ns IH]; intros s0 st HF; cbn [fold_left ul uh].
    - rewrite !app_nil_r. destruct s0; reflexivity.
    - inv HF. cbv zeta. rewrite seg_app by now apply fin_nonempty. cbn [modify app length].
      rewrite IH by assumption. rewrite app_length, seg_length. cbn [push_eps trans eps].
      now rewrite <- !app_assoc.
  Qed.
  Lemma nfa_union_eq ns : Forall fin ns ->
    nfa_union ns = mkState [] (uh 1 ns) :: ul (1 + sumlen ns) 1 ns ++ [empty_state].
  Proof.
    intros H. unfold nfa_union. replace (2 + sumlen ns - 1) with (1 + sumlen ns) by lia.
    rewrite union_layout by assumption. reflexivity.
  Qed.
  Lemma nfa_union_length ns : Forall fin ns -> length (nfa_union ns) = 2 + sumlen ns.
  Proof. intros H. rewrite nfa_union_eq by assumption. cbn. rewrite app_length, ul_length. cbn. lia. Qed.

  Lemma ul_path acc ns : Forall fin ns -> Forall wf ns -> forall pre w,
    let N := pre ++ ul acc (length pre) ns ++ [empty_state] in
    acc = length N - 1 ->
    (exists k, In (k, ENone) (uh (length pre) ns) /\ path check N k w acc) <-> Exists (fun L => L w) (map (lang check) ns).
  Proof.
    induction ns as [|n ns IH]; intros Hf Hw pre w; cbv zeta; intros Hacc.
    - cbn. split; [intros (k & [] & _)|intros H; inv H].
    - inv Hf. inv Hw. cbn [ul uh map] in *.
      set (x := (acc, ENone)).
      set (N := pre ++ (seg (length pre) n x ++ ul acc (length pre + length n) ns) ++ [empty_state]).
      assert (EN : N = (pre ++ seg (length pre) n x) ++ ul acc (length (pre ++ seg (length pre) n x)) ns ++ [empty_state]).
      { unfold N. rewrite app_length, seg_length. now rewrite <- !app_assoc. }
      assert (HS : sub_at N n (length pre) [x]).
      { unfold N. rewrite <- app_assoc. now apply sub_at_seg. }
      assert (HL : acc = length pre + length n + sumlen ns).
      { rewrite !app_length, seg_length, ul_length in Hacc. cbn in Hacc. lia. }
      assert (HN : acc = length N - 1).
      { unfold N. rewrite !app_length, seg_length, ul_length. cbn. lia. }
      assert (HF : fin N). { unfold N. rewrite app_assoc. eexists; reflexivity. }
      assert (H5 : forall v, path check N (length pre) v acc <-> lang check n v).
      { intros v. unfold x in HS. rewrite (seg_iff _ _ _ _ _ _ _ H1 H3 HS) by lia. cbn [mark app]. split.
        - intros (w1 & w2 & -> & Hl & Hp). rewrite HN in Hp. apply path_last in Hp as [-> _]; [|exact HF].
          now rewrite app_nil_r.
        - intros Hl. exists v, []. rewrite app_nil_r. repeat split; auto. apply p_nil. }
      assert (HR := IH H2 H4 (pre ++ seg (length pre) n x) w). cbv zeta in HR.
      rewrite <- EN in HR. specialize (HR HN). rewrite app_length, seg_length in HR.
      rewrite Exists_cons, <- HR, <- H5. cbn [In]. split.
      + intros (k & [E|Hk] & Hp); [inv E; auto|right; eauto].
      + intros [Hp|(k & Hk & Hp)]; eauto.
  Qed.
  Lemma union_lang ns w : Forall fin ns -> Forall wf ns ->
    lang check (nfa_union ns) w <-> Exists (fun L => L w) (map (lang check) ns).
  Proof.
    intros Hf Hw. unfold lang at 1. rewrite nfa_union_length, nfa_union_eq by assumption.
    replace (2 + sumlen ns - 1) with (1 + sumlen ns) by lia.
    pose proof (ul_path (1 + sumlen ns) ns Hf Hw [mkState [] (uh 1 ns)] w) as HC. cbv zeta in HC. cbn [length app] in HC.
    rewrite <- HC by (rewrite app_length, ul_length; cbn; lia). clear HC. split.
    - intros Hp. inv Hp.
      + cbn in H. assert (e = ENone).
        { clear -H. remember 1 as k in H. clear Heqk. revert k H.
          induction ns as [|n ns IH]; intros k H; [destruct H|]. destruct H as [E|H]; [now inv E|eauto]. }
        subst e. cbn. eauto.
      + destruct H.
    - intros (k & Hk & Hp). change w with (mark ENone ++ w). eapply p_eps; [|exact Hp]. exact Hk.
  Qed.
  Lemma ul_bounded ns : Forall wf ns -> forall acc k m, k + sumlen ns <= m -> acc < m -> Forall (bounded m) (ul acc k ns).
  Proof.
    induction 1 as [|n ns Hn Hns IH]; intros acc k m Hm Ha; cbn [ul]; [constructor|].
    rewrite sumlen_cons in Hm.
    apply Forall_app; split; [apply bounded_seg; auto; lia|]. apply IH; lia.
  Qed.
  Lemma ul_pure acc ns k : Forall fin ns -> Forall (Forall pure) ns -> Forall pure (ul acc k ns).
  Proof.
    intros H1; revert k; induction H1 as [|n ns Hf Hfs IH]; intros k Hp; cbn; [constructor|].
    inv Hp. apply Forall_app; split; [now apply pure_seg|auto].
  Qed.
  Lemma uh_bounds k ns t e : In (t, e) (uh k ns) -> Forall fin ns -> k <= t < k + sumlen ns.
  Proof.
    intros H HF. revert k H; induction HF as [|n ns Hn Hns IH]; intros k H; [destruct H|]. rewrite sumlen_cons. cbn [uh] in H.
    apply fin_last in Hn as [_ Hn].
    destruct H as [E|H]; [inv E; lia|]. apply IH in H. lia.
  Qed.
  Lemma ul_ranked acc ns : Forall fin ns -> Forall wf ns -> Forall acyclic ns -> forall k, k + sumlen ns <= acc ->
    exists h, ranked_at k h (ul acc k ns) /\ h acc = 0.
  Proof.
    induction ns as [|n ns IH]; intros Hf Hw Ha k Hk; cbn [ul]; [|rewrite sumlen_cons in Hk].
    - exists (fun _ => 0). split; [apply ranked_nil|reflexivity].
    - inv Hf. inv Hw. inv Ha. destruct (IH H2 H4 H6 (k + length n)) as (h & Hh & Hh0); [lia|]. destruct H5 as [g Hg].
      destruct (fin_last _ H1) as [_ H1'].
      exists (rank_before k n g h). unfold rank_before. split.
      2:{ destruct (Nat.ltb_spec acc (k + length n)); [lia|assumption]. }
      apply ranked_app.
      + apply ranked_seg; [assumption| |].
        * apply (ranked_ext_lt (fun q => S (g q + h (k + length n)))); [assumption| |].
          -- intros x Hx. replace (k + x - k) with x by lia.
             destruct (Nat.ltb_spec (k + x) (k + length n)); [reflexivity|lia].
          -- intros q t Ht. apply Hg in Ht as [Hk' Ht]. split; [lia|]. cbn in *. lia.
        * intros _. split; [lia|].
          destruct (Nat.ltb_spec acc (k + length n)); [lia|].
          destruct (Nat.ltb_spec (k + (length n - 1)) (k + length n)); lia.
      + rewrite seg_length. eapply ranked_ext; [|exact Hh].
        intros x Hx. destruct (Nat.ltb_spec x (k + length n)); [lia|reflexivity].
  Qed.
  Lemma max_bound (h : nat -> nat) l x : In x l -> h x <= fold_right Nat.max 0 (map h l).
  Proof. induction l as [|y l IH]; cbn; [tauto|]. intros [->|H]; [lia|apply IH in H; lia]. Qed.
  Lemma union_ok ns : Forall ok ns -> ok (nfa_union ns).
  Proof.
    intros H. apply ok_all in H as (Hf & Hw & Hp & Ha). split.
    - exists (mkState [] (uh 1 ns) :: ul (1 + sumlen ns) 1 ns). now rewrite nfa_union_eq by assumption.
    - unfold wf. rewrite nfa_union_length, nfa_union_eq by assumption.
      constructor.
      + split; [constructor|]. cbn. apply Forall_forall. intros [t e] Ht. apply uh_bounds in Ht; [|assumption]. cbn. lia.
      + apply Forall_app; split; [|repeat constructor]. apply ul_bounded; auto; lia.
    - rewrite nfa_union_eq by assumption. constructor; [now left|].
      apply Forall_app; split; [now apply ul_pure|]. repeat constructor.
    - destruct (ul_ranked (1 + sumlen ns) ns Hf Hw Ha 1 ltac:(lia)) as (h & Hh & _).
      rewrite nfa_union_eq by assumption.
      exists (fun x => match x with 0 => S (fold_right Nat.max 0 (map h (map fst (uh 1 ns)))) | _ => h x end). apply ranked_cons.
      + cbn [eps]. intros t Ht. split; [lia|]. assert (Hb := uh_bounds _ _ _ _ Ht Hf).
        destruct t as [|t]; [lia|]. apply Nat.lt_succ_r, max_bound. now apply (in_map fst) in Ht.
      + apply ranked_app; [|apply ranked_one].
        eapply ranked_ext; [|exact Hh]. intros [|x] Hx; [lia|reflexivity].
  Qed.

  (** ** Single states and symbols *)
  Lemma empty_ok : ok nfa_empty.
  Proof.
    split; [exists []; reflexivity|repeat constructor|repeat constructor|].
    exists (fun _ => 0). apply ranked_one.
  Qed.
  Lemma empty_lang w : lang check (@nfa_empty A) w <-> w = [].
  Proof.
    unfold lang. split; [|intros ->; apply p_nil].
    intros H. change 0 with (length (@nfa_empty A) - 1) in H at 1. apply path_last in H as [-> _]; [reflexivity|].
    now exists [].
  Qed.
  Lemma symbol_ok a : ok (nfa_symbol1 a).
  Proof.
    split; [exists [mkState [(1, a)] []]; reflexivity|repeat constructor|constructor; [now right|repeat constructor]|].
    exists (fun _ => 0). intros [|[|[|q]]] t H; destruct H.
  Qed.
  Lemma symbol_lang a w : lang check (nfa_symbol1 a) w <-> exists c, check a c = true /\ w = [IC c].
  Proof.
    unfold lang; cbn. split.
    - intros H. inv H; [destruct H0|]. destruct H0 as [E|[]]. inv E.
      change 1 with (length (nfa_symbol1 a0) - 1) in H2 at 1. apply path_last in H2 as [-> _]; eauto.
      exists [mkState [(1, a0)] []]; reflexivity.
    - intros (c & Hc & ->). eapply path_sym1; [|exact Hc]. now left.
  Qed.
  Lemma one_eps_ok e : ok [mkState [] [(1, e)]; empty_state].
  Proof.
    split; [exists [mkState [] [(1, e)]]; reflexivity|repeat constructor|repeat constructor|].
    exists (fun x => 1 - x). intros [|[|[|q]]] t H; try now destruct H.
    cbn in H. destruct H as [H|[]]. inv H. cbn. lia.
  Qed.
  Lemma one_eps_lang e w : lang check [mkState [] [(1, e)]; empty_state] w <-> w = mark e.
  Proof.
    unfold lang; cbn. split.
    - intros H. inv H; [|destruct H0]. cbn in H0. destruct H0 as [E|[]]. inv E.
      change 1 with (length [mkState [] [(1, e0)]; @empty_state A] - 1) in H1 at 1.
      apply path_last in H1 as [-> _]; [now rewrite app_nil_r|].
      exists [mkState [] [(1, e0)]]; reflexivity.
    - intros ->. eapply path_eps1. now left.
  Qed.
  Lemma never_ok : ok nfa_never.
  Proof.
    split; [exists [empty_state]; reflexivity|repeat constructor|repeat constructor|].
    exists (fun _ => 0). intros [|[|[|q]]] t H; destruct H.
  Qed.
  Lemma never_lang w : ~ lang check (@nfa_never A) w.
  Proof. unfold lang; cbn. intros H; inv H; destruct H0. Qed.

  (** ** Capture *)
  Lemma nfa_capture_eq n k : fin n ->
    nfa_capture n k = [mkState [] [(1, ESC k)]] ++ seg 1 n (S (length n), EEC k) ++ [empty_state].
  Proof.
    intros Hf. destruct (fin_last _ Hf) as [_ Hl]. unfold nfa_capture.
    replace (2 + length n - 2) with (1 + (length n - 1)) by lia.
    change 1 with (length [@mkState A [] [(1, ESC k)]]) at 1. rewrite modify_app_r. f_equal.
    rewrite modify_app_l by (rewrite map_length; lia). f_equal.
    unfold seg. rewrite modify_last_modify, map_length.
    replace (2 + length n - 1) with (S (length n)) by lia. reflexivity.
  Qed.
  Lemma nfa_capture_length n k : fin n -> length (nfa_capture n k) = 2 + length n.
  Proof. intros H. rewrite nfa_capture_eq by assumption. rewrite !app_length, seg_length. cbn. lia. Qed.
  Lemma capture_lang n k w : fin n -> wf n ->
    lang check (nfa_capture n k) w <-> exists v, lang check n v /\ w = IM (ESC k) :: v ++ [IM (EEC k)].
  Proof.
    intros Hf Hw. unfold lang at 1. rewrite nfa_capture_length by assumption.
    replace (2 + length n - 1) with (S (length n)) by lia.
    rewrite nfa_capture_eq by assumption. set (N := _ ++ _ ++ _).
    assert (HS : sub_at N n 1 [(S (length n), EEC k)]) by now apply (sub_at_seg [_]).
    assert (HN : length N = 2 + length n) by (unfold N; rewrite !app_length, seg_length; cbn; lia).
    assert (HF : fin N) by (unfold N; rewrite app_assoc; eexists; reflexivity).
    assert (H5 : forall v, path check N 1 v (S (length n)) <-> exists u, lang check n u /\ v = u ++ [IM (EEC k)]).
    { intros v. rewrite (seg_iff _ _ _ _ _ _ _ Hf Hw HS) by lia. split.
      - intros (w1 & w2 & -> & Hl & Hp). replace (S (length n)) with (length N - 1) in Hp at 1 by lia.
        apply path_last in Hp as [-> _]; [|exact HF]. rewrite app_nil_r. eauto.
      - intros (u & Hl & ->). exists u, []. rewrite app_nil_r. repeat split; auto. apply p_nil. }
    split.
    - intros Hp. inv Hp; [|destruct H]. cbn in H. destruct H as [E|[]]. inv E.
      apply H5 in H0 as (u & Hl & ->). cbn. eauto.
    - intros (v & Hl & ->). change (IM (ESC k) :: v ++ [IM (EEC k)]) with (mark (ESC k) ++ v ++ [IM (EEC k)]).
      eapply p_eps; [now left|]. apply H5. eauto.
  Qed.
  (** There is no path of unmarked epsilons through the automaton. *)
  Definition solid n : Prop := exists h, ranked_at 0 h n /\ S (h 0) < h (length n - 1).
  Lemma capture_ok n k : ok n -> ok (nfa_capture n k) /\ solid (nfa_capture n k).
  Proof.
    intros [Hf Hw Hp Ha]. destruct Ha as [g Hg].
    assert (HR : exists h, ranked_at 0 h (nfa_capture n k) /\ S (h 0) < h (length (nfa_capture n k) - 1)).
    { exists (fun x => match x with 0 => 0 | S y => if y <? length n then g y else 2 end).
      rewrite nfa_capture_length, nfa_capture_eq by assumption. split.
      2:{ replace (2 + length n - 1) with (S (length n)) by lia. rewrite Nat.ltb_irrefl. lia. }
      cbn [app]. apply ranked_cons; [cbn; intros t [E|[]]; inv E|].
      apply ranked_app; [|apply ranked_one]. apply ranked_seg; [assumption| |discriminate].
      eapply ranked_ext_lt; [assumption| |exact Hg]. intros x Hx. cbn [Nat.add].
      destruct (Nat.ltb_spec x (length n)); [reflexivity|lia]. }
    split; [|exact HR]. split.
    - exists ([mkState [] [(1, ESC k)]] ++ seg 1 n (S (length n), EEC k)). rewrite nfa_capture_eq by assumption. now rewrite app_assoc.
    - unfold wf. rewrite nfa_capture_length, nfa_capture_eq by assumption.
      cbn [app]. constructor; [apply bounded_one; lia|]. apply Forall_app; split; [|repeat constructor].
      apply bounded_seg; auto; lia.
    - rewrite nfa_capture_eq by assumption. constructor; [now left|].
      apply Forall_app; split; [now apply pure_seg|]. repeat constructor.
    - destruct HR as (h & Hh & _). now exists h.
  Qed.
  Lemma symbol_solid a : solid (nfa_symbol1 a).
  Proof. clear check. exists (fun x => 2 * x). split; [|cbn; lia]. intros [|[|[|q]]] t H; destruct H. Qed.

  (** ** Star *)
  Definition choice (longest : bool) (x y : nat) : list (nat * epsk) :=
    if longest then [(x, ENone); (y, ENone)] else [(y, ENone); (x, ENone)].
  Lemma choice_In b x y t e : In (t, e) (choice b x y) <-> e = ENone /\ (t = x \/ t = y).
  Proof.
    destruct b; cbn; split; intros H.
    1,3: destruct H as [H|[H|[]]]; inv H; auto.
    all: destruct H as [-> [->| ->]]; auto.
  Qed.
  Lemma nfa_star_eq n b : fin n ->
    nfa_star n b = [mkState [] (choice b 1 (S (length n)))] ++ seg 1 n (0, ENone) ++ [empty_state].
  Proof.
    intros Hf. destruct (fin_last _ Hf) as [_ Hl]. unfold nfa_star, choice.
    replace (1 + length n - 1) with (1 + (length n - 1)) by lia.
    match goal with |- modify _ _ ([?s] ++ _) = _ => change 1 with (length [s]) at 1 end.
    rewrite modify_app_r. f_equal.
    rewrite modify_app_l by (rewrite map_length; lia). f_equal.
    unfold seg. now rewrite modify_last_modify, map_length.
  Qed.
  Lemma nfa_star_length n b : fin n -> length (nfa_star n b) = 2 + length n.
  Proof. intros H. rewrite nfa_star_eq by assumption. rewrite !app_length, seg_length. cbn. lia. Qed.
  Lemma star_lang n b w : fin n -> wf n ->
    lang check (nfa_star n b) w <-> exists m, powL (lang check n) m w.
  Proof.
    intros Hf Hw. destruct (fin_last _ Hf) as [Hl1 Hl2]. unfold lang at 1. rewrite nfa_star_length by assumption.
    replace (2 + length n - 1) with (S (length n)) by lia.
    rewrite nfa_star_eq by assumption. set (N := _ ++ _ ++ _).
    assert (HS : sub_at N n 1 [(0, ENone)]) by now apply (sub_at_seg [_]).
    assert (HN : length N = 2 + length n) by (unfold N; rewrite !app_length, seg_length; cbn; lia).
    assert (HF : fin N) by (unfold N; rewrite app_assoc; eexists; reflexivity).
    assert (H0 : get N 0 = mkState [] (choice b 1 (S (length n)))) by reflexivity.
    assert (HE : path check N 0 [] (S (length n))).
    { change [] with (mark ENone ++ []). eapply p_eps; [|apply p_nil]. rewrite H0. apply choice_In. auto. }
    clearbody N. split.
    - intros Hp.
      assert (G : forall s v, path check N s v (S (length n)) ->
        (s = 0 -> exists m, powL (lang check n) m v) /\
        (forall q, s = S q -> q < length n -> exists w1 w2 m, v = w1 ++ w2 /\ path check n q w1 (length n - 1) /\ powL (lang check n) m w2)).
      { clear Hp w. intros s v Hp. remember (S (length n)) as z eqn:Ez in Hp.
        induction Hp as [s|s t e w y He Hp IH|s t a c w y He Hc Hp IH]; subst.
        - split; [discriminate|]. intros q E Hq. lia.
        - destruct (IH eq_refl) as [IH1 IH2]. clear IH. split.
          + intros ->. rewrite H0 in He. apply choice_In in He as [-> [->| ->]]; cbn.
            * destruct (IH2 0 eq_refl ltac:(lia)) as (w1 & w2 & m & -> & Hl & Hm).
              exists (S m). now constructor.
            * replace (S (length n)) with (length N - 1) in Hp at 1 by lia.
              apply path_last in Hp as [-> _]; [|exact HF]. exists 0. constructor.
          + intros q -> Hq. change (S q) with (1 + q) in He. rewrite HS in He by exact Hq.
            destruct (Nat.eqb_spec q (length n - 1)) as [Eq|Hne].
            * destruct He as [E|[]]. inv E. destruct (IH1 eq_refl) as [m Hm].
              exists [], w, m. repeat split; auto. try rewrite Eq. apply p_nil.
            * cbn in He. apply in_map_iff in He as ([t' e'] & E & He). inv E.
              destruct (IH2 t' ltac:(cbn; lia)) as (w1 & w2 & m & -> & Hl & Hm); [eapply wf_eps; eauto|].
              exists (mark e ++ w1), w2, m. rewrite app_assoc. repeat split; auto. eapply p_eps; eauto.
        - destruct (IH eq_refl) as [IH1 IH2]. clear IH. split.
          + intros ->. rewrite H0 in He. destruct He.
          + intros q -> Hq. change (S q) with (1 + q) in He. rewrite HS in He by exact Hq.
            destruct (Nat.eqb_spec q (length n - 1)) as [Eq|Hne]; [destruct He|].
            cbn in He. apply in_map_iff in He as ([t' a'] & E & He). inv E.
            destruct (IH2 t' ltac:(cbn; lia)) as (w1 & w2 & m & -> & Hl & Hm); [eapply wf_trans; eauto|].
            exists (IC c :: w1), w2, m. repeat split; auto. eapply p_sym; eauto. }
      now apply (G 0 w Hp).
    - intros [m Hm]. induction Hm as [|m u v Hu Hm IH]; [exact HE|].
      change (u ++ v) with (mark ENone ++ (u ++ v)). apply (p_eps _ _ _ 1).
      { rewrite H0. apply choice_In. auto. }
      apply (seg_iff _ _ _ _ _ _ _ Hf Hw HS); [lia|]. exists u, v. repeat split; auto.
  Qed.
  Lemma star_ok n b : ok n -> solid n -> ok (nfa_star n b).
  Proof.
    intros [Hf Hw Hp Ha] (h & Hh & Hs). destruct (fin_last _ Hf) as [Hl1 Hl2]. split.
    - exists ([mkState [] (choice b 1 (S (length n)))] ++ seg 1 n (0, ENone)). rewrite nfa_star_eq by assumption. now rewrite app_assoc.
    - unfold wf. rewrite nfa_star_length, nfa_star_eq by assumption.
      constructor; [|apply Forall_app; split; [|repeat constructor]].
      + split; [constructor|]. apply Forall_forall. intros [t e] Ht. apply choice_In in Ht as [_ Ht]. cbn. lia.
      + apply bounded_seg; auto; lia.
    - rewrite nfa_star_eq by assumption. constructor; [now left|].
      apply Forall_app; split; [now apply pure_seg|]. repeat constructor.
    - exists (fun x => match x with 0 => S (S (h 0)) | S y => if y <? length n then S (h y) else 0 end).
      rewrite nfa_star_eq by assumption. intros [|q] t Ht.
      + cbn [app nth eps] in Ht. apply choice_In in Ht as [_ [->| ->]]; (split; [lia|]).
        * destruct (Nat.ltb_spec 0 (length n)); cbn; lia.
        * rewrite Nat.ltb_irrefl. cbn. lia.
      + split; [lia|]. cbn [app nth] in Ht. cbn [Nat.add].
        destruct (Nat.lt_ge_cases q (length n)) as [Hq|Hq].
        * rewrite app_nth1 in Ht by now rewrite seg_length.
          change (nth q (seg 1 n (0, ENone)) empty_state) with (get (seg 1 n (0, ENone)) q) in Ht.
          rewrite get_seg in Ht by assumption.
          destruct (Nat.ltb_spec q (length n)); [|lia].
          destruct (Nat.eqb_spec q (length n - 1)) as [Eq|Hne].
          -- destruct Ht as [E|[]]. inv E. cbn. lia.
          -- cbn in Ht. apply in_map_iff in Ht as ([t' e'] & E & He). inv E. cbn [fst].
             assert (Ht' := wf_eps _ _ _ _ Hw He). rewrite Nat.add_1_r.
             destruct (Nat.ltb_spec t' (length n)); [|lia]. apply Hh in He as [_ He]. cbn in He. lia.
        * rewrite app_nth2 in Ht by (rewrite seg_length; lia). rewrite seg_length in Ht.
          destruct (q - length n) as [|[|?]]; destruct Ht.
  Qed.

  (** ** Up to [times] copies *)
  (** [r] copies remain; position [k] is the choice state, [e] the end. *)
  Fixpoint pl (b : bool) (n : nfa) (e k r : nat) : nfa :=
    match r with
    | 0 => [empty_state]
    | S r' => mkState [] (choice b (S k) e) :: seg (S k) n (S k + length n, ENone) ++ pl b n e (S k + length n) r'
    end.
  Lemma pl_length b n e k r : length (pl b n e k r) = 1 + (length n + 1) * r.
  Proof.
    revert k; induction r as [|r IH]; intros k; cbn [pl length]; [lia|].
    rewrite app_length, seg_length, IH. lia.
  Qed.
  Lemma pl_fin b n e r k : fin (pl b n e k r).
  Proof.
    revert k; induction r as [|r IH]; intros k; cbn [pl]; [now exists []|].
    destruct (IH (S k + length n)) as [m ->].
    exists (mkState [] (choice b (S k) e) :: seg (S k) n (S k + length n, ENone) ++ m).
    cbn. now rewrite <- app_assoc.
  Qed.
  Lemma upto_layout b n e times : fin n -> forall r i st, i + r = times -> 1 <= r ->
    fold_left (fun states i =>
                 let states := states ++ map (shift (length states)) n in
                 let states := modify_last (push_eps (length states, ENone)) states in
                 let tr := if i + 1 =? times then [] else choice b (length states + 1) e in
                 states ++ [mkState [] tr])
              (seq i r) (st ++ [mkState [] (choice b (S (length st)) e)])
    = st ++ pl b n e (length st) r.
  Proof.
    intros Hf. induction r as [|r IH]; intros i st Hr H1; [lia|]. cbn [seq fold_left pl]. cbv zeta.
    rewrite seg_app by now apply fin_nonempty.
    rewrite !app_length, seg_length, map_length. cbn [length]. rewrite !Nat.add_1_r.
    destruct (Nat.eqb_spec (S i) times) as [E|E].
    - assert (r = 0) by lia. subst r. cbn [seq fold_left pl]. rewrite <- !app_assoc. reflexivity.
    - set (st' := (st ++ [mkState [] (choice b (S (length st)) e)]) ++ seg (S (length st)) n (S (length st) + length n, ENone)).
      assert (El : length st' = S (length st) + length n).
      { unfold st'. rewrite !app_length, seg_length. cbn. lia. }
      rewrite <- El. rewrite IH by lia. rewrite El. unfold st'. rewrite <- !app_assoc. reflexivity.
  Qed.
  Lemma nfa_upto_eq n times b : fin n -> 1 <= times ->
    nfa_upto n times b = pl b n ((length n + 1) * times) 0 times.
  Proof.
    intros Hf Ht. unfold nfa_upto. replace (1 + (length n + 1) * times - 1) with ((length n + 1) * times) by lia.
    exact (upto_layout b n _ times Hf times 0 [] eq_refl Ht).
  Qed.
  Lemma pl_path b n e : fin n -> wf n -> forall r pre w,
    let N := pre ++ pl b n e (length pre) r in
    e = length N - 1 ->
    path check N (length pre) w e <-> exists m, m <= r /\ powL (lang check n) m w.
  Proof.
    intros Hf Hw. destruct (fin_last _ Hf) as [Hl1 Hl2].
    induction r as [|r IH]; intros pre w; cbv zeta; intros He.
    - cbn [pl] in *. assert (E : length pre = e) by (rewrite app_length in He; cbn in He; lia).
      rewrite E. split.
      + intros Hp. rewrite He in Hp. apply path_last in Hp as [-> _]; [|now exists pre].
        exists 0. split; [lia|constructor].
      + intros (m & Hm & H). assert (m = 0) by lia. subst m. inv H. apply p_nil.
    - cbn [pl] in *. set (k := length pre) in *.
      set (x := (S k + length n, ENone)) in *.
      set (N := pre ++ mkState [] (choice b (S k) e) :: seg (S k) n x ++ pl b n e (S k + length n) r) in *.
      set (pre' := pre ++ mkState [] (choice b (S k) e) :: seg (S k) n x).
      assert (Ek : length pre' = S k + length n).
      { unfold pre'. rewrite app_length. cbn. rewrite seg_length. fold k. lia. }
      assert (EN : N = pre' ++ pl b n e (length pre') r).
      { unfold N. rewrite Ek. unfold pre'. rewrite <- app_assoc. reflexivity. }
      assert (HS : sub_at N n (S k) [x]).
      { unfold N. change (mkState [] (choice b (S k) e) :: seg (S k) n x ++ ?z) with ([mkState [] (choice b (S k) e)] ++ seg (S k) n x ++ z).
        rewrite app_assoc. apply sub_at_seg; [assumption|]. rewrite app_length. cbn. fold k. lia. }
      assert (HL : e = S k + length n + (length n + 1) * r).
      { rewrite He. unfold N. rewrite app_length. cbn [length]. rewrite app_length, seg_length, pl_length. fold k. lia. }
      assert (HG : get N k = mkState [] (choice b (S k) e)).
      { unfold get, N, k. rewrite app_nth2 by lia. rewrite Nat.sub_diag. reflexivity. }
      assert (HR : forall v, path check N (S k + length n) v e <-> exists m, m <= r /\ powL (lang check n) m v).
      { intros v. pose proof (IH pre' v) as HI. cbv zeta in HI. rewrite <- EN, Ek in HI. now apply HI. }
      assert (HF : fin N).
      { rewrite EN. destruct (pl_fin b n e r (length pre')) as [m ->]. rewrite app_assoc. eexists; reflexivity. }
      clearbody N. clear EN IH. split.
      + intros Hp. inversion Hp as [|? t e0 w0 ? H H0|? t a c w0 ? H H0 H1]; subst w; clear Hp.
        * lia.
        * rewrite HG in H. apply choice_In in H as [-> [->| ->]]; cbn [mark app].
          -- apply (seg_iff _ _ _ _ _ _ _ Hf Hw HS) in H0; [|lia].
             destruct H0 as (w1 & w2 & -> & Hl & Hp). apply HR in Hp as (m & Hm & Hp).
             exists (S m). split; [lia|]. now constructor.
          -- assert (HP : path check N (length N - 1) w0 (length N - 1)) by (rewrite <- He; exact H0).
             apply path_last in HP as [-> _]; [|exact HF]. exists 0. split; [lia|constructor].
        * rewrite HG in H. destruct H.
      + intros (m & Hm & H). inv H.
        * change [] with (mark ENone ++ []). eapply p_eps; [|apply p_nil]. rewrite HG. apply choice_In. auto.
        * change (u ++ v) with (mark ENone ++ (u ++ v)). apply (p_eps _ _ _ (S k)); [rewrite HG; apply choice_In; eauto|].
          apply (seg_iff _ _ _ _ _ _ _ Hf Hw HS); [lia|]. exists u, v. repeat split; auto.
          apply HR. exists m0. split; [lia|assumption].
  Qed.
  Lemma upto_lang n times b w : fin n -> wf n -> 1 <= times ->
    lang check (nfa_upto n times b) w <-> exists m, m <= times /\ powL (lang check n) m w.
  Proof.
    intros Hf Hw Ht. unfold lang at 1. rewrite nfa_upto_eq by assumption.
    set (e := (length n + 1) * times).
    pose proof (pl_path b n e Hf Hw times [] w) as HP. cbv zeta in HP. cbn [app length] in HP.
    rewrite <- HP by (rewrite pl_length; lia). rewrite pl_length.
    replace (1 + (length n + 1) * times - 1) with e by lia. reflexivity.
  Qed.
  Lemma pl_bounded b n e r : wf n -> forall k m, e < m -> k + (length n + 1) * r < m -> Forall (bounded m) (pl b n e k r).
  Proof.
    intros Hw. induction r as [|r IH]; intros k m He Hm; cbn [pl]; [repeat constructor|].
    constructor.
    - split; [constructor|]. apply Forall_forall. intros [t x] Ht. apply choice_In in Ht as [_ Ht]. cbn. lia.
    - apply Forall_app; split; [apply bounded_seg; auto; lia|]. apply IH; lia.
  Qed.
  Lemma pl_pure b n e r : fin n -> Forall pure n -> forall k, Forall pure (pl b n e k r).
  Proof.
    intros Hf Hp. induction r as [|r IH]; intros k; cbn [pl]; [repeat constructor|].
    constructor; [now left|]. apply Forall_app; split; [now apply pure_seg|auto].
  Qed.
  Lemma pl_ranked b n e r : fin n -> wf n -> acyclic n -> forall k, k + (length n + 1) * r = e ->
    exists h, ranked_at k h (pl b n e k r) /\ h e = 0.
  Proof.
    intros Hf Hw [g Hg]. destruct (fin_last _ Hf) as [_ Hl].
    induction r as [|r IH]; intros k Hk; cbn [pl].
    - exists (fun _ => 0). split; [apply ranked_one|reflexivity].
    - destruct (IH (S k + length n) ltac:(lia)) as (h & Hh & Hh0).
      pose (h1 := rank_before (S k) n g h).
      assert (H1 : h1 e = 0).
      { unfold h1, rank_before. destruct (Nat.ltb_spec e (S k + length n)); [lia|assumption]. }
      exists (fun x => if x =? k then S (h1 (S k)) else h1 x). split.
      + apply ranked_cons.
        * cbn. rewrite Nat.eqb_refl. intros t Ht. apply choice_In in Ht as [_ [->| ->]]; (split; [lia|]).
          -- destruct (Nat.eqb_spec (S k) k); lia.
          -- destruct (Nat.eqb_spec e k); lia.
        * apply (ranked_ext (S k) h1); [|unfold h1; now apply ranked_before]. intros x Hx.
          destruct (Nat.eqb_spec x k); [lia|reflexivity].
      + destruct (Nat.eqb_spec e k); [lia|assumption].
  Qed.
  Lemma upto_ok n times b : ok n -> 1 <= times -> ok (nfa_upto n times b).
  Proof.
    intros [Hf Hw Hp Ha] Ht. rewrite nfa_upto_eq by assumption. split.
    - apply pl_fin.
    - unfold wf. rewrite pl_length. apply pl_bounded; auto; lia.
    - now apply pl_pure.
    - destruct (pl_ranked b n ((length n + 1) * times) times Hf Hw Ha 0 eq_refl) as (h & Hh & _). now exists h.
  Qed.
End Gen.

(** ** Trees *)
(** Counts are positive and stars are over symbols or captures, as [from_ere] guarantees. *)
Inductive tree_ok : tree -> Prop :=
| to_empty : tree_ok TEmpty
| to_symbol : forall a, tree_ok (TSymbol a)
| to_union : forall l, Forall tree_ok l -> tree_ok (TUnion l)
| to_capture : forall t k, tree_ok t -> tree_ok (TCapture t k)
| to_concat : forall l, Forall tree_ok l -> tree_ok (TConcat l)
| to_repeat : forall t n, tree_ok t -> tree_ok (TRepeat t n)
| to_upto : forall t n b, tree_ok t -> 1 <= n -> tree_ok (TUpTo t n b)
| to_star_sym : forall a b, tree_ok (TStar (TSymbol a) b)
| to_star_cap : forall t k b, tree_ok t -> tree_ok (TStar (TCapture t k) b)
| to_start : tree_ok TStart
| to_end : tree_ok TEnd
| to_never : tree_ok TNever.

Lemma build_ok t : tree_ok t -> ok (build t).
Proof.
  revert t. fix IH 2. intros t [ |a|l HF|t0 k H|l HF|t0 n H|t0 n b H Hn|a b|t0 k b H| | | ]; cbn [build].
  - apply empty_ok.
  - apply symbol_ok.
  - apply union_ok. apply Forall_map. induction HF; constructor; auto.
  - apply capture_ok. auto.
  - apply concat_ok. apply Forall_map. induction HF; constructor; auto.
  - apply concat_ok. apply Forall_forall. intros x Hx. apply repeat_spec in Hx as ->. auto.
  - apply upto_ok; auto.
  - apply star_ok; [apply symbol_ok|apply symbol_solid].
  - destruct (capture_ok (build t0) k (IH _ H)). now apply star_ok.
  - apply one_eps_ok.
  - apply one_eps_ok.
  - apply never_ok.
Qed.

Lemma map_repeat' {X Y} (f : X -> Y) x n : map f (repeat x n) = repeat (f x) n.
Proof. induction n; cbn; congruence. Qed.
Lemma catL_ext Ls Ms w : Forall2 (fun L M : word -> Prop => forall w, L w -> M w) Ls Ms -> catL Ls w -> catL Ms w.
Proof. intros H; revert w; induction H; intros w Hw; inv Hw; constructor; auto. Qed.

Lemma build_lang check t : tree_ok t -> forall w, lang check (build t) w <-> tlang check t w.
Proof.
  revert t. fix IH 2. intros t [ |a|l HF|t0 k H|l HF|t0 n H|t0 n b H Hn|a b|t0 k b H| | | ] w; cbn [build tlang].
  - apply empty_lang.
  - apply symbol_lang.
  - assert (HO : Forall ok (map build l)).
    { apply Forall_map. eapply Forall_impl; [|exact HF]. apply build_ok. }
    apply ok_all in HO as (Hf & Hw & _). rewrite union_lang by assumption. clear Hf Hw.
    induction HF as [|t1 l Ht HF IHF]; cbn; [split; intros E; inversion E|].
    rewrite !Exists_cons, IHF. specialize (IH t1 Ht w). tauto.
  - destruct (build_ok _ H). rewrite capture_lang by assumption.
    split; intros (v & Hv & ->); exists v; (split; [now apply (IH t0 H)|reflexivity]).
  - assert (HO : Forall ok (map build l)).
    { apply Forall_map. eapply Forall_impl; [|exact HF]. apply build_ok. }
    apply ok_all in HO as (Hf & Hw & _). rewrite concat_lang by assumption. clear Hf Hw. revert w.
    induction HF as [|t1 l Ht HF IHF]; intros w; cbn; [reflexivity|].
    split; intros E; inversion E as [|L Ls u v Hu Hv]; subst; constructor; try (now apply (IH t1 Ht)); now apply IHF.
  - assert (HO : Forall ok (repeat (build t0) n)).
    { apply Forall_forall. intros x Hx. apply repeat_spec in Hx as ->. now apply build_ok. }
    apply ok_all in HO as (Hf & Hw & _). unfold nfa_repeat. rewrite concat_lang by assumption.
    rewrite map_repeat', <- powL_catL. split; apply powL_ext; intros v; apply (IH t0 H).
  - destruct (build_ok _ H). rewrite upto_lang by assumption.
    split; intros (m & Hm & Hp); exists m; (split; [assumption|]); revert Hp; apply powL_ext; intros v; apply (IH t0 H).
  - destruct (symbol_ok a). rewrite star_lang by assumption.
    split; intros (m & Hp); exists m; revert Hp; apply powL_ext; intros v; apply symbol_lang.
  - destruct (capture_ok _ k (build_ok _ H)) as [[] _]. destruct (build_ok _ H). rewrite star_lang by assumption.
    assert (HC : forall v, lang check (nfa_capture (build t0) k) v <-> exists v0, tlang check t0 v0 /\ v = IM (ESC k) :: v0 ++ [IM (EEC k)]).
    { intros v. rewrite capture_lang by assumption.
      split; intros (v0 & Hv & ->); exists v0; (split; [now apply (IH t0 H)|reflexivity]). }
    split; intros (m & Hp); exists m; revert Hp; apply powL_ext; intros v; apply HC.
  - apply (one_eps_lang check EStart).
  - apply (one_eps_lang check EEnd).
  - split; [apply never_lang|tauto].
Qed.
