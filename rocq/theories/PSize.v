(** The automata are linear in the unrolled pattern. *)
From Verif Require Export SpecSize PBridge PTree PUtf8 U8Nfa.
From Verif Require Import PStrip PRun PCompile.
From Coq Require Import ZifyBool ZifyNat ZifyN Lia.
Open Scope nat_scope.
Open Scope list_scope.
Set Default Proof Using "Type".

Lemma list_sum_cons x l : list_sum (x :: l) = x + list_sum l.
Proof. reflexivity. Qed.

Section Cost.
  Context {A : Type}.
  Variable w : A -> nat.
  (** One for the state and [w] for every transition. *)
  Definition cost (s : state A) : nat := S (list_sum (map (fun t => w (snd t)) (trans s))).
  Definition costs (n : nfa A) : nat := list_sum (map cost n).

  Lemma costs_cons s n : costs (s :: n) = cost s + costs n.
  Proof. reflexivity. Qed.
  Lemma costs_app n m : costs (n ++ m) = costs n + costs m.
  Proof. unfold costs. now rewrite map_app, list_sum_app. Qed.
  Lemma costs_length n : length n <= costs n.
  Proof. induction n as [|s n IH]; [apply Nat.le_refl|]. rewrite costs_cons. cbn [length]. unfold cost. lia. Qed.
  Lemma cost_eps e : cost (mkState [] e) = 1.
  Proof. reflexivity. Qed.
  Lemma cost_targets (f : nat -> nat) s : cost (map_targets f s) = cost s.
  Proof. unfold cost, map_targets. cbn [trans]. now rewrite map_map. Qed.
  Lemma cost_shift k s : cost (shift k s) = cost s.
  Proof. unfold cost, shift. cbn [trans]. now rewrite map_map. Qed.
  Lemma cost_push e (s : state A) : cost (push_eps e s) = cost s.
  Proof. reflexivity. Qed.
  Lemma costs_map f n : (forall s, cost (f s) <= cost s) -> costs (map f n) <= costs n.
  Proof. intros H. induction n as [|s n IH]; [apply Nat.le_refl|]. cbn [map]. rewrite !costs_cons. specialize (H s). lia. Qed.
  Lemma costs_map_same f n : (forall s, cost (f s) = cost s) -> costs (map f n) = costs n.
  Proof. intros H. induction n as [|s n IH]; [reflexivity|]. cbn [map]. rewrite !costs_cons. now rewrite H, IH. Qed.
  Lemma costs_enum f : (forall i s, cost (f (i, s)) <= cost s) -> forall n k, costs (map f (combine (seq k (length n)) n)) <= costs n.
  Proof. intros H n. induction n as [|s n IH]; intros k; [apply Nat.le_refl|]. cbn [length seq combine map]. rewrite !costs_cons. specialize (H k s). specialize (IH (S k)). lia. Qed.
  Lemma costs_modify f : (forall s, cost (f s) = cost s) -> forall n i, costs (modify i f n) = costs n.
  Proof. intros H n. induction n as [|s n IH]; intros i; [now destruct i|]. destruct i; cbn [modify]; rewrite !costs_cons; [now rewrite H|now rewrite IH]. Qed.
  Lemma costs_last f : (forall s, cost (f s) = cost s) -> forall n, costs (modify_last f n) = costs n.
  Proof.
    intros H n. induction n as [|s n IH]; [reflexivity|]. destruct n as [|s' n]; [cbn [modify_last]; now rewrite !costs_cons, H|].
    change (modify_last f (s :: s' :: n)) with (s :: modify_last f (s' :: n)). now rewrite costs_cons, IH.
  Qed.
  Lemma costs_upd x : cost x = 1 -> forall n i, costs (upd i x n) <= costs n.
  Proof. intros H n. induction n as [|s n IH]; intros i; [destruct i; apply Nat.le_refl|]. destruct i; cbn [upd]; rewrite !costs_cons; [rewrite H; unfold cost at 1; lia|specialize (IH i); lia]. Qed.

  Lemma costs_one e : costs [mkState [] e] = 1.
  Proof. reflexivity. Qed.
  Lemma costs_empty : costs [empty_state] = 1.
  Proof. reflexivity. Qed.

  Definition total (l : list (nfa A)) : nat := list_sum (map costs l).
  Lemma costs_union l : costs (nfa_union l) = 2 + total l.
  Proof.
    unfold nfa_union. rewrite costs_app. generalize (2 + sumlen l - 1). intros e.
    assert (H : forall l s, costs (fold_left (fun states n => modify_last (push_eps (e, ENone)) (modify 0 (push_eps (length states, ENone)) states ++ map (shift (length states)) n)) l s) = costs s + total l).
    { clear l. induction l as [|n l IH]; intros s; cbn [fold_left]; [unfold total; cbn; lia|]. rewrite IH, costs_last, costs_app, costs_modify, costs_map_same by (intros; auto using cost_push, cost_shift).
      unfold total. cbn [map]. rewrite list_sum_cons. lia. }
    rewrite H, costs_empty. lia.
  Qed.
  Lemma costs_concat l : costs (nfa_concat l) = 2 + total l.
  Proof.
    unfold nfa_concat. rewrite costs_app.
    assert (H : forall l s, costs (fold_left (fun states n => modify_last (push_eps (length (states ++ map (shift (length states)) n), ENone)) (states ++ map (shift (length states)) n)) l s) = costs s + total l).
    { clear l. induction l as [|n l IH]; intros s; cbn [fold_left]; [unfold total; cbn; lia|]. rewrite IH, costs_last, costs_app, costs_map_same by (intros; auto using cost_push, cost_shift).
      unfold total. cbn [map]. rewrite list_sum_cons. lia. }
    rewrite H, costs_one, costs_empty. lia.
  Qed.
  Lemma costs_capture n k : costs (nfa_capture n k) = 2 + costs n.
  Proof.
    unfold nfa_capture. rewrite costs_modify by (intros; apply cost_push). rewrite !costs_app, costs_map_same by (intros; apply cost_shift).
    rewrite costs_one, costs_empty. lia.
  Qed.
  Lemma costs_star n b : costs (nfa_star n b) = 2 + costs n.
  Proof.
    unfold nfa_star. rewrite costs_modify by (intros; apply cost_push). rewrite !costs_app, costs_map_same by (intros; apply cost_shift).
    rewrite costs_one, costs_empty. lia.
  Qed.
  Lemma costs_repeat n k : costs (nfa_repeat n k) = 2 + k * costs n.
  Proof. unfold nfa_repeat. rewrite costs_concat. f_equal. unfold total. induction k as [|k IH]; [reflexivity|]. cbn [repeat map]. rewrite list_sum_cons, IH. lia. Qed.
  Lemma costs_upto n k b : costs (nfa_upto n k b) = 1 + k * (1 + costs n).
  Proof.
    unfold nfa_upto. set (f := fun (states : list (state A)) (i : nat) => _).
    assert (H : forall l s, costs (fold_left f l s) = costs s + length l * (1 + costs n)).
    { induction l as [|i l IH]; intros s; cbn [fold_left length]; [lia|]. rewrite IH. unfold f at 1. rewrite costs_app, costs_last, costs_app, costs_map_same by (intros; auto using cost_push, cost_shift). rewrite costs_one. lia. }
    rewrite H, seq_length, costs_one. lia.
  Qed.
  Lemma costs_symbol a : costs (nfa_symbol1 a) = 2 + w a.
  Proof. unfold costs, nfa_symbol1, cost, empty_state. cbn [map trans snd list_sum fold_right]. lia. Qed.

  (** ** The passes *)
  Variable eqA : A -> A -> bool.
  Lemma clean_start_costs n n' : clean_start_anchors n = Ok n' -> costs n' <= costs n.
  Proof. unfold clean_start_anchors. intros H. apply bind_ok in H as (r & _ & H). injection H as <-. apply costs_enum. intros i s. apply Nat.le_refl. Qed.
  Lemma clean_end_costs n n' : clean_end_anchors n = Ok n' -> costs n' <= costs n.
  Proof. unfold clean_end_anchors. intros H. apply bind_ok in H as (r & _ & H). injection H as <-. apply costs_map. intros s. apply Nat.le_refl. Qed.
  Lemma zero_costs n n' : zero_symbols n = Ok n' -> costs n' <= costs n.
  Proof.
    unfold zero_symbols. intros H. apply bind_ok in H as (a & _ & H). apply bind_ok in H as (b & _ & H). injection H as <-. apply costs_enum. intros i s.
    destruct (_ || _); [|apply Nat.le_refl]. rewrite cost_eps. unfold cost. lia.
  Qed.
  Lemma dedupe_costs n : costs (fst (dedupe n)) <= costs n.
  Proof. apply costs_map. intros s. apply Nat.le_refl. Qed.
  Lemma cost_get n i e : trans (get n i) = [] -> cost (mkState (trans (get n i)) e) = 1.
  Proof. intros ->. reflexivity. Qed.
  Lemma step_costs n d c i n' d' c' : optimize_step eqA (n, d, c) i = Ok (n', d', c') -> costs n' <= costs n.
  Proof.
    unfold optimize_step. destruct (find _ _) as [j|].
    - intros H. injection H as <- _ _. rewrite costs_map_same by (intros; apply cost_targets). apply costs_upd. reflexivity.
    - assert (D := dedupe_costs n). destruct (dedupe n) as [m ch]. cbn [fst] in D.
      set (other := match has_incoming m i with true => _ | false => _ end). intros H.
      assert (Ho : other = Ok (n', d', c') -> costs n' <= costs n).
      { unfold other. clear other H. intros H. destruct (has_incoming m i); [injection H as <- _ _; exact D|].
        destruct (incoming_eps m i) as [|[s e] [|]]; try (injection H as <- _ _; exact D).
        destruct (trans (get m i)) eqn:Et; [|injection H as <- _ _; exact D].
        destruct (nth_error _ _) as [[? [| | | |]]|]; try (injection H as <- _ _; exact D).
        destruct (s =? i); [discriminate|]. injection H as <- _ _. rewrite costs_modify by reflexivity. eapply Nat.le_trans; [|exact D]. apply costs_upd. reflexivity. }
      destruct (trans (get m i)) as [|? ?] eqn:Et; [|auto]. destruct (eps (get m i)) as [|[to [| | | |]] [|]]; auto.
      injection H as <- _ _. eapply Nat.le_trans; [apply costs_upd; reflexivity|]. rewrite costs_map_same by (intros; apply cost_targets). exact D.
  Qed.
  Lemma steps_costs l : forall acc n' d' c', foldM (optimize_step eqA) l acc = Ok (n', d', c') -> costs n' <= costs (fst (fst acc)).
  Proof.
    induction l as [|i l IH]; intros acc n' d' c' H; cbn [foldM] in H; [injection H as ->; apply Nat.le_refl|].
    apply bind_ok in H as ([[n1 d1] c1] & H1 & H). destruct acc as [[n d] c]. apply step_costs in H1. apply IH in H. cbn [fst] in *. lia.
  Qed.
  Lemma filter_costs dead : forall n : nfa A, costs (map snd (filter (fun p : bool * state A => negb (fst p)) (combine dead n))) <= costs n.
  Proof.
    induction dead as [|b dead IH]; intros n; [cbn; lia|]. destruct n as [|s n]; [cbn; lia|]. cbn [combine filter fst]. specialize (IH n). destruct b; cbn [negb map snd]; rewrite ?costs_cons; lia.
  Qed.
  Lemma dead_costs dead n : costs (remove_dead_states dead n) <= costs n.
  Proof. unfold remove_dead_states. rewrite costs_map_same by (intros; apply cost_targets). apply filter_costs. Qed.
  Lemma pass_costs n n' c : optimize_pass eqA n = Ok (n', c) -> costs n' <= costs n.
  Proof.
    unfold optimize_pass. intros H. apply bind_ok in H as (? & _ & H). apply bind_ok in H as ([[m d] ch] & Hs & H). apply steps_costs in Hs. cbn [fst] in Hs.
    destruct ch; injection H as <- _; [|exact Hs]. eapply Nat.le_trans; [apply dead_costs|exact Hs].
  Qed.
  Lemma optimize_costs fuel : forall n n', optimize eqA fuel n = Ok n' -> costs n' <= costs n.
  Proof.
    induction fuel as [|f IH]; intros n n' H; cbn [optimize] in H; [discriminate|]. apply bind_ok in H as (? & _ & H). apply bind_ok in H as ([m c] & Hp & H).
    apply pass_costs in Hp. destruct c; [apply IH in H; lia|injection H as <-; exact Hp].
  Qed.
  Lemma list_sum_filter (p : nat * A -> bool) l : list_sum (map (fun t => w (snd t)) (filter p l)) <= list_sum (map (fun t => w (snd t)) l).
  Proof. induction l as [|x l IH]; [cbn; lia|]. cbn [filter]. destruct (p x); cbn [map]; rewrite ?list_sum_cons; lia. Qed.
  Lemma unreachable_costs n n' : remove_unreachable n = Ok n' -> costs n' <= costs n.
  Proof.
    unfold remove_unreachable. intros H. apply bind_ok in H as (a & _ & H). apply bind_ok in H as (b & _ & H). injection H as <-. eapply Nat.le_trans; [apply dead_costs|].
    apply costs_map. intros s. unfold cost. cbn [trans]. apply le_n_S, list_sum_filter.
  Qed.
  Lemma finalize_costs n n' : finalize eqA n = Ok n' -> costs n' <= costs n.
  Proof.
    unfold finalize. intros H. apply bind_ok in H as (? & _ & H). apply bind_ok in H as (n1 & H1 & H). apply bind_ok in H as (n2 & H2 & H). apply bind_ok in H as (? & _ & H).
    apply zero_costs in H1. apply optimize_costs in H2. apply unreachable_costs in H. lia.
  Qed.
End Cost.

(** ** The character automaton *)
Lemma expr_tree_shape e g t : match expr_tree e g with TConcat c => False | _ => True end /\ t_concat (expr_tree e g) t = TConcat [expr_tree e g; t].
Proof. destruct e; [split; reflexivity|]. rewrite expr_tree_sub. split; [exact I|reflexivity]. Qed.
Section Build.
  Variables w w' : atom -> nat.
  Definition light (a : atom) : Prop := w a <= 4 * w' a + 2.
  Notation K t := (costs w (build t)).
  Lemma quant_costs e g q : K (expr_tree e g) <= 4 * size_expr w' e -> K (quant_tree (expr_tree e g) q) <= 4 * (1 + copies (q_type q) * (1 + size_expr w' e)).
  Proof.
    intros H. set (c := expr_tree e g) in *. set (z := size_expr w' e) in *. clearbody z.
    assert (Hc : forall t, t_concat c t = TConcat [c; t]) by (intros t; apply (expr_tree_shape e g t)).
    assert (Hr : forall n, K (t_repeat c n) <= 2 + n * K c) by (intros [|n]; [cbn; lia|]; unfold t_repeat; cbn [build]; rewrite costs_repeat; lia).
    assert (Hu : forall n b, K (t_upto c n b) <= 1 + n * (1 + K c)) by (intros [|n] b; [cbn; lia|]; unfold t_upto; cbn [build]; rewrite costs_upto; lia).
    assert (Hrc : forall n t, K (t_concat (t_repeat c n) t) <= 4 + n * K c + K t).
    { intros n t. assert (E : t_concat (t_repeat c n) t = TConcat [t_repeat c n; t]) by (destruct n; reflexivity). rewrite E. cbn [build map]. rewrite costs_concat. unfold total. cbn [map]. rewrite !list_sum_cons. cbn [list_sum fold_right]. specialize (Hr n). lia. }
    clearbody c. unfold quant_tree. change (xorb (quantifiers_prefer_longest config_default) (q_alt q)) with (negb (q_alt q)). destruct (q_type q) as [| | |n|n [m|]]; cbn [copies].
    - cbn [t_star build]. rewrite costs_star. lia.
    - rewrite Hc. cbn [build map t_star]. rewrite costs_concat. unfold total. cbn [map]. rewrite !list_sum_cons, costs_star. cbn [list_sum fold_right]. lia.
    - unfold t_optional. specialize (Hu 1 (negb (q_alt q))). lia.
    - specialize (Hr (N.to_nat n)). nia.
    - destruct (N.ltb_spec m n); [cbn; lia|]. destruct (N.eqb_spec m n); [subst; specialize (Hr (N.to_nat n)); nia|].
      specialize (Hrc (N.to_nat n) (t_upto c (N.to_nat (m - n)) (negb (q_alt q)))). specialize (Hu (N.to_nat (m - n)) (negb (q_alt q))).
      assert (E : N.to_nat m = N.to_nat n + N.to_nat (m - n)) by lia. assert (P : 1 <= N.to_nat (m - n)) by lia. rewrite E. revert P Hrc Hu. clear -H. generalize (N.to_nat (m - n)) (N.to_nat n). intros x y. nia.
    - specialize (Hrc (N.to_nat n) (t_star c (negb (q_alt q)))). cbn [t_star build] in Hrc. rewrite costs_star in Hrc. nia.
  Qed.
  Lemma build_costs :
    (forall p, part_atoms light p -> forall g, K (part_tree p g) <= 4 * size_part w' p) /\
    (forall e, expr_atoms light e -> forall g, K (expr_tree e g) <= 4 * size_expr w' e) /\
    (forall b, branch_atoms light b -> forall g, total w (map build (branch_trees b g)) + 2 <= 4 * size_branch w' b) /\
    (forall e, ere_atoms light e -> forall g, total w (map build (ere_trees e g)) + 4 <= 4 * size w' e).
  Proof.
    apply syntax_ind; intros.
    - rewrite part_tree_single. now apply H.
    - rewrite part_tree_quant. apply quant_costs. now apply H.
    - cbn. lia.
    - cbn. lia.
    - unfold expr_tree. cbn [tree_of_expr fst build size_expr]. rewrite costs_symbol. cbn [expr_atoms] in H. unfold light in H. lia.
    - rewrite expr_tree_sub. cbn [build]. rewrite costs_capture, costs_union. specialize (H H0 (S g)). change (size_expr w' (XSub bs)) with (size w' bs). lia.
    - cbn. lia.
    - rewrite branch_trees_cons. destruct H1 as [H1 H2]. unfold total, size_branch in *. cbn [map]. rewrite !list_sum_cons. specialize (H H1 g). specialize (H0 H2 (g + groups_part p)). lia.
    - cbn. lia.
    - rewrite ere_trees_cons. destruct H1 as [H1 H2]. unfold total, size in *. cbn [map build]. rewrite !list_sum_cons, costs_concat. specialize (H H1 g). specialize (H0 H2 (g + groups_branch b)). unfold total. lia.
  Qed.
  Lemma tree_costs e : ere_atoms light e -> K (tree_of e) <= 4 * size w' e.
  Proof. intros H. rewrite tree_of_eq. cbn [build]. rewrite costs_capture, costs_union. assert (X := proj2 (proj2 (proj2 build_costs)) e H 1). lia. Qed.
  Lemma working_costs e n : ere_atoms light e -> working_new (tree_of e) = Ok n -> costs w n <= 4 * size w' e + 12 + 2 * w (NonmatchingList []).
  Proof.
    intros H Hn. unfold working_new, working_new_loop_opt in Hn. apply tree_costs in H.
    apply bind_ok in Hn as (? & _ & Hn). apply bind_ok in Hn as (n1 & H1 & Hn). apply bind_ok in Hn as (n2 & H2 & Hn).
    apply (clean_start_costs w) in H1. apply (clean_end_costs w) in H2. apply (finalize_costs w) in Hn. rewrite !costs_concat in Hn. unfold total in Hn. cbn [map] in Hn. rewrite costs_concat in Hn.
    unfold total in Hn. cbn [map] in Hn. rewrite !list_sum_cons in Hn. unfold any_loop in Hn. rewrite costs_star, costs_symbol in Hn. cbn [list_sum fold_right] in Hn. lia.
  Qed.
End Build.
Lemma every_atom (P : atom -> Prop) : (forall a, P a) ->
  (forall p, part_atoms P p) /\ (forall e, expr_atoms P e) /\ (forall b, branch_atoms P b) /\ (forall e, ere_atoms P e).
Proof. intros H. apply syntax_ind; intros; try exact I; try assumption; try apply H; split; assumption. Qed.
Theorem working_size e n : working_new (tree_of e) = Ok n -> length n <= 4 * size (fun _ => 0) e + 12.
Proof.
  intros H. apply (working_costs (fun _ => 0) (fun _ => 0)) in H; [|apply every_atom; intros a; unfold light; lia].
  assert (X := costs_length (fun _ => 0) n). lia.
Qed.

(** ** Numbers of ranges *)
Lemma combine_loop_length ts : forall cs ce, length (combine_loop cs ce ts) <= S (length ts).
Proof. induction ts as [|t ts IH]; intros cs ce; cbn [combine_loop length]; [lia|]. destruct (range_is_empty t); [specialize (IH cs ce); lia|]. destruct (_ || _); [specialize (IH cs (N.max ce (snd t))); lia|]. cbn [length]. specialize (IH (fst t) (snd t)). lia. Qed.
Lemma sort_length {A} (key : A -> N) l : length (sort_by_key key l) = length l.
Proof. symmetry. apply Permutation.Permutation_length, sort_perm. Qed.
Lemma combine_length rs : length (combine_ranges rs) <= length rs.
Proof. unfold combine_ranges. assert (L : length (sort_by_key fst rs) = length rs) by apply sort_length. destruct (sort_by_key fst rs) as [|r l]; [cbn; lia|]. rewrite <- L. apply combine_loop_length. Qed.
Lemma subtract_one_length t r : length (subtract_one t r) <= 2.
Proof. unfold subtract_one. destruct (_ || _); [cbn; lia|]. rewrite app_length. destruct (_ <? _)%N, (_ <? _)%N; cbn; lia. Qed.
Lemma subtract_missed t rs : Forall (fun r => (snd t < fst r)%N) rs -> subtract rs t = rs.
Proof.
  induction rs as [|r rs IH]; intros H; [reflexivity|]. inversion H as [|? ? Hr Hrs]; subst. unfold subtract in *. cbn [flat_map]. rewrite IH by assumption.
  unfold subtract_one. replace (snd t <? fst r)%N with true by lia. reflexivity.
Qed.
Lemma subtract_length t rs : canonical rs -> length (subtract rs t) <= S (length rs).
Proof.
  intros [_ H]. induction H as [|r rs Hs IH Ha]; [cbn; lia|]. change (subtract (r :: rs) t) with (subtract_one t r ++ subtract rs t). rewrite app_length. change (length (r :: rs)) with (S (length rs)).
  assert (L := subtract_one_length t r). destruct (Nat.eq_dec (length (subtract_one t r)) 2) as [E|E]; [|clear Ha Hs; lia].
  assert (X : subtract rs t = rs); [|rewrite X, E; lia].
  apply subtract_missed. unfold subtract_one in E. destruct (_ || _); [discriminate|]. rewrite app_length in E.
  destruct (snd t <? snd r)%N eqn:E1; [|destruct (fst r <? fst t)%N; discriminate].
  eapply Forall_impl; [|exact Ha]. intros x Hx. unfold PAtom.apart in Hx. assert (G := succ_gt (snd r)). lia.
Qed.
Lemma subtract_all_length ts : Forall range_ok ts -> Forall (fun t => (fst t <= snd t)%N) ts -> forall rs, Forall range_ok rs -> canonical rs -> length (fold_left subtract ts rs) <= length rs + length ts.
Proof.
  induction ts as [|t ts IH]; intros Hok Hf rs Hr Hc; cbn [fold_left length]; [lia|]. inversion Hok; subst. inversion Hf; subst.
  assert (L := subtract_length t rs Hc). specialize (IH ltac:(assumption) ltac:(assumption) (subtract rs t) (subtract_ok t rs ltac:(assumption) Hr) (subtract_canonical t rs ltac:(assumption) ltac:(assumption) Hr Hc)). lia.
Qed.
Lemma class_length k : length (class_ranges k) <= 4.
Proof. destruct k; cbn; lia. Qed.
Lemma terms_length ts : length (flat_map term_ranges ts) <= list_sum (map term_intervals ts).
Proof. induction ts as [|t ts IH]; [cbn; lia|]. cbn [flat_map map]. rewrite app_length, list_sum_cons. assert (length (term_ranges t) <= term_intervals t) by (destruct t; cbn [term_ranges term_intervals length]; try lia; apply class_length). lia. Qed.
Theorem ranges_few a : atom_ok a -> atom_fwd a -> length (to_ranges a) <= intervals a.
Proof.
  destruct a as [c| |ts|ts]; cbn [atom_ok atom_fwd to_ranges intervals]; intros Ho Hf; try (cbn; lia).
  - eapply Nat.le_trans; [apply combine_length|apply terms_length].
  - rewrite sort_length. eapply Nat.le_trans; [apply subtract_all_length|].
    + now apply terms_ranges_ok.
    + now apply terms_ranges_fwd.
    + repeat constructor; apply full_ok.
    + split; repeat constructor. cbn. lia.
    + cbn [length]. assert (L := terms_length ts). lia.
Qed.

(** ** Numbers of byte sequences *)
Open Scope N_scope.
Lemma block_first ms s e p1 p2 : s <= e -> block_split ms s e = Some (p1, p2) ->
  exists ms1 m ms2 t, ms = ms1 ++ m :: ms2 /\ (forall m', In m' ms1 -> aligned (m' + 1) s e) /\ split_at (m + 1) s e t /\ p1 = (s, t - 1) /\ p2 = (t, e).
Proof.
  intros Hse. induction ms as [|m ms IH]; intros H; [discriminate|].
  assert (H' : block_split ms s e = Some (p1, p2) -> aligned (m + 1) s e -> exists ms1 m0 ms2 t, m :: ms = ms1 ++ m0 :: ms2 /\ (forall m', In m' ms1 -> aligned (m' + 1) s e) /\ split_at (m0 + 1) s e t /\ p1 = (s, t - 1) /\ p2 = (t, e)).
  { intros H1 H2. destruct (IH H1) as (ms1 & m0 & ms2 & t & -> & A & B). exists (m :: ms1), m0, ms2, t. split; [reflexivity|]. split; [|exact B]. intros m' [<-|Hm]; auto. }
  assert (H'' : block_split [m] s e = Some (p1, p2) -> exists ms1 m0 ms2 t, m :: ms = ms1 ++ m0 :: ms2 /\ (forall m', In m' ms1 -> aligned (m' + 1) s e) /\ split_at (m0 + 1) s e t /\ p1 = (s, t - 1) /\ p2 = (t, e)).
  { intros H1. apply block_some in H1 as (m0 & t & [->|[]] & R); [|assumption]. exists [], m0, ms, t. split; [reflexivity|]. split; [intros ? []|exact R]. }
  cbn [block_split] in H, H''. destruct (high m s =? high m e) eqn:E.
  - apply H'; [exact H|]. left. apply high_eq. lia.
  - destruct (negb (low m s =? 0)) eqn:E1; [auto|]. destruct (negb (low m e =? m)) eqn:E2; [auto|]. apply H'; [exact H|]. right. unfold low in *. split; lia.
Qed.
Definition flatly (s e : N) : Prop := ind 64 s e = 0%nat /\ ind 4096 s e = 0%nat /\ ind 262144 s e = 0%nat.
Definition inds (s e : N) : nat := (ind 64 s e + ind 4096 s e + ind 262144 s e)%nat.
(** The part cut off is not cut again. *)
Lemma block_flat s e p1 p2 : s <= e -> block_split block_masks s e = Some (p1, p2) ->
  exists t, s < t /\ t <= e /\ p1 = (s, t - 1) /\ p2 = (t, e) /\
    ((inds s (t - 1) = 0%nat /\ (inds t e < inds s e)%nat) \/ (inds t e = 0%nat /\ (inds s (t - 1) < inds s e)%nat)).
Proof.
  intros Hse H. apply block_first in H as (ms1 & m & ms2 & t & Hms & Hal & Hs & E1 & E2); [|assumption]. exists t.
  assert (S := Hs). destruct S as (S1 & S2 & S3 & S4 & S5). split; [assumption|]. split; [assumption|]. split; [assumption|]. split; [assumption|].
  assert (Hp : 0 < m + 1) by lia. destruct (ind_split_lt _ _ _ _ Hp Hs) as [L1 L2].
  assert (T : t - 1 + 1 = t) by lia.
  (* larger blocks *)
  assert (Up : forall q k, 0 < k -> q = (m + 1) * k -> ((t - 1) / (m + 1) = s / (m + 1) -> ind q s (t - 1) = 0%nat) /\ (t / (m + 1) = e / (m + 1) -> ind q t e = 0%nat)).
  { intros q k Hk Hq. split; intros E; unfold ind.
    - rewrite (div_same (m + 1) q k s (t - 1)) by auto. now rewrite N.eqb_refl.
    - rewrite (div_same (m + 1) q k t e) by auto. now rewrite N.eqb_refl. }
  (* smaller blocks *)
  assert (Down : forall q k, 0 < k -> 0 < q -> m + 1 = q * k -> aligned q s e -> ind q s (t - 1) = 0%nat /\ ind q t e = 0%nat).
  { intros q k Hk Hq Eq [A|[A1 A2]]; [exfalso; apply S4, (div_same q (m + 1) k); auto|].
    assert (X : al q t = true) by (apply (al_div q (m + 1) k); auto). assert (Y : al q s = true) by (unfold al; now rewrite A1).
    assert (Z : al q (e + 1) = true). { apply al_iff; [assumption|]. exists (e / q + 1). assert (D := N.div_mod e q ltac:(lia)). rewrite A2 in D. set (z := e / q) in *. clearbody z. clear -D Hq. lia. }
    unfold ind. rewrite T, X, Y, Z. split; destruct (_ =? _); reflexivity. }
  destruct (ind_split (m + 1) 64 s e t Hp ltac:(lia)) as [A1 A2]; [|exact Hs|].
  { assert (Hm : In m block_masks) by (rewrite Hms; apply in_elt). cbn in Hm. destruct Hm as [<-|[<-|[<-|[]]]]; [left; exists 1|right; exists 64|right; exists 4096]; split; reflexivity. }
  destruct (ind_split (m + 1) 4096 s e t Hp ltac:(lia)) as [B1 B2]; [|exact Hs|].
  { assert (Hm : In m block_masks) by (rewrite Hms; apply in_elt). cbn in Hm. destruct Hm as [<-|[<-|[<-|[]]]]; [left; exists 64|left; exists 1|right; exists 64]; split; reflexivity. }
  destruct (ind_split (m + 1) 262144 s e t Hp ltac:(lia)) as [C1 C2]; [|exact Hs|].
  { assert (Hm : In m block_masks) by (rewrite Hms; apply in_elt). cbn in Hm. destruct Hm as [<-|[<-|[<-|[]]]]; [left; exists 4096|left; exists 64|left; exists 1]; split; reflexivity. }
  assert (Z : (inds s (t - 1) = 0%nat /\ (t - 1) / (m + 1) = s / (m + 1)) \/ (inds t e = 0%nat /\ t / (m + 1) = e / (m + 1))).
  { unfold block_masks in Hms. unfold inds.
    destruct ms1 as [|x1 [|x2 [|x3 ms1]]]; cbn [app] in Hms; injection Hms; intros; subst; try discriminate.
    - destruct (Up 64 1 ltac:(lia) eq_refl) as [U1 V1]. destruct (Up 4096 64 ltac:(lia) eq_refl) as [U2 V2]. destruct (Up 262144 4096 ltac:(lia) eq_refl) as [U3 V3].
      destruct S5 as [[_ S]|[_ S]]; [left|right]; split; auto; rewrite ?U1, ?U2, ?U3, ?V1, ?V2, ?V3 by assumption; reflexivity.
    - destruct (Down 64 64 ltac:(lia) ltac:(lia) eq_refl (Hal _ ltac:(now left))) as [U1 V1]. destruct (Up 4096 1 ltac:(lia) eq_refl) as [U2 V2]. destruct (Up 262144 64 ltac:(lia) eq_refl) as [U3 V3].
      destruct S5 as [[_ S]|[_ S]]; [left|right]; split; auto; rewrite ?U1, ?U2, ?U3, ?V1, ?V2, ?V3 by assumption; reflexivity.
    - destruct (Down 64 4096 ltac:(lia) ltac:(lia) eq_refl (Hal _ ltac:(now left))) as [U1 V1]. destruct (Down 4096 64 ltac:(lia) ltac:(lia) eq_refl (Hal _ ltac:(right; now left))) as [U2 V2]. destruct (Up 262144 1 ltac:(lia) eq_refl) as [U3 V3].
      destruct S5 as [[_ S]|[_ S]]; [left|right]; split; auto; rewrite ?U1, ?U2, ?U3, ?V1, ?V2, ?V3 by assumption; reflexivity.
    - destruct ms1; discriminate. }
  assert (Hm : In m block_masks) by (rewrite Hms; apply in_elt). unfold inds in *.
  change block_masks with [64 - 1; 4096 - 1; 262144 - 1] in Hm. cbn [In] in Hm.
  destruct Z as [[Z _]|[Z _]]; [left|right]; (split; [exact Z|]); destruct Hm as [<-|[<-|[<-|[]]]];
    [change (64 - 1 + 1) with 64 in *|change (4096 - 1 + 1) with 4096 in *|change (262144 - 1 + 1) with 262144 in *
    |change (64 - 1 + 1) with 64 in *|change (4096 - 1 + 1) with 4096 in *|change (262144 - 1 + 1) with 262144 in *]; lia.
Qed.
Definition cuts (s e : N) : nat := (sur s e + strad 0x7F s e + strad 0x7FF s e + strad 0xFFFF s e)%nat.
Lemma cuts_mono s e s' e' : s <= s' -> e' <= e -> (cuts s' e' <= cuts s e)%nat.
Proof.
  intros H1 H2. assert (S0 := sur_mono _ _ _ _ H1 H2). assert (S1 := strad_mono 0x7F _ _ _ _ H1 H2). assert (S2 := strad_mono 0x7FF _ _ _ _ H1 H2). assert (S3 := strad_mono 0xFFFF _ _ _ _ H1 H2).
  unfold cuts. lia.
Qed.
Lemma both_length f s1 e1 s2 e2 l x y : (do a <- utf8_seqs f s1 e1; do b <- utf8_seqs f s2 e2; Ok (a ++ b)) = Ok l ->
  (forall a, utf8_seqs f s1 e1 = Ok a -> (length a <= x)%nat) -> (forall b, utf8_seqs f s2 e2 = Ok b -> (length b <= y)%nat) -> (length l <= x + y)%nat.
Proof. intros H Hx Hy. apply bind_ok in H as (a & Ha & H). apply bind_ok in H as (b & Hb & H). injection H as <-. rewrite app_length. specialize (Hx a Ha). specialize (Hy b Hb). lia. Qed.
Lemma blocks_few fuel : forall s e l, cuts s e = 0%nat -> utf8_seqs fuel s e = Ok l -> (length l <= 1 + inds s e)%nat.
Proof.
  induction fuel as [|f IH]; intros s e l Hc H; cbn [utf8_seqs] in H; [discriminate|].
  destruct ((s <? 0xE000) && (0xD7FF <? e)) eqn:Es; [unfold cuts, sur in Hc; rewrite Es in Hc; lia|].
  destruct (N.ltb_spec e s); [injection H as <-; cbn; lia|]. assert (LS := length_split_spec s e). destruct (length_split s e) as [p|].
  - destruct LS as (b & Hb & Hse & _). exfalso. assert (Z : strad b s e = 1%nat) by (unfold strad; now replace ((s <=? b) && (b <? e)) with true by lia). unfold cuts in Hc. cbn in Hb. destruct Hb as [<-|[<-|[<-|[]]]]; lia.
  - destruct (e <=? 0x7F); [injection H as <-; cbn; lia|]. destruct (block_split block_masks s e) as [[p1 p2]|] eqn:Eb; [|injection H as <-; cbn; lia].
    apply block_flat in Eb as (t & T1 & T2 & -> & -> & Hi); [|assumption]. cbn [fst snd] in H.
    assert (C1 : cuts s (t - 1) = 0%nat) by (assert (M := cuts_mono s e s (t - 1) ltac:(lia) ltac:(lia)); lia).
    assert (C2 : cuts t e = 0%nat) by (assert (M := cuts_mono s e t e ltac:(lia) ltac:(lia)); lia).
    assert (L := both_length f _ _ _ _ l (1 + inds s (t - 1)) (1 + inds t e) H (fun a => IH _ _ a C1) (fun b => IH _ _ b C2)). lia.
Qed.
Lemma inds_le s e : (inds s e <= 6)%nat.
Proof. apply ind_sum. Qed.
Lemma cut_strad b x s e : s <= x -> x < e -> (strad b s x + strad b (x + 1) e <= strad b s e)%nat /\ (b = x -> strad b s x + strad b (x + 1) e + 1 <= strad b s e)%nat.
Proof.
  intros H1 H2. unfold strad. destruct ((s <=? b) && (b <? x)) eqn:E1, ((x + 1 <=? b) && (b <? e)) eqn:E2, ((s <=? b) && (b <? e)) eqn:E3; split; intros; lia.
Qed.
Lemma seqs_few fuel : forall s e l, utf8_seqs fuel s e = Ok l -> (length l <= 7 * (1 + cuts s e))%nat.
Proof.
  induction fuel as [|f IH]; intros s e l H; [discriminate|]. destruct (Nat.eq_dec (cuts s e) 0) as [E|E].
  { apply blocks_few in H; [|assumption]. assert (I := inds_le s e). lia. }
  cbn [utf8_seqs] in H. destruct ((s <? 0xE000) && (0xD7FF <? e)) eqn:Es.
  - cbn [fst snd] in H. assert (L := both_length f _ _ _ _ l _ _ H (fun a => IH _ _ a) (fun b => IH _ _ b)).
    assert (X : (cuts s 0xD7FF + cuts 0xE000 e + 1 <= cuts s e)%nat); [|lia]. unfold cuts. clear L H IH E. unfold sur. rewrite Es.
    replace ((s <? 0xE000) && (0xD7FF <? 0xD7FF)) with false by lia. replace ((0xE000 <? 0xE000) && (0xD7FF <? e)) with false by lia. unfold strad.
    replace (0xE000 <=? 0x7F) with false by lia. replace (0xE000 <=? 0x7FF) with false by lia. replace (0xFFFF <? 0xD7FF) with false by lia.
    replace (0x7F <? 0xD7FF) with true by lia. replace (0x7FF <? 0xD7FF) with true by lia. replace (0xE000 <=? 0xFFFF) with true by lia.
    replace (0x7F <? e) with true by lia. replace (0x7FF <? e) with true by lia. replace (s <=? 0xFFFF) with true by lia. cbn [andb]. rewrite ?andb_true_r, ?andb_false_r.
    destruct (s <=? 0x7F), (s <=? 0x7FF), (0xFFFF <? e); lia.
  - destruct (N.ltb_spec e s); [injection H as <-; cbn; lia|]. assert (LS := length_split_spec s e). destruct (length_split s e) as [p|].
    + destruct LS as (b & Hb & [B1 B2] & ->). cbn [fst snd] in H. assert (L := both_length f _ _ _ _ l _ _ H (fun a => IH _ _ a) (fun b => IH _ _ b)).
      assert (X : (cuts s b + cuts (b + 1) e + 1 <= cuts s e)%nat); [|lia]. unfold cuts. clear L H IH E. assert (S0 : sur s e = 0%nat) by (unfold sur; now rewrite Es).
      assert (S1 := sur_mono s e s b ltac:(lia) ltac:(lia)). assert (S2 := sur_mono s e (b + 1) e ltac:(lia) ltac:(lia)).
      destruct (cut_strad 0x7F b s e B1 B2) as [P1 Q1]. destruct (cut_strad 0x7FF b s e B1 B2) as [P2 Q2]. destruct (cut_strad 0xFFFF b s e B1 B2) as [P3 Q3].
      cbn in Hb. destruct Hb as [<-|[<-|[<-|[]]]]; [specialize (Q1 eq_refl)|specialize (Q2 eq_refl)|specialize (Q3 eq_refl)]; lia.
    + destruct (e <=? 0x7F); [injection H as <-; cbn; lia|]. exfalso. apply E. unfold cuts, sur, strad. rewrite Es.
      assert (C1 := LS 0x7F ltac:(cbn; auto)). assert (C2 := LS 0x7FF ltac:(cbn; auto)). assert (C3 := LS 0xFFFF ltac:(cbn; auto)).
      replace ((s <=? 0x7F) && (0x7F <? e)) with false by lia. replace ((s <=? 0x7FF) && (0x7FF <? e)) with false by lia. replace ((s <=? 0xFFFF) && (0xFFFF <? e)) with false by lia. reflexivity.
Qed.
Lemma cuts_le s e : (cuts s e <= 4)%nat.
Proof.
  assert (B : forall b, (strad b s e <= 1)%nat) by (intros b; unfold strad; destruct (_ && _); lia).
  assert (B1 := B 0x7F). assert (B2 := B 0x7FF). assert (B3 := B 0xFFFF). assert (C : (sur s e <= 1)%nat) by (unfold sur; destruct (_ && _); lia). unfold cuts. lia.
Qed.
Theorem sequences_few r l : utf8_sequences r = Ok l -> (length l <= 35)%nat.
Proof. unfold utf8_sequences. generalize utf8_fuel. intros f H. apply seqs_few in H. assert (C := cuts_le (fst r) (snd r)). lia. Qed.
Close Scope N_scope.
Open Scope nat_scope.
Lemma sequences_short r l : (snd r <= 0x10FFFF)%N -> utf8_sequences r = Ok l -> Forall (fun q => length q <= 4) l.
Proof.
  intros Hr H. destruct (utf8_sequences_spec r Hr) as (l' & E & G & _). rewrite H in E. injection E as <-. eapply Forall_impl; [|exact G].
  intros q [Hq _]. destruct q as [|x q]; [destruct Hq|]. rewrite Hq. unfold lead. destruct (_ <? _)%N; [lia|]. destruct (_ <? _)%N; [lia|]. destruct (_ <? _)%N; lia.
Qed.

(** ** The byte automaton *)
Lemma modify_length {B} (f : B -> B) l : forall i, length (modify i f l) = length l.
Proof. induction l as [|x l IH]; intros [|i]; cbn; auto. Qed.
Lemma insert_size q : forall t st t', trie_insert t st q = Ok t' -> length t' <= length t + (length q - 1).
Proof.
  induction q as [|r q IH]; intros t st t' H; cbn [trie_insert] in H; [injection H as <-; lia|]. destruct st as [st|]; [|discriminate].
  destruct (find _ _) as [[next ?]|]; [apply IH in H; cbn [length]; lia|]. destruct q as [|r' q].
  - injection H as <-. rewrite modify_length. lia.
  - apply IH in H. rewrite modify_length, app_length in H. cbn [length] in *. lia.
Qed.
Lemma inserts_size l : Forall (fun q : list range => length q <= 4) l -> forall t t', foldM (fun st s => trie_insert st (Some 0) s) l t = Ok t' -> length t' <= length t + 3 * length l.
Proof.
  induction l as [|q l IH]; intros Hl t t' H; cbn [foldM] in H; [injection H as <-; lia|]. inversion Hl; subst. apply bind_ok in H as (t1 & H1 & H). apply insert_size in H1. apply IH in H; [|assumption]. cbn [length]. lia.
Qed.
Lemma mapM_few (f : range -> res (list (list range))) : (forall r l, range_ok r -> f r = Ok l -> length l <= 35 /\ Forall (fun q => length q <= 4) l) ->
  forall rs, Forall range_ok rs -> forall ls, mapM f rs = Ok ls -> length (concat ls) <= 35 * length rs /\ Forall (fun q => length q <= 4) (concat ls).
Proof.
  intros Hf. induction rs as [|r rs IH]; intros Hr ls H; cbn [mapM] in H; [injection H as <-; cbn; split; [lia|constructor]|]. inversion Hr as [|? ? H0 H1]; subst.
  apply bind_ok in H as (l & Hl & H). apply bind_ok in H as (ls' & Hls & H). injection H as <-. destruct (IH H1 ls' Hls) as [A B]. destruct (Hf r l H0 Hl) as [C D]. cbn [concat length]. rewrite app_length. split.
  - lia.
  - apply Forall_app. split; assumption.
Qed.
Lemma mapM_sequences rs : Forall range_ok rs -> forall ls, mapM utf8_sequences rs = Ok ls -> length (concat ls) <= 35 * length rs /\ Forall (fun q => length q <= 4) (concat ls).
Proof. apply mapM_few. intros r l [_ Hr] H. split; [exact (sequences_few r l H)|exact (sequences_short r l (scalar_max _ Hr) H)]. Qed.
Definition weigh (a : atom) : nat := 105 * length (to_ranges a).
Lemma symbol_size a s : atom_ok a -> u8_symbol a = Ok s -> length s <= 2 + weigh a.
Proof.
  intros Ha H. unfold u8_symbol in H. apply bind_ok in H as (t & Ht & H). injection H as <-. rewrite app_length, map_length. cbn [length]. unfold symbol_trie in Ht.
  apply bind_ok in Ht as (ls & Hls & Ht). destruct (mapM_sequences _ (to_ranges_ok a Ha) _ Hls) as [A B]. apply inserts_size in Ht; [|exact B]. cbn [length] in Ht. unfold weigh. lia.
Qed.
Lemma build_trans_size k ts : Forall (fun t : nat * atom => atom_ok (snd t)) ts -> forall acc r, foldM (u8_build_trans k) ts acc = Ok r -> length (snd r) <= length (snd acc) + list_sum (map (fun t => weigh (snd t)) ts).
Proof.
  induction ts as [|t ts IH]; intros Hts [trs subs] r H; cbn [foldM] in H; [injection H as <-; cbn; lia|]. inversion Hts as [|? ? H0 H1]; subst. apply bind_ok in H as (x & Hx & H). apply IH in H; [|assumption].
  cbn [map]. rewrite list_sum_cons. unfold u8_build_trans in Hx. apply bind_ok in Hx as (s & Hs & Hx). injection Hx as <-. apply symbol_size in Hs; [|assumption]. cbn [snd] in *.
  rewrite app_length, map_length, firstn_length in H. lia.
Qed.
Definition atoms_ok (n : nfa atom) : Prop := Forall (fun s => Forall (fun t => atom_ok (snd t)) (trans s)) n.
Lemma build_size n m : atoms_ok n -> u8_build n = Ok m -> length m <= costs weigh n + 1.
Proof.
  intros Hn H. unfold u8_build in H. apply bind_ok in H as (? & _ & H). apply bind_ok in H as ([states subs] & Hf & H). injection H as <-. rewrite modify_length, !app_length. cbn [length].
  set (g := fun '(states, subs) (s : state atom) => _) in Hf. set (k := length n) in *. clearbody k.
  assert (X : forall l acc r, atoms_ok l -> foldM g l acc = Ok r -> length (fst r) + length (snd r) <= length (fst acc) + length (snd acc) + costs weigh l).
  { induction l as [|s l IH]; intros [a b] r Hl Hr; cbn [foldM] in Hr; [injection Hr as <-; unfold costs; cbn; lia|]. inversion Hl as [|? ? H0 H1]; subst. apply bind_ok in Hr as (acc1 & Hx & Hr). apply IH in Hr; [|assumption].
    unfold g in Hx. apply bind_ok in Hx as ([trs subs'] & Hp & Hx). injection Hx as <-. apply build_trans_size in Hp; [|assumption]. rewrite costs_cons. unfold cost. cbn [fst snd] in *. rewrite app_length in Hr. cbn [length] in Hr. lia. }
  apply X in Hf; [|assumption]. cbn [fst snd length] in Hf. lia.
Qed.
Lemma u8_costs n m : atoms_ok n -> u8_new n = Ok m -> length m <= costs weigh n + 1.
Proof.
  intros Hn H. unfold u8_new, u8_new_loop_opt in H. apply bind_ok in H as (b & Hb & H). apply build_size in Hb; [|assumption]. apply (finalize_costs (fun _ => 0)) in H.
  assert (X := costs_length (fun _ => 0) m). assert (Y : costs (fun _ => 0) b = length b); [|lia]. clear. induction b as [|s b IH]; [reflexivity|]. rewrite costs_cons, IH. unfold cost. cbn [length].
  assert (Z : list_sum (map (fun _ : nat * range => 0) (trans s)) = 0) by (induction (trans s); auto). lia.
Qed.
Theorem byte_size s e n m : parse_str s = ROk e -> Forall scalar s -> (forall a, In a (atoms e) -> atom_fwd a) -> working_new (tree_of e) = Ok n -> u8_new n = Ok m ->
  length m <= 4 * size (fun a => 27 * intervals a) e + 223.
Proof.
  intros Hp Hs Hf Hn Hm. assert (Hne : n <> []) by (intros ->; discriminate). destruct (parsed_working_ne s e Hp Hs n Hn Hne) as [(_ & _ & _ & _ & HL) _].
  assert (Ha : atoms_ok n). { unfold atoms_ok. eapply Forall_impl; [|exact HL]. intros x [Hx _]. apply Forall_forall. intros [t a] Hin. exact (Hx t a Hin). }
  apply u8_costs in Hm; [|assumption]. apply (working_costs weigh (fun a => 27 * intervals a)) in Hn.
  - change (weigh (NonmatchingList [])) with 105 in Hn. lia.
  - assert (Hok := parsed_atoms_ok s e Hp Hs). apply (proj2 (proj2 (proj2 (atoms_In _)))). rewrite (proj2 (proj2 (proj2 (atoms_In _)))) in Hok. intros a Hin. unfold light, weigh. assert (X := ranges_few a (Hok a Hin) (Hf a Hin)). lia.
Qed.

(** ** Reversed ranges in a negated list *)
(** [k] reversed ranges, each inside the one before it. *)
Fixpoint nest (k : nat) (hi lo : N) : list term :=
  match k with O => [] | S k => Range hi lo :: nest k (hi - 1) (lo + 1) end.
Fixpoint nest_text (k : nat) (hi lo : N) : list N :=
  match k with O => [93%N] | S k => hi :: 45%N :: lo :: nest_text k (hi - 1) (lo + 1) end.
Open Scope N_scope.
Lemma split_both hi lo r : 0 < hi -> hi < 0xD800 -> lo < hi -> fst r <= lo -> hi <= snd r -> subtract_one (hi, lo) r = [(fst r, hi - 1); (lo + 1, snd r)].
Proof.
  intros H0 H1 H2 H3 H4. unfold subtract_one. cbn [fst snd]. replace (lo <? fst r) with false by lia. replace (snd r <? hi) with false by lia. replace (fst r <? hi) with true by lia. replace (lo <? snd r) with true by lia.
  cbn [orb app]. unfold pred_char, succ_char. replace (hi =? 0xE000) with false by lia. replace (lo =? 0xD7FF) with false by lia. reflexivity.
Qed.
Lemma nest_doubles k : forall hi lo (rs : list range), lo + 2 * N.of_nat k < hi -> hi < 0xD800 -> Forall (fun r => fst r <= lo /\ hi <= snd r) rs ->
  length (fold_left subtract (flat_map term_ranges (nest k hi lo)) rs) = (2 ^ k * length rs)%nat.
Proof.
  induction k as [|k IH]; intros hi lo rs H1 H2 H3; [symmetry; apply Nat.mul_1_l|]. cbn [nest flat_map term_ranges app fold_left].
  assert (X : length (subtract rs (hi, lo)) = (2 * length rs)%nat /\ Forall (fun r => fst r <= lo + 1 /\ hi - 1 <= snd r) (subtract rs (hi, lo))).
  { clear IH. induction H3 as [|r rs [A B] H3 IH]; [split; [reflexivity|constructor]|]. unfold subtract in *. cbn [flat_map]. rewrite split_both by lia. cbn [app length].
    destruct IH as [I1 I2]. split; [rewrite I1; lia|]. constructor; [cbn [fst snd]; lia|]. constructor; [cbn [fst snd]; lia|]. exact I2. }
  destruct X as [X1 X2]. rewrite IH; [|lia|lia|exact X2]. rewrite X1, Nat.pow_succ_r'. ring.
Qed.
Lemma nest_body k : forall hi lo, 200 < lo -> lo + 2 * N.of_nat k < hi -> G_body (nest k hi lo) (nest_text k hi lo).
Proof. induction k as [|k IH]; intros hi lo H0 H; cbn [nest nest_text]; [constructor|]. constructor; [intros E; vm_compute in E; lia|intros E; vm_compute in E; lia|]. apply IH; lia. Qed.
Lemma nest_text_length k : forall hi lo, length (nest_text k hi lo) = (3 * k + 1)%nat.
Proof. induction k as [|k IH]; intros hi lo; [reflexivity|]. cbn [nest_text length]. rewrite IH. lia. Qed.
Lemma nest_text_scalar k : forall hi lo, lo + 2 * N.of_nat k < hi -> hi < 0xD800 -> Forall scalar (nest_text k hi lo).
Proof.
  induction k as [|k IH]; intros hi lo H1 H2; cbn [nest_text]; [repeat constructor|]. constructor; [apply scalar_iff; lia|]. constructor; [reflexivity|]. constructor; [apply scalar_iff; lia|]. apply IH; lia.
Qed.
Close Scope N_scope.
Open Scope nat_scope.
Theorem ranges_explode k : 1 <= k -> (N.of_nat k <= 4000)%N ->
  exists s a, length s = 3 * k + 3 /\ Forall scalar s /\ parse_str s = ROk [[PSingle (XAtom a)]] /\ intervals a = k + 1 /\ length (to_ranges a) = 2 ^ k.
Proof.
  intros Hk Hk2. exists ([91; 94]%N ++ nest_text k 30000 20000), (NonmatchingList (nest k 30000 20000)).
  assert (B : (20000 + 2 * N.of_nat k < 30000)%N) by lia. split; [|split; [|split; [|split]]].
  - rewrite app_length, nest_text_length. cbn [length]. lia.
  - apply Forall_app. split; [repeat constructor|]. apply nest_text_scalar; lia.
  - apply parse_iff. constructor. rewrite <- (app_nil_r (_ ++ _)). apply Gbr_cons; [|constructor]. apply Gp_single, Gx_atom, (Ga_nlist (nest k 30000 20000) (nest_text k 30000 20000)), Gl_plain.
    + destruct k; [lia|]. cbn [nest_text]. intros [r E]. injection E as E _. discriminate.
    + apply nest_body; lia.
  - cbn [intervals]. assert (X : forall j hi lo, list_sum (map term_intervals (nest j hi lo)) = j); [|rewrite X; lia].
    induction j as [|j IH]; intros; [reflexivity|]. cbn [nest map term_intervals]. rewrite list_sum_cons, IH. reflexivity.
  - cbn [to_ranges]. rewrite sort_length, nest_doubles; [cbn [length]; lia|lia|lia|]. repeat constructor; cbn [fst snd]; unfold char_max; lia.
Qed.
