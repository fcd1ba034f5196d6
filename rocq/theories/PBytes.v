(** Proofs about [max_bytes] and [min_bytes]. *)
From Verif Require Export PBridge SpecGroups.
From Coq Require Import ZifyBool ZifyNat ZifyN Sorted Permutation.
Open Scope N_scope.
Open Scope list_scope.

(** ** The first and the last range of an atom *)
Definition below (x y : range) : Prop := fst x <= fst y /\ snd x <= snd y.
Definition over (x : range) (r : list range) : Prop := exists z, In z r /\ fst z = fst x /\ snd x <= snd z.
Fixpoint stair (l : list range) : Prop :=
  match l with
  | [] => True
  | x :: r => (forall y, In y r -> below x y \/ below y x) /\
              (forall r1 y r2, r = r1 ++ y :: r2 -> below x y \/ over x r2) /\ stair r
  end.
Definition rok (r : range) : Prop := range_ok r /\ fst r <= snd r.
Lemma flat_map_split {A B} (f : A -> list B) l : forall R1 p R2, flat_map f l = R1 ++ p :: R2 ->
  exists l1 y l2 a b, l = l1 ++ y :: l2 /\ f y = a ++ p :: b /\ R2 = b ++ flat_map f l2.
Proof.
  induction l as [|x l IH]; cbn; intros R1 p R2 H; [destruct R1; discriminate|].
  assert (G : exists l1, (f x = R1 ++ p :: l1 /\ R2 = l1 ++ flat_map f l) \/ (exists R3, flat_map f l = R3 ++ p :: R2)).
  { revert R1 H. induction (f x) as [|a r IHr]; intros R1 H; cbn in H; [exists []; right; eauto|].
    destruct R1 as [|b R1]; cbn in H; injection H as -> H; [exists r; left; auto|].
    destruct (IHr R1 H) as (l1 & [[-> ->]|G]); [exists l1; left; auto|exists []; right; exact G]. }
  destruct G as (l1 & [[H1 H2]|(R3 & H3)]).
  - exists [], x, l, R1, l1. auto.
  - destruct (IH _ _ _ H3) as (l2 & y & l3 & a & b & -> & Hy & HR). exists (x :: l2), y, l3, a, b. auto.
Qed.
Section Sub.
  Variable t : range.
  Hypothesis Ht : range_ok t.
  (** What can be a piece. *)
  Inductive piece (r : range) : range -> list range -> Prop :=
  | pc_whole : snd t < fst r \/ snd r < fst t -> piece r r []
  | pc_left : fst r <= snd t -> fst t <= snd r -> fst r < fst t -> piece r (fst r, pred_char (fst t)) (if snd t <? snd r then [(succ_char (snd t), snd r)] else [])
  | pc_right : fst r <= snd t -> fst t <= snd r -> snd t < snd r -> piece r (succ_char (snd t), snd r) [].
  Lemma piece_intro r a p b : subtract_one t r = a ++ p :: b -> piece r p b.
  Proof.
    unfold subtract_one. destruct ((snd t <? fst r) || (snd r <? fst t)) eqn:E.
    - intros H. destruct a as [|x a]; [|destruct a; discriminate]. injection H as <- <-. constructor. lia.
    - destruct (N.ltb_spec (fst r) (fst t)).
      + intros H'. destruct a as [|x a]; cbn in H'.
        * injection H' as <- <-. constructor; lia.
        * injection H' as <- H'. destruct (N.ltb_spec (snd t) (snd r)); [|destruct a; discriminate]. destruct a as [|y a]; [|destruct a; discriminate].
          injection H' as <- <-. constructor; lia.
      + cbn. destruct (N.ltb_spec (snd t) (snd r)); intros H'; [|destruct a; discriminate]. destruct a as [|x a]; [|destruct a; discriminate].
        injection H' as <- <-. constructor; lia.
  Qed.
  Lemma piece_In r p : In p (subtract_one t r) -> exists b, piece r p b.
  Proof. intros H. apply in_split in H as (a & b & H). exists b. eapply piece_intro; eauto. Qed.
  Lemma whole_In r : snd t < fst r \/ snd r < fst t -> In r (subtract_one t r).
  Proof. intros H. unfold subtract_one. destruct ((snd t <? fst r) || (snd r <? fst t)) eqn:E; [now left|lia]. Qed.
  Lemma left_In r : fst r <= snd t -> fst t <= snd r -> fst r < fst t -> In (fst r, pred_char (fst t)) (subtract_one t r).
  Proof. intros H1 H2 H3. unfold subtract_one. destruct ((snd t <? fst r) || (snd r <? fst t)) eqn:E; [lia|]. destruct (N.ltb_spec (fst r) (fst t)); [now left|lia]. Qed.
  Lemma right_In r : fst r <= snd t -> fst t <= snd r -> snd t < snd r -> In (succ_char (snd t), snd r) (subtract_one t r).
  Proof. intros H1 H2 H3. unfold subtract_one. destruct ((snd t <? fst r) || (snd r <? fst t)) eqn:E; [lia|]. apply in_or_app. right. destruct (N.ltb_spec (snd t) (snd r)); [now left|lia]. Qed.
  Lemma succ_lt d : d < succ_char d.
  Proof. unfold succ_char. destruct (N.eqb_spec d 0xD7FF); lia. Qed.
  Lemma pred_lt d : 0 < d -> pred_char d < d.
  Proof. unfold pred_char. destruct (N.eqb_spec d 0xE000); lia. Qed.
  Ltac facts :=
    pose proof (succ_lt (snd t));
    repeat match goal with
    | H : fst ?r < fst t |- _ => lazymatch goal with _ : pred_char (fst t) < fst t |- _ => fail | _ => pose proof (pred_lt (fst t) ltac:(lia)) end
    end.
  Lemma pieces_below x y px bx py b_y : rok x -> rok y -> below x y -> piece x px bx -> piece y py b_y -> below px py \/ (below py px /\ over px b_y).
  Proof using Ht.
    intros [[X1 X2] X3] [[Y1 Y2] Y3] [L1 L2] Hx Hy. destruct Ht as [T1 T2]. unfold below.
    destruct Hx as [Hx|A1 A2 A3|A1 A2 A3]; destruct Hy as [Hy|B1 B2 B3|B1 B2 B3]; cbn [fst snd]; facts.
    - left. lia.
    - left. assert (snd x < fst t) by lia. apply scalar_gap' in H1; [lia|auto|auto|lia].
    - destruct (N.lt_ge_cases (snd t) (fst x)); [lia|]. left. lia.
    - left. assert (pred_char (fst t) <= snd y) by lia. lia.
    - left. lia.
    - left. lia.
    - left. destruct Hy as [Hy|Hy]; [|lia]. apply scalar_gap in Hy; [lia|auto|auto].
    - right. split; [lia|]. destruct (N.ltb_spec (snd t) (snd y)); [|lia]. exists (succ_char (snd t), snd y). cbn. split; [now left|]. lia.
    - left. lia.
  Qed.
  Lemma piece_over x z px bx : rok x -> rok z -> fst z = fst x -> snd x <= snd z -> piece x px bx -> over px (subtract_one t z).
  Proof using Ht.
    intros [[X1 X2] X3] [[Z1 Z2] Z3] E L Hx. destruct Ht as [T1 T2]. destruct Hx as [Hx|A1 A2 A3|A1 A2 A3].
    - destruct (N.lt_ge_cases (snd t) (fst z)); [exists z; split; [apply whole_In|]; auto; lia|].
      destruct (N.lt_ge_cases (snd z) (fst t)); [exists z; split; [apply whole_In|]; auto; lia|].
      assert (Hlt : snd x < fst t) by lia.
      destruct (N.lt_ge_cases (fst z) (fst t)).
      + exists (fst z, pred_char (fst t)). split; [apply left_In; lia|]. cbn. split; [assumption|]. apply scalar_gap'; auto; lia.
      + lia.
    - exists (fst z, pred_char (fst t)). split; [apply left_In; lia|]. cbn. split; [assumption|lia].
    - exists (succ_char (snd t), snd z). split; [apply right_In; lia|]. cbn. split; [reflexivity|lia].
  Qed.
  Lemma piece_rok r p b : rok r -> piece r p b -> rok p.
  Proof using Ht.
    intros [[R1 R2] R3] Hp. destruct Ht as [T1 T2]. destruct Hp as [H|H1 H2 H3|H1 H2 H3].
    - split; [split|]; assumption.
    - split; [split; [assumption|]; cbn; apply pred_scalar; auto; lia|]. cbn. apply scalar_gap'; auto; lia.
    - split; [split; [|assumption]; cbn; apply succ_scalar; auto; pose proof (scalar_max _ R2); lia|]. cbn. apply scalar_gap; auto.
  Qed.
  Lemma over_flat x px bx l : Forall rok l -> rok x -> piece x px bx -> over x l -> over px (flat_map (subtract_one t) l).
  Proof using Ht.
    intros Hl Hx Hp (z & Hz & E & L). rewrite Forall_forall in Hl. destruct (piece_over x z px bx Hx (Hl z Hz) E L Hp) as (w & Hw & G).
    exists w. split; [|exact G]. apply in_flat_map. eauto.
  Qed.
  Lemma over_app x l m : over x l \/ over x m -> over x (l ++ m).
  Proof. intros [(z & Hz & G)|(z & Hz & G)]; exists z; (split; [apply in_or_app; auto|exact G]). Qed.
  Lemma piece_sibling r p b q : rok r -> piece r p b -> In q b -> below p q /\ b = [q].
  Proof using Ht.
    intros [[R1 R2] R3] Hp Hq. destruct Ht as [T1 T2]. destruct Hp as [H|H1 H2 H3|H1 H2 H3]; [destruct Hq| |destruct Hq].
    destruct (N.ltb_spec (snd t) (snd r)); [|destruct Hq]. destruct Hq as [<-|[]]. split; [|reflexivity]. unfold below. cbn. facts. lia.
  Qed.
  Lemma stair_sub l : Forall rok l -> stair l -> stair (flat_map (subtract_one t) l) /\ Forall rok (flat_map (subtract_one t) l).
  Proof using Ht.
    induction 1 as [|x r Hx Hr IH]; cbn [stair flat_map]; [split; [exact I|constructor]|]. intros (C & O & S). destruct (IH S) as [IS IR].
    set (R := flat_map (subtract_one t) r) in *.
    assert (Key : forall p b, piece x p b -> (forall y, In y R -> below p y \/ below y p) /\ (forall r1 y r2, R = r1 ++ y :: r2 -> below p y \/ over p r2)).
    { intros p b Hp. split.
      - intros py Hy. apply in_flat_map in Hy as (y & Hy & Hpy). apply piece_In in Hpy as (b' & Hpy).
        assert (Hyr : rok y) by (rewrite Forall_forall in Hr; auto). destruct (C y Hy) as [Hb|Hb].
        + destruct (pieces_below x y p b py b' Hx Hyr Hb Hp Hpy) as [G|[G _]]; auto.
        + destruct (pieces_below y x py b' p b Hyr Hx Hb Hpy Hp) as [G|[G _]]; auto.
      - intros r1 py r2 E. apply flat_map_split in E as (l1 & y & l2 & a & b' & -> & Ey & ->). apply piece_intro in Ey.
        apply Forall_app in Hr as [_ Hr]. inversion Hr as [|? ? Hyr Hl2]; subst.
        destruct (O l1 y l2 eq_refl) as [Hb|Ho].
        + destruct (pieces_below x y p b py b' Hx Hyr Hb Hp Ey) as [G|[_ G]]; [auto|]. right. apply over_app. auto.
        + right. apply over_app. right. exact (over_flat x p b l2 Hl2 Hx Hp Ho). }
    assert (G : forall a b, subtract_one t x = a ++ b -> stair (b ++ R) /\ Forall rok (b ++ R)).
    { intros a b. revert a. induction b as [|p b IHb]; intros a E; [auto|]. destruct (IHb (a ++ [p])) as [S1 R1]; [rewrite <- app_assoc; exact E|].
      assert (Hp := piece_intro _ _ _ _ E). destruct (Key p b Hp) as [K1 K2]. cbn [app stair]. split; [split; [|split; [|exact S1]]|].
      - intros y Hy. apply in_app_or in Hy as [Hy|Hy]; [left; exact (proj1 (piece_sibling x p b y Hx Hp Hy))|auto].
      - intros r1 y r2 E'. destruct r1 as [|w r1].
        + destruct b as [|q b]; [apply (K2 [] y r2); exact E'|]. cbn in E'. injection E' as <- _. left. exact (proj1 (piece_sibling x p (q :: b) q Hx Hp (or_introl eq_refl))).
        + destruct b as [|q b]; [apply (K2 (w :: r1) y r2); exact E'|]. cbn in E'. injection E' as <- E'.
          assert (Eb := proj2 (piece_sibling x p (q :: b) q Hx Hp (or_introl eq_refl))). injection Eb as ->. apply (K2 r1 y r2). exact E'.
      - constructor; [eapply piece_rok; eauto|exact R1]. }
    apply (G [] _ eq_refl).
  Qed.
End Sub.
Lemma stair_all ts : Forall range_ok ts -> forall l, Forall rok l -> stair l -> stair (fold_left subtract ts l) /\ Forall rok (fold_left subtract ts l).
Proof.
  induction 1 as [|t ts Ht Hts IH]; intros l Hl S; [auto|]. cbn [fold_left]. destruct (stair_sub t Ht l Hl S) as [S1 R1]. now apply IH.
Qed.
(** The last element of the sorted list. *)
Lemma last_sort (l : list range) w s : sort_by_key fst l = s ++ [w] -> exists l1 l2, l = l1 ++ w :: l2 /\ Forall (fun x => fst x <= fst w) l1 /\ Forall (fun x => fst x < fst w) l2.
Proof.
  revert w s. induction l as [|x l IH]; intros w s H; [destruct s; discriminate|]. cbn in H. fold (sort_by_key fst l) in H.
  assert (G : forall m s, insert_by fst x m = s ++ [w] -> sorted_by fst m -> (exists s', m = s' ++ [w] /\ fst x <= fst w) \/ (w = x /\ Forall (fun y => fst y < fst x) m)).
  { induction m as [|y m IHm]; intros s0 E Hs; cbn in E.
    - right. destruct s0 as [|? s0]; [injection E as <-; auto|destruct s0; discriminate].
    - destruct (N.leb_spec (fst x) (fst y)).
      + left. destruct s0 as [|a s0]; [discriminate|]. injection E as <- E. exists s0. split; [assumption|].
        assert (Hw : In w (y :: m)) by (rewrite E; apply in_or_app; right; now left). inversion Hs as [|? ? _ Hf]; subst. rewrite Forall_forall in Hf. destruct Hw as [<-|Hw]; [assumption|]. specialize (Hf _ Hw). lia.
      + destruct s0 as [|a s0]; [exfalso; injection E as _ E; destruct m as [|r0 m0]; cbn in E; [discriminate|destruct (fst x <=? fst r0); discriminate]|].
        injection E as <- E. inversion Hs as [|? ? Hs' Hf]; subst. destruct (IHm s0 E Hs') as [(s' & -> & Hle)|[-> Hf']].
        * left. exists (y :: s'). auto.
        * right. split; [reflexivity|]. constructor; assumption. }
  destruct (G _ _ H (sort_sorted fst l)) as [(s' & E & Hle)|[-> Hf]].
  - destruct (IH _ _ E) as (l1 & l2 & -> & F1 & F2). exists (x :: l1), l2. split; [reflexivity|]. split; [now constructor|assumption].
  - exists [], l. split; [reflexivity|]. split; [constructor|]. rewrite Forall_forall in *. intros y Hy. apply Hf. eapply Permutation_in; [apply sort_perm|assumption].
Qed.
Lemma stair_In l1 x l2 : stair (l1 ++ x :: l2) -> (forall y, In y l1 -> (below y x \/ below x y) /\ (below y x \/ over y l2)) /\ (forall y, In y l2 -> below x y \/ below y x).
Proof.
  induction l1 as [|a l1 IH]; cbn [app stair].
  - intros (C & _ & _). split; [intros y []|exact C].
  - intros (C & O & S). destruct (IH S) as [I1 I2]. split; [|exact I2]. intros y [<-|Hy]; [|auto]. split; [apply C; apply in_or_app; right; now left|eauto].
Qed.
Lemma stair_last l s w : stair l -> sort_by_key fst l = s ++ [w] -> forall x, In x l -> snd x <= snd w.
Proof.
  intros S E x Hx. apply last_sort in E as (l1 & l2 & -> & F1 & F2). rewrite Forall_forall in *. destruct (stair_In _ _ _ S) as [I1 I2].
  apply in_app_or in Hx as [Hx|[<-|Hx]]; [|lia|].
  - destruct (I1 x Hx) as [C O]. specialize (F1 _ Hx). destruct (N.eq_dec (fst x) (fst w)) as [Ex|].
    + destruct O as [[_ O]|(z & Hz & Ez & _)]; [assumption|]. specialize (F2 _ Hz). lia.
    + destruct C as [[_ C]|[C _]]; [assumption|lia].
  - specialize (F2 _ Hx). destruct (I2 x Hx) as [[C _]|[_ C]]; [lia|assumption].
Qed.
Lemma combine_loop_last ts : forall cs ce s w, combine_loop cs ce ts = s ++ [w] -> ce <= snd w /\ forall x, In x (combine_loop cs ce ts) -> snd x <= snd w.
Proof.
  induction ts as [|t ts IH]; intros cs ce s w E; cbn [combine_loop] in *.
  - destruct s as [|? s]; [injection E as <-; cbn; split; [lia|intros x [<-|[]]; cbn; lia]|destruct s; discriminate].
  - destruct (range_is_empty t) eqn:Et; [eauto|]. unfold range_is_empty in Et.
    match goal with H : (if ?b then _ else _) = _ |- _ => destruct b eqn:Em end.
    + destruct (IH _ _ _ _ E) as [H1 H2]. split; [lia|exact H2].
    + destruct s as [|a s]; [injection E as _ E; exfalso; clear - E; revert E; generalize (fst t), (snd t); induction ts as [|t' ts IH]; cbn; intros a b; [discriminate|];
        repeat match goal with |- (if ?c then _ else _) = _ -> _ => destruct c end; try apply IH; discriminate|].
      injection E as <- E. destruct (IH _ _ _ _ E) as [H1 H2].
      assert (Hce : ce < fst t) by (destruct (N.leb_spec (fst t) ce); cbn in Em; [discriminate|assumption]).
      split; [lia|]. intros x [<-|Hx]; [cbn; lia|auto].
Qed.
Lemma to_ranges_last a s w c : atom_ok a -> scalar c -> to_ranges a = s ++ [w] -> atom_has a c -> c <= snd w.
Proof.
  intros Ha Hc E Hh. apply (to_ranges_iff a c Ha Hc) in Hh as (r & Hr & Hin). assert (G : snd r <= snd w); [|lia].
  destruct a as [x| |ts|ts]; cbn [to_ranges] in *.
  - destruct s as [|? s]; [|destruct s; discriminate]. injection E as <-. destruct Hr as [<-|[]]. lia.
  - destruct s as [|? s]; [|destruct s; discriminate]. injection E as <-. destruct Hr as [<-|[]]. lia.
  - unfold combine_ranges in *. destruct (sort_by_key fst (flat_map term_ranges ts)) as [|f l]; [destruct Hr|].
    eapply combine_loop_last; eauto.
  - assert (Hr' := Hr). apply (Permutation_in _ (Permutation_sym (sort_perm fst _))) in Hr'. eapply stair_last; eauto.
    apply stair_all; [now apply terms_ranges_ok| |].
    + constructor; [|constructor]. split; [apply full_ok|cbn; unfold char_max; lia].
    + cbn. split; [intros y []|]. split; [intros r1 y r2 E'; destruct r1; discriminate|exact I].
Qed.
Lemma sorted_head (l : list range) f s : sort_by_key fst l = f :: s -> forall x, In x l -> fst f <= fst x.
Proof.
  intros E x Hx. apply (Permutation_in _ (sort_perm fst l)) in Hx. assert (S := sort_sorted fst l). rewrite E in *. inversion S as [|? ? _ Hf]; subst.
  rewrite Forall_forall in Hf. destruct Hx as [<-|Hx]; [lia|auto].
Qed.
Lemma combine_loop_head ts : forall cs ce, exists e s, combine_loop cs ce ts = (cs, e) :: s.
Proof.
  induction ts as [|t ts IH]; intros cs ce; cbn; [eauto|]. repeat match goal with |- context [if ?c then _ else _] => destruct c end; eauto.
Qed.
Lemma to_ranges_head a w s c : atom_ok a -> scalar c -> to_ranges a = w :: s -> atom_has a c -> fst w <= c.
Proof.
  intros Ha Hc E Hh. assert (Hr := Hh). apply (to_ranges_iff a c Ha Hc) in Hr as (r & Hr & Hin).
  destruct a as [x| |ts|ts]; cbn [to_ranges] in *.
  - injection E as <- <-. destruct Hr as [<-|[]]. lia.
  - injection E as <- <-. destruct Hr as [<-|[]]. lia.
  - cbn in Hh. apply terms_ranges_iff in Hh as (x & Hx & Hcx).
    unfold combine_ranges in *. destruct (sort_by_key fst (flat_map term_ranges ts)) as [|f l] eqn:Es; [discriminate|].
    destruct (combine_loop_head l (fst f) (snd f)) as (e & s' & Ec). rewrite Ec in E. injection E as <- _. cbn. assert (H := sorted_head _ _ _ Es _ Hx). lia.
  - assert (S := sort_sorted fst (fold_left subtract (flat_map term_ranges ts) [(0, char_max)])). rewrite E in *. inversion S as [|? ? _ Hf]; subst.
    rewrite Forall_forall in Hf. destruct Hr as [<-|Hr]; [lia|]. specialize (Hf _ Hr). lia.
Qed.


(** ** Words of a tree *)
Open Scope nat_scope.
Definition bytes (w : word) : nat := total_width len_utf8 (chars w).
Lemma bytes_app u v : bytes (u ++ v) = bytes u + bytes v.
Proof. unfold bytes. rewrite chars_app. apply total_width_app. Qed.
Lemma len_utf8_mono c d : (c <= d)%N -> len_utf8 c <= len_utf8 d.
Proof. intros H. unfold len_utf8. repeat match goal with |- context [(?a <? ?b)%N] => destruct (N.ltb_spec a b) end; lia. Qed.
Lemma powL_le (L : word -> Prop) n w k : (forall v, L v -> bytes v <= k) -> powL L n w -> bytes w <= k * n.
Proof. intros H. induction 1 as [|n u v Hu Hv IH]; [cbn; lia|]. rewrite bytes_app. specialize (H _ Hu). lia. Qed.
Lemma powL_ge (L : word -> Prop) n w k : (forall v, L v -> k <= bytes v) -> powL L n w -> k * n <= bytes w.
Proof. intros H. induction 1 as [|n u v Hu Hv IH]; [cbn; lia|]. rewrite bytes_app. specialize (H _ Hu). lia. Qed.
Lemma fold_max_ge l : forall x n, fold_left opt_max l x = Some n -> (exists m, x = Some m /\ m <= n) /\ forall y, In y l -> exists m, y = Some m /\ m <= n.
Proof.
  induction l as [|y l IH]; intros x n H; cbn in H; [split; [eauto|intros y []]|].
  destruct (IH _ _ H) as [(m & E & Hm) G]. destruct x as [x|], y as [y|]; try discriminate. injection E as <-. split; [exists x; split; [auto|lia]|].
  intros z [<-|Hz]; [exists y; split; [auto|lia]|auto].
Qed.
Lemma fold_add_sum l : forall x n, fold_left opt_add l x = Some n -> exists a ns, x = Some a /\ l = map Some ns /\ n = a + list_sum ns.
Proof.
  induction l as [|y l IH]; intros x n H; cbn in H |- *; [exists n, []; split; [assumption|]; split; [reflexivity|cbn; lia]|].
  destruct (IH _ _ H) as (a & ns & E & -> & ->). destruct x as [x|], y as [y|]; try discriminate. injection E as <-.
  exists x, (y :: ns). split; [reflexivity|]. split; [reflexivity|]. change (list_sum (y :: ns)) with (y + list_sum ns). lia.
Qed.
Lemma fold_add_nat l : forall x, fold_left Nat.add l x = x + list_sum l.
Proof. induction l as [|y l IH]; intros x; cbn [fold_left]; [cbn; lia|]. rewrite IH. change (list_sum (y :: l)) with (y + list_sum l). lia. Qed.
Lemma fold_min_le l : forall x, fold_left Nat.min l x <= x /\ forall y, In y l -> fold_left Nat.min l x <= y.
Proof.
  induction l as [|y l IH]; intros x; cbn; [split; [lia|intros y []]|]. destruct (IH (Nat.min x y)) as [H1 H2].
  split; [lia|]. intros z [<-|Hz]; [lia|auto].
Qed.
Lemma catL_inv (Ls : list (word -> Prop)) w : catL Ls w -> match Ls with [] => w = [] | L :: r => exists u v, w = u ++ v /\ L u /\ catL r v end.
Proof. intros H. inversion H; subst; [reflexivity|]. eauto. Qed.
Lemma labels_In (P : atom -> Prop) M l t : fold_right (fun t Q => tree_labels P M t /\ Q) True l -> In t l -> tree_labels P M t.
Proof. induction l as [|x l IH]; cbn; [tauto|]. intros [H1 H2] [<-|H]; auto. Qed.
Lemma max_bytes_spec t : tree_labels atom_ok (fun _ => True) t -> forall n w, max_bytes t = Some n -> tlang acheck t w -> bytes w <= n.
Proof.
  induction t as [ |a|l IH|t k IH|l IH|t k IH|t k b IH|t b IH| | | ] using tree_ind'; intros HL n0 w Hn Hw; cbn [tlang] in Hw; cbn [max_bytes] in Hn; cbn [tree_labels] in HL.
  - subst w. cbn. lia.
  - destruct Hw as (c & Hc & ->). destruct (rev (to_ranges a)) as [|r l] eqn:E; [discriminate|]. injection Hn as <-.
    apply (f_equal (@rev _)) in E. rewrite rev_involutive in E. cbn in E. unfold acheck in Hc. apply andb_true_iff in Hc as [Hc Hs].
    cbn. rewrite Nat.add_0_r. apply len_utf8_mono. apply (to_ranges_last a _ r c HL Hs E). now apply atom_check_iff.
  - apply Exists_exists in Hw as (L & HLi & Hw). apply in_map_iff in HLi as (t & <- & Ht). rewrite Forall_forall in IH.
    assert (G : exists m, max_bytes t = Some m /\ m <= n0).
    { destruct l as [|x l]; [destruct Ht|]. cbn [map] in Hn. apply fold_max_ge in Hn as [(m & E & Hm) G]. destruct Ht as [->|Ht]; [eauto|]. apply G. now apply in_map. }
    destruct G as (m & E & Hm). assert (X := IH t Ht (labels_In _ _ _ _ HL Ht) m w E Hw). lia.
  - destruct Hw as (v & Hv & ->). change (IM (ESC k) :: v ++ [IM (EEC k)]) with ([IM (ESC k)] ++ v ++ [IM (EEC k)]). rewrite !bytes_app. cbn. rewrite Nat.add_0_r. apply IH; tauto.
  - apply fold_add_sum in Hn as (a & ns & E & Hn & ->). injection E as <-. cbn [Nat.add]. revert ns w Hn Hw. induction IH as [|t l Ht Hl IH]; intros ns w Hn Hw; cbn [map] in *.
    + apply catL_inv in Hw. subst w. cbn. lia.
    + apply catL_inv in Hw as (u & v & -> & Hu & Hv). destruct ns as [|m ns]; [discriminate|]. injection Hn as Em Hn. cbn in HL. rewrite bytes_app. change (list_sum (m :: ns)) with (m + list_sum ns).
      assert (X := Ht (proj1 HL) m u Em Hu). assert (Y := IH (proj2 HL) ns v Hn Hv). lia.
  - destruct (max_bytes t) as [m|]; [|discriminate]. injection Hn as <-. eapply powL_le; eauto.
  - destruct (max_bytes t) as [m|]; [|discriminate]. injection Hn as <-. destruct Hw as (j & Hj & Hw). assert (X := powL_le _ _ _ m (fun v => IH HL m v eq_refl) Hw). nia.
  - discriminate.
  - subst w. cbn. lia.
  - subst w. cbn. lia.
  - destruct Hw.
Qed.
Fixpoint no_upto (t : tree) : Prop :=
  match t with
  | TUnion l | TConcat l => fold_right (fun t Q => no_upto t /\ Q) True l
  | TCapture t _ | TRepeat t _ | TStar t _ => no_upto t
  | TUpTo _ _ _ => False
  | _ => True
  end.
Lemma no_upto_In l t : fold_right (fun t Q => no_upto t /\ Q) True l -> In t l -> no_upto t.
Proof. induction l as [|x l IH]; cbn; [tauto|]. intros [H1 H2] [<-|H]; auto. Qed.
Lemma min_bytes_spec t : tree_labels atom_ok (fun _ => True) t -> no_upto t -> forall w, tlang acheck t w -> min_bytes t <= bytes w.
Proof.
  induction t as [ |a|l IH|t k IH|l IH|t k IH|t k b IH|t b IH| | | ] using tree_ind'; intros HL HU w Hw; cbn [tlang] in Hw; cbn [min_bytes]; cbn [tree_labels] in HL; cbn [no_upto] in HU; try lia.
  - destruct Hw as (c & Hc & ->). destruct (to_ranges a) as [|r l] eqn:E; [lia|].
    unfold acheck in Hc. apply andb_true_iff in Hc as [Hc Hs].
    cbn. rewrite Nat.add_0_r. apply len_utf8_mono. apply (to_ranges_head a r l c HL Hs E). now apply atom_check_iff.
  - apply Exists_exists in Hw as (L & HLi & Hw). apply in_map_iff in HLi as (t & <- & Ht). rewrite Forall_forall in IH.
    assert (G : match map min_bytes l with [] => 0 | x :: r => fold_left Nat.min r x end <= min_bytes t).
    { destruct l as [|x l]; [destruct Ht|]. cbn [map]. destruct (fold_min_le (map min_bytes l) (min_bytes x)) as [G1 G2]. destruct Ht as [->|Ht]; [assumption|]. apply G2. now apply in_map. }
    assert (X := IH t Ht (labels_In _ _ _ _ HL Ht) (no_upto_In _ _ HU Ht) w Hw). lia.
  - destruct Hw as (v & Hv & ->). change (IM (ESC k) :: v ++ [IM (EEC k)]) with ([IM (ESC k)] ++ v ++ [IM (EEC k)]). rewrite !bytes_app. cbn. rewrite Nat.add_0_r. apply IH; tauto.
  - rewrite fold_add_nat. cbn [Nat.add]. revert w Hw. induction IH as [|t l Ht Hl IH]; intros w Hw; cbn [map] in *; [cbn; lia|].
    apply catL_inv in Hw as (u & v & -> & Hu & Hv). cbn in HL, HU. rewrite bytes_app. change (list_sum (min_bytes t :: map min_bytes l)) with (min_bytes t + list_sum (map min_bytes l)).
    assert (X := Ht (proj1 HL) (proj1 HU) u Hu). assert (Y := IH (proj2 HL) (proj2 HU) v Hv). lia.
  - eapply powL_ge; eauto.
Qed.
(** ** Matches of a pattern *)
Section Match.
  Variable T : list N.
  Variable e : ere.
  Hypothesis HT : Forall scalar T.
  Hypothesis He : ere_atoms atom_ok e.
  Lemma match_bytes i j L : matches T e i j L -> exists w, tlang acheck (tree_of e) w /\ byte_pos T i + bytes w = byte_pos T j.
  Proof using HT. intros H. destruct (matches_word T HT e i j L H) as (w & Hw & Hr & _). exists w. split; [assumption|]. now apply (reads_pos T) in Hr. Qed.
  Lemma tree_ok_labels : tree_labels atom_ok (fun _ => True) (tree_of e).
  Proof using He. eapply tree_labels_mono; [|apply tree_of_labels; exact He]. auto. Qed.
  Lemma max_bytes_match i j L n : max_bytes (tree_of e) = Some n -> matches T e i j L -> byte_pos T j <= byte_pos T i + n.
  Proof using HT He. intros Hn Hm. destruct (match_bytes _ _ _ Hm) as (w & Hw & <-). assert (X := max_bytes_spec _ tree_ok_labels _ _ Hn Hw). lia. Qed.
  Lemma min_bytes_match i j L : no_upto (tree_of e) -> matches T e i j L -> byte_pos T i + min_bytes (tree_of e) <= byte_pos T j.
  Proof using HT He. intros Hn Hm. destruct (match_bytes _ _ _ Hm) as (w & Hw & <-). assert (X := min_bytes_spec _ tree_ok_labels Hn _ Hw). lia. Qed.
End Match.
Lemma exact_no_upto :
  (forall p g, exact_part p -> no_upto (part_tree p g)) /\ (forall e g, exact_expr e -> no_upto (expr_tree e g)) /\
  (forall b g, exact_branch b -> fold_right (fun t Q => no_upto t /\ Q) True (branch_trees b g)) /\
  (forall e g, exact e -> fold_right (fun t Q => no_upto t /\ Q) True (ere_trees e g)).
Proof.
  assert (HC : forall a b, no_upto a -> no_upto b -> no_upto (t_concat a b)).
  { intros a b Ha Hb. destruct a; cbn in *; auto. induction l as [|x l IH]; cbn in *; tauto. }
  assert (HR : forall a n, no_upto a -> no_upto (t_repeat a n)) by (intros a [|n] Ha; cbn; auto).
  apply syntax_ind.
  - intros e IH g H. now apply IH.
  - intros e q IH g [Hq H]. rewrite part_tree_quant. apply IH with (g := g) in H. unfold quant_tree. destruct (q_type q) as [ | | |n|n [m|]]; cbn [exact_quant] in Hq.
    + exact H.
    + apply HC; [exact H|exact H].
    + destruct Hq.
    + auto.
    + destruct (N.ltb_spec m n); [exact I|]. destruct (N.eqb_spec m n); [auto|lia].
    + apply HC; [auto|exact H].
  - intros; exact I.
  - intros; exact I.
  - intros; exact I.
  - intros bs IH g H. rewrite expr_tree_sub. cbn. apply IH. exact H.
  - intros; exact I.
  - intros p b IHp IHb g [H1 H2]. rewrite branch_trees_cons. cbn. auto.
  - intros; exact I.
  - intros b e IHb IHe g [H1 H2]. rewrite ere_trees_cons. cbn. split; [apply IHb; exact H1|auto].
Qed.
Lemma tree_exact e : exact e -> no_upto (tree_of e).
Proof. intros H. rewrite tree_of_eq. cbn. now apply exact_no_upto. Qed.

(** ** Texts without characters of the pattern *)
Lemma foreign_empty T (P : atom -> Prop) : (forall a c, P a -> In c T -> ~ atom_has a c) ->
  (forall p g i j L, m_part T p g i j L -> (forall a, In a (atoms_part p) -> P a) -> i = j) /\
  (forall e n g i j L, m_iter T e n g i j L -> (forall a, In a (atoms_expr e) -> P a) -> i = j) /\
  (forall e g i j L, m_expr T e g i j L -> (forall a, In a (atoms_expr e) -> P a) -> i = j) /\
  (forall e g i j L, m_alts T e g i j L -> (forall a, In a (atoms e) -> P a) -> i = j) /\
  (forall b g i j L, m_branch T b g i j L -> (forall a, In a (atoms_branch b) -> P a) -> i = j).
Proof.
  intros HP. apply match_ind; intros; auto.
  - transitivity j; auto.
  - exfalso. eapply HP; [apply H; now left| |exact a0]. eapply nth_error_In; eauto.
  - apply H. intros a Ha. apply H0. apply in_or_app. now left.
  - apply H. intros a Ha. apply H0. apply in_or_app. now right.
  - transitivity j; [apply H|apply H0]; intros a Ha; apply H1; apply in_or_app; auto.
Qed.
Lemma foreign_match T e i j L : (forall a c, In a (atoms e) -> In c T -> ~ atom_has a c) -> matches T e i j L -> i = j.
Proof. intros H (L' & Hm & _). eapply (proj1 (proj2 (proj2 (proj2 (foreign_empty T (fun a => In a (atoms e)) H))))); eauto. Qed.
