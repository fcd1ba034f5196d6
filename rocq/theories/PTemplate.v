(** Patterns of a fixed width. *)
From Coq Require Import String.
From Verif Require Import PFields PClassRun PToken PStrip PAll PCompile PAnchored PCount PLazyAll PRoom PLiteral PropPriority PropCount PFixedAll SpecGroups SpecLaws SpecPriority SpecLiteral SpecCaret SpecFixed SpecTemplate.
From Coq Require Import ZifyBool ZifyNat ZifyN.
Open Scope nat_scope.
Open Scope list_scope.
Notation length := List.length.

(** ** Lists *)
Lemma in_mix {A} (X Y : list (list A)) z : In z (mix X Y) <-> exists x y, In x X /\ In y Y /\ z = x ++ y.
Proof.
  unfold mix. rewrite in_flat_map. split.
  - intros (x & Hx & H). apply in_map_iff in H as (y & <- & Hy). eauto.
  - intros (x & y & Hx & Hy & ->). exists x. split; [assumption|]. now apply in_map.
Qed.
Lemma moved_length d P : length (moved d P) = length P.
Proof. unfold moved. apply map_length. Qed.
Lemma moved_app d P Q : moved d (P ++ Q) = moved d P ++ moved d Q.
Proof. unfold moved. apply map_app. Qed.
Lemma moved_moved d d' P : moved d (moved d' P) = moved (d + d') P.
Proof. unfold moved. rewrite map_map. apply map_ext. intros [[x y]|]; cbn; [|reflexivity]. do 2 f_equal; lia. Qed.
Lemma moved_none d n : moved d (repeat None n) = repeat None n.
Proof. induction n as [|n IH]; [reflexivity|]. change (None :: moved d (repeat None n) = None :: repeat None n). now rewrite IH. Qed.
Lemma nth_moved d P k : nth k (moved d P) None = option_map (fun s => (d + fst s, d + snd s)) (nth k P None).
Proof. exact (map_nth (option_map (fun s => (d + fst s, d + snd s))) P None k). Qed.
Lemma nth_none n k : nth k (repeat (@None (nat * nat)) n) None = None.
Proof. revert k. induction n as [|n IH]; intros [|k]; cbn; auto. Qed.

(** ** A string of atoms at a place *)
Section At.
  Variable T : list N.
  Fixpoint fit (i : nat) (sh : list atom) : Prop :=
    match sh with [] => i <= length T | a :: r => (exists c, nth_error T i = Some c /\ atom_has a c) /\ fit (S i) r end.
  Lemma fit_len sh : forall i, fit i sh -> i + length sh <= length T.
  Proof. induction sh as [|a sh IH]; intros i; cbn; [lia|]. intros (_ & H). apply IH in H. lia. Qed.
  Lemma fit_app x y : forall i, fit i (x ++ y) <-> fit i x /\ fit (i + length x) y.
  Proof.
    induction x as [|a x IH]; intros i; cbn.
    - rewrite Nat.add_0_r. split; [|tauto]. intros H. split; [apply fit_len in H; lia|assumption].
    - rewrite IH. replace (i + S (length x)) with (S i + length x) by lia. tauto.
  Qed.
  Lemma fit_window sh : forall i, fit i sh <-> exists U R V, T = U ++ R ++ V /\ length U = i /\ Forall2 atom_has sh R.
  Proof.
    induction sh as [|a sh IH]; intros i; cbn.
    - split; [intros H; exists (firstn i T), [], (skipn i T); cbn; rewrite firstn_skipn, firstn_length; split; [reflexivity|split; [lia|constructor]]|].
      intros (U & R & V & E & <- & _). rewrite E, app_length. lia.
    - rewrite IH. split.
      + intros ((c & Hc & Ha) & U & R & V & E & HU & HF). exists (firstn i T), (c :: R), V. clear IH. apply nth_error_split in Hc as (A & B & E' & HA). rewrite E' in E |- *.
        assert (EU : U = A ++ [c]).
        { transitivity (firstn (S i) (A ++ c :: B)); [rewrite E, <- HU, firstn_app, Nat.sub_diag, firstn_all; cbn; now rewrite app_nil_r|]. rewrite firstn_app, firstn_all2 by lia. now replace (S i - length A) with 1 by lia. }
        subst U. rewrite <- app_assoc in E. split; [|split; [rewrite firstn_length, app_length; lia|now constructor]]. rewrite E at 1. cbn. f_equal. rewrite <- HA. rewrite firstn_app, Nat.sub_diag, firstn_all, app_nil_r. reflexivity.
      + intros (U & R & V & E & <- & HF). inversion HF as [|? c ? R' Ha HF']; subst R. split.
        * exists c. split; [|assumption]. rewrite E, nth_error_app2 by lia. now rewrite Nat.sub_diag.
        * exists (U ++ [c]), R', V. rewrite <- app_assoc. split; [exact E|]. split; [rewrite app_length; cbn; lia|assumption].
  Qed.
End At.

(** ** Where the groups are *)
Definition agrees (L : log) (g : nat) (P : list (option (nat * nat))) : Prop := forall m, last_of m L = if g <=? m then nth (m - g) P None else None.
Lemma agrees_nil g : agrees [] g [].
Proof. intros m. cbn. destruct (g <=? m), (m - g); reflexivity. Qed.
Lemma agrees_none g n : agrees [] g (repeat None n).
Proof. intros m. cbn. rewrite nth_none. now destruct (g <=? m). Qed.
Lemma last_of_split k L1 L2 : last_of k (L1 ++ L2) = match last_of k L2 with Some x => Some x | None => last_of k L1 end.
Proof. induction L1 as [|[g s] L1 IH]; cbn; [destruct (last_of k L2); reflexivity|]. rewrite IH. destruct (last_of k L2); reflexivity. Qed.
Lemma agrees_app L1 L2 g P Q : agrees L1 g P -> agrees L2 (g + length P) Q -> agrees (L1 ++ L2) g (P ++ Q).
Proof.
  intros H1 H2 m. rewrite last_of_split, H1, H2. destruct (g + length P <=? m) eqn:E.
  - replace (g <=? m) with true by lia. rewrite app_nth2 by lia. replace (m - g - length P) with (m - (g + length P)) by lia. rewrite (nth_overflow P) by lia. now destruct (nth _ Q None).
  - destruct (g <=? m) eqn:E'; [|reflexivity]. now rewrite app_nth1 by lia.
Qed.
Lemma agrees_again L1 L2 g d d' P : agrees L1 g (moved d P) -> agrees L2 g (moved d' P) -> agrees (L1 ++ L2) g (moved d' P).
Proof.
  intros H1 H2 m. rewrite last_of_split, H1, H2. destruct (g <=? m); [|reflexivity]. rewrite !nth_moved. now destruct (nth (m - g) P None).
Qed.
Lemma agrees_group L g i j P : agrees L (S g) (moved i P) -> agrees (L ++ [(g, (i, j))]) g (moved i (Some (0, j - i) :: P)) \/ j < i.
Proof.
  intros H. destruct (j <? i) eqn:Ej; [right; lia|left]. intros m. rewrite last_of_split, H. cbn [last_of]. destruct (g =? m) eqn:E.
  - replace (g <=? m) with true by lia. replace (m - g) with 0 by lia. cbn. do 2 f_equal; lia.
  - destruct (S g <=? m) eqn:E'; [|replace (g <=? m) with false by lia; reflexivity]. replace (g <=? m) with true by lia. replace (m - g) with (S (m - S g)) by lia. reflexivity.
Qed.

(** ** The number of places *)
Lemma places_length : (forall p, length (places_part p) = groups_part p) /\ (forall e, length (places_expr e) = groups_expr e) /\
  (forall b, length (places_branch b) = groups_branch b) /\ (forall e : ere, length (flat_map places_branch e) = list_sum (map groups_branch e)).
Proof.
  apply syntax_ind.
  - intros e H. exact H.
  - intros e q H. cbn. destruct (exactly (q_type q)) as [[|n]|]; [apply repeat_length|rewrite moved_length; exact H|apply repeat_length].
  - reflexivity.
  - reflexivity.
  - reflexivity.
  - intros bs H. change (S (length (flat_map places_branch bs)) = S (list_sum (map groups_branch bs))). now rewrite H.
  - reflexivity.
  - intros p b H1 H2. change (places_branch (p :: b)) with (places_part p ++ moved (width_part p) (places_branch b)). rewrite app_length, moved_length, H1, H2. reflexivity.
  - reflexivity.
  - intros b e H1 H2. cbn. now rewrite app_length, H1, H2.
Qed.
Lemma power_length {A} (X : list (list A)) w n : (forall x, In x X -> length x = w) -> forall z, In z (power n X) -> length z = n * w.
Proof.
  intros H. induction n as [|n IH]; intros z Hz; [destruct Hz as [<-|[]]; reflexivity|]. apply in_mix in Hz as (x & y & Hx & Hy & ->). rewrite app_length, (H x Hx), (IH y Hy). lia.
Qed.
Lemma sub_steady bs : steady_expr (XSub bs) = true -> (forall b, In b bs -> steady_branch b = true /\ width_branch b = width_expr (XSub bs)) /\ bs <> [] /\ ((exists b, bs = [b]) \/ forall b, In b bs -> groups_branch b = 0).
Proof.
  intros H. cbn [steady_expr] in H. apply andb_true_iff in H as [H1 H2]. rewrite forallb_forall in H2. destruct bs as [|b [|b' r]].
  - discriminate H1.
  - split; [|split; [discriminate|left; eauto]]. intros x [<-|[]]. split; [now apply H2; left|reflexivity].
  - rewrite forallb_forall in H1. split; [|split; [discriminate|right]].
    + intros x Hx. split; [now apply H2|]. specialize (H1 x Hx). cbv beta in H1. apply andb_true_iff in H1 as [_ H1]. now apply Nat.eqb_eq in H1.
    + intros x Hx. specialize (H1 x Hx). cbv beta in H1. apply andb_true_iff in H1 as [H1 _]. now apply Nat.eqb_eq in H1.
Qed.
Lemma shape_width : (forall p, steady_part p = true -> forall sh, In sh (shapes_part p) -> length sh = width_part p) /\
  (forall e, steady_expr e = true -> forall sh, In sh (shapes_expr e) -> length sh = width_expr e) /\
  (forall b, steady_branch b = true -> forall sh, In sh (shapes_branch b) -> length sh = width_branch b) /\
  (forall e : ere, Forall (fun b => steady_branch b = true -> forall sh, In sh (shapes_branch b) -> length sh = width_branch b) e).
Proof.
  apply syntax_ind.
  - intros e H. exact H.
  - intros e q H Hs sh Hsh. cbn in Hs, Hsh |- *. destruct (exactly (q_type q)) as [n|]; [|discriminate]. apply (power_length (shapes_expr e)); auto.
  - discriminate.
  - discriminate.
  - intros a _ sh [<-|[]]. reflexivity.
  - intros bs H Hs sh Hsh. destruct (sub_steady bs Hs) as (H1 & _ & _). cbn in Hsh. apply in_flat_map in Hsh as (b & Hb & Hsh). rewrite Forall_forall in H. destruct (H1 b Hb) as [H2 <-]. now apply H.
  - intros _ sh [<-|[]]. reflexivity.
  - intros p b H1 H2 Hs sh Hsh. cbn in Hs. apply andb_true_iff in Hs as [Hs1 Hs2]. change (In sh (mix (shapes_part p) (shapes_branch b))) in Hsh. apply in_mix in Hsh as (x & y & Hx & Hy & ->). rewrite app_length, (H1 Hs1 x Hx), (H2 Hs2 y Hy). reflexivity.
  - constructor.
  - intros b e H1 H2. now constructor.
Qed.
Lemma exactly_allows q n m : exactly q = Some n -> quant_allows q m <-> m = n.
Proof.
  destruct q as [| | |k|k [k'|]]; cbn; try discriminate.
  - intros E. injection E as <-. lia.
  - destruct (k =? k')%N eqn:Ek; [|discriminate]. intros E. injection E as <-. lia.
Qed.

(** ** What they match *)
Section Match.
  Variable T : list N.
  Definition says (X : list (list atom)) (P : list (option (nat * nat))) (M : nat -> nat -> nat -> log -> Prop) : Prop :=
    (forall g i j L, M g i j L -> exists sh, In sh X /\ fit T i sh /\ j = i + length sh /\ agrees L g (moved i P)) /\
    forall g i sh, In sh X -> fit T i sh -> exists L, M g i (i + length sh) L.
  Lemma alts_one bs : forall g i j L, m_alts T bs g i j L -> exists b g', In b bs /\ m_branch T b g' i j L /\ (bs = [b] -> g' = g).
  Proof.
    induction bs as [|b bs IH]; intros g i j L H; inversion H as [b0 bs0 g0 i0 j0 L0 Hb|b0 bs0 g0 i0 j0 L0 Hb]; subst.
    - exists b, g. split; [now left|]. auto.
    - destruct (IH _ _ _ _ Hb) as (x & g' & Hx & Hm & _). exists x, g'. split; [now right|]. split; [assumption|]. intros E. injection E as -> ->. destruct Hx.
  Qed.
  Lemma alts_in bs b i j : In b bs -> forall g, (forall g, exists L, m_branch T b g i j L) -> exists L, m_alts T bs g i j L.
  Proof.
    induction bs as [|x bs IH]; intros Hb g H; [destruct Hb|]. destruct Hb as [->|Hb].
    - destruct (H g) as (L & HL). exists L. now apply ma_here.
    - destruct (IH Hb (g + groups_branch x) H) as (L & HL). exists L. now apply ma_later.
  Qed.
  Lemma iter_says e : steady_expr e = true -> says (shapes_expr e) (places_expr e) (m_expr T e) -> forall n,
    says (power n (shapes_expr e)) (match n with 0 => repeat None (groups_expr e) | S n' => moved (n' * width_expr e) (places_expr e) end) (m_iter T e n).
  Proof.
    intros Hs [H1 H2] n. induction n as [|n [I1 I2]]; split.
    - intros g i j L H. inversion H; subst. exists []. split; [now left|]. split; [assumption|]. split; [cbn; lia|]. rewrite moved_none. apply agrees_none.
    - intros g i sh [<-|[]] Hf. exists []. cbn. rewrite Nat.add_0_r. now constructor.
    - intros g i j L H. inversion H as [|e0 n0 g0 i0 k j0 L1 L2 Ha Hb]; subst. apply H1 in Ha as (x & Hx & Fx & -> & A1). assert (Hb' := Hb). apply I1 in Hb as (y & Hy & Fy & -> & A2).
      assert (Wx : length x = width_expr e) by (now apply (proj1 (proj2 shape_width))).
      exists (x ++ y). split; [apply in_mix; eauto|]. split; [now apply fit_app|]. split; [rewrite app_length; lia|]. destruct n as [|n].
      + cbn [power] in Hy. destruct Hy as [<-|[]]. inversion Hb'; subst. rewrite app_nil_r. cbn [Nat.mul]. rewrite moved_moved, Nat.add_0_r. assumption.
      + rewrite moved_moved in A2 |- *. replace (i + S n * width_expr e) with (i + length x + n * width_expr e) by (rewrite Wx; lia). now apply agrees_again with i.
    - intros g i sh Hsh Hf. cbn [power] in Hsh. apply in_mix in Hsh as (x & y & Hx & Hy & ->). apply fit_app in Hf as [Fx Fy]. destruct (H2 g i x Hx Fx) as (L1 & M1). destruct (I2 g _ y Hy Fy) as (L2 & M2).
      exists (L1 ++ L2). rewrite app_length, Nat.add_assoc. now apply mi_more with (i + length x).
  Qed.
  Lemma steady_match : (forall p, steady_part p = true -> says (shapes_part p) (places_part p) (m_part T p)) /\
    (forall e, steady_expr e = true -> says (shapes_expr e) (places_expr e) (m_expr T e)) /\
    (forall b, steady_branch b = true -> says (shapes_branch b) (places_branch b) (m_branch T b)) /\
    (forall e : ere, Forall (fun b => steady_branch b = true -> says (shapes_branch b) (places_branch b) (m_branch T b)) e).
  Proof.
    apply syntax_ind.
    - intros e H Hs. destruct (H Hs) as [H1 H2]. split.
      + intros g i j L Hm. inversion Hm; subst. eauto.
      + intros g i sh Hsh Hf. destruct (H2 g i sh Hsh Hf) as (L & HL). exists L. now constructor.
    - intros e q H Hs. cbn in Hs. unfold shapes_part, places_part. fold shapes_expr places_expr. destruct (exactly (q_type q)) as [n|] eqn:En; [|discriminate]. destruct (iter_says e Hs (H Hs) n) as [H1 H2]. split.
      + intros g i j L Hm. inversion Hm as [|e0 q0 m g0 i0 j0 L0 Hq Hi| |]; subst. apply (exactly_allows _ n m En) in Hq as ->. exact (H1 g i j L Hi).
      + intros g i sh Hsh Hf. destruct (H2 g i sh Hsh Hf) as (L & HL). exists L. apply mp_quant with n; [|assumption]. now apply (exactly_allows _ n n En).
    - discriminate.
    - discriminate.
    - intros a _. split.
      + intros g i j L Hm. inversion Hm as [a0 g0 i0 c Hc Ha|]; subst. exists [a]. split; [now left|]. split; [|split; [cbn; lia|apply agrees_nil]]. cbn. split; [eauto|]. apply Nat.le_succ_l, nth_error_Some. congruence.
      + intros g i sh [<-|[]] ((c & Hc & Ha) & _). exists []. cbn. rewrite Nat.add_1_r. now apply me_atom with c.
    - intros bs H Hs. destruct (sub_steady bs Hs) as (S1 & S2 & S3). rewrite Forall_forall in H. split.
      + intros g i j L Hm. inversion Hm as [|bs0 g0 i0 j0 L0 Ha]; subst. destruct (alts_one bs _ _ _ _ Ha) as (b & g' & Hb & Hm' & Hg). destruct (S1 b Hb) as [Sb Wb]. destruct (H b Hb Sb) as [B1 _].
        destruct (B1 _ _ _ _ Hm') as (sh & Hsh & Hf & -> & Hag). assert (Wsh : length sh = width_expr (XSub bs)) by (rewrite <- Wb; now apply (proj1 (proj2 (proj2 shape_width)))).
        exists sh. split; [cbn; apply in_flat_map; eauto|]. split; [assumption|]. split; [reflexivity|].
        change (places_expr (XSub bs)) with (Some (0, width_expr (XSub bs)) :: flat_map places_branch bs).
        assert (A : agrees L0 (S g) (moved i (flat_map places_branch bs))).
        { destruct S3 as [(x & ->)|S3].
          - destruct Hb as [->|[]]. rewrite (Hg eq_refl) in Hag. cbn. now rewrite app_nil_r.
          - assert (E : forall x, In x bs -> places_branch x = []) by (intros x Hx; apply length_zero_iff_nil; rewrite (proj1 (proj2 (proj2 places_length))); auto).
            replace (flat_map places_branch bs) with (@nil (option (nat * nat))) by (clear - E; induction bs as [|x bs IH]; [reflexivity|]; cbn; rewrite (E x) by (now left); apply IH; intros; apply E; now right).
            rewrite (E b Hb) in Hag. intros m. specialize (Hag m). rewrite Hag. assert (X : forall (c : bool) k, (if c then nth k (moved i []) None else None) = None) by (intros [] []; reflexivity). now rewrite !X. }
        apply (agrees_group _ g i (i + length sh)) in A as [A|A]; [|lia]. now replace (i + length sh - i) with (width_expr (XSub bs)) in A by lia.
      + intros g i sh Hsh Hf. cbn in Hsh. apply in_flat_map in Hsh as (b & Hb & Hsh). destruct (S1 b Hb) as [Sb _]. destruct (H b Hb Sb) as [_ B2].
        destruct (alts_in bs b i (i + length sh) Hb (S g)) as (L & HL); [intros g'; now apply B2|]. eexists. apply me_group, HL.
    - intros _. split.
      + intros g i j L Hm. inversion Hm; subst. exists []. split; [now left|]. split; [assumption|]. split; [cbn; lia|apply agrees_nil].
      + intros g i sh [<-|[]] Hf. exists []. cbn. rewrite Nat.add_0_r. now constructor.
    - intros p b H1 H2 Hs. cbn in Hs. apply andb_true_iff in Hs as [Hs1 Hs2]. destruct (H1 Hs1) as [P1 P2]. destruct (H2 Hs2) as [B1 B2].
      change (shapes_branch (p :: b)) with (mix (shapes_part p) (shapes_branch b)). change (places_branch (p :: b)) with (places_part p ++ moved (width_part p) (places_branch b)). split.
      + intros g i j L Hm. inversion Hm as [|p0 b0 g0 i0 k j0 L1 L2 Ma Mb]; subst. apply P1 in Ma as (x & Hx & Fx & -> & A1). apply B1 in Mb as (y & Hy & Fy & -> & A2).
        assert (Wx : length x = width_part p) by (now apply (proj1 shape_width)). exists (x ++ y). split; [apply in_mix; eauto|]. split; [now apply fit_app|]. split; [rewrite app_length; lia|].
        rewrite moved_app, moved_moved, <- Wx. apply agrees_app; [assumption|]. now rewrite moved_length, (proj1 places_length).
      + intros g i sh Hsh Hf. apply in_mix in Hsh as (x & y & Hx & Hy & ->). apply fit_app in Hf as [Fx Fy]. destruct (P2 g i x Hx Fx) as (L1 & M1). destruct (B2 (g + groups_part p) _ y Hy Fy) as (L2 & M2).
        exists (L1 ++ L2). rewrite app_length, Nat.add_assoc. now apply mb_cons with (i + length x).
    - constructor.
    - intros b e H1 H2. now constructor.
  Qed.
End Match.

(** ** With the anchors *)
Lemma template_match T a z b i j L : steady_branch b = true -> matches T (template a z b) i j L <->
  exists L', m_branch T b 1 i j L' /\ L = L' ++ [(0, (i, j))] /\ (a = true -> i = 0) /\ (z = true -> j = length T).
Proof.
  intros Hb. assert (E : forall g i j L, m_branch T (b ++ (if z then [PEnd] else [])) g i j L <-> m_branch T b g i j L /\ (z = true -> j = length T)).
  { clear Hb. induction b as [|p b IH]; intros g i' j' L'.
    - cbn [app]. destruct z.
      + rewrite (end_match T true). split.
        * intros (-> & H1 & H2 & ->). specialize (H2 eq_refl). split; [constructor; lia|auto].
        * intros [H1 H2]. inversion H1; subst. auto.
      + split; [intros H; split; [exact H|discriminate]|tauto].
    - cbn [app]. split.
      + intros H. inversion H as [|p0 b0 g0 i0 k j0 L1 L2 M1 M2]; subst. apply IH in M2 as [M2 M3]. split; [|assumption]. now apply mb_cons with k.
      + intros [H M3]. inversion H as [|p0 b0 g0 i0 k j0 L1 L2 M1 M2]; subst. apply mb_cons with k; [assumption|]. now apply IH. }
  unfold matches, template. split.
  - intros (L' & H & ->). inversion H as [b1 bs g0 i0 j0 L0 Hm|b1 bs g0 i0 j0 L0 Hm]; subst; [|inversion Hm]. destruct a; cbn [app] in Hm.
    + inversion Hm as [|p0 b0 g1 i1 k j1 L1 L2 M1 M2]; subst. inversion M1; subst. cbn [groups_part] in M2. rewrite Nat.add_0_r in M2. apply E in M2 as [M2 M3]. exists L2. auto.
    + apply E in Hm as [M2 M3]. exists L'. split; [assumption|]. split; [reflexivity|]. split; [discriminate|assumption].
  - intros (L' & H & -> & Ha & Hz). exists L'. split; [|reflexivity]. apply ma_here. destruct a; cbn [app]; [|now apply E]. rewrite (Ha eq_refl) in *. change L' with ([] ++ L'). apply mb_cons with 0; [constructor|]. cbn [groups_part]. rewrite Nat.add_0_r. now apply E.
Qed.
Lemma Forall2_len {A B} (P : A -> B -> Prop) l l' : Forall2 P l l' -> length l = length l'.
Proof. induction 1; cbn; congruence. Qed.
Lemma template_at T a z b i j L : steady_branch b = true -> matches T (template a z b) i j L ->
  (exists U R, fits_at a z b T U R /\ length U = i /\ length R = width_branch b) /\ j = i + width_branch b /\ forall k, last_of k L = nth k (moved i (all_places b)) None.
Proof.
  intros Hb H. apply template_match in H as (L' & Hm & -> & Ha & Hz); [|assumption]. destruct (proj1 (proj2 (proj2 (steady_match T))) b Hb) as [M _]. destruct (M _ _ _ _ Hm) as (sh & Hsh & Hf & Hj & Hag).
  assert (W := proj1 (proj2 (proj2 shape_width)) b Hb sh Hsh). split; [|split; [lia|]].
  - apply fit_window in Hf as (U & R & V & E & HU & HF). exists U, R. assert (HR := Forall2_len _ _ _ HF). split; [|split; [assumption|lia]]. split; [|exists sh; auto]. exists V. split; [assumption|].
    split; [intros Ea; apply length_zero_iff_nil; rewrite HU; auto|]. intros Ez. apply length_zero_iff_nil. specialize (Hz Ez). rewrite E, !app_length in Hz. lia.
  - intros k. rewrite last_of_split, Hag. cbn [last_of]. destruct k as [|k].
    + cbn. do 2 f_equal; lia.
    + cbn [Nat.eqb Nat.leb]. replace (S k - 1) with k by lia. reflexivity.
Qed.
Lemma template_fits T a z b U R : steady_branch b = true -> fits_at a z b T U R -> exists L, matches T (template a z b) (length U) (length U + length R) L.
Proof.
  intros Hb ((V & E & Ha & Hz) & sh & Hsh & HF). destruct (proj1 (proj2 (proj2 (steady_match T))) b Hb) as [_ M].
  destruct (M 1 (length U) sh Hsh) as (L & HL); [apply fit_window; exists U, R, V; auto|]. assert (HR := Forall2_len _ _ _ HF). rewrite HR in HL. eexists. apply template_match; [assumption|]. exists L. split; [exact HL|]. split; [reflexivity|].
  split; [intros Ea; now rewrite (Ha Ea)|]. intros Ez. rewrite E, (Hz Ez), !app_length. cbn. lia.
Qed.
Lemma total_zero (f : part -> option nat) b c : (forall p, In p b -> f p = Some 0) -> SpecCaret.total (map f (b ++ c)) = SpecCaret.total (map f c).
Proof. induction b as [|p b IH]; intros H; [reflexivity|]. cbn [app map]. rewrite (H p) by (now left). rewrite total_skip. apply IH. intros; apply H. now right. Qed.
Lemma common_zero l : (forall x, In x l -> x = Some 0) -> common l = Some 0.
Proof.
  intros H. destruct l as [|x l]; [reflexivity|]. cbn. rewrite (H x) by (now left). replace (forallb (opt_eqb (Some 0)) l) with true; [reflexivity|]. symmetry. apply forallb_forall. intros y Hy. rewrite (H y) by (now right). reflexivity.
Qed.
Lemma steady_free : (forall p, steady_part p = true -> carets_part p = Some 0 /\ dollars_part p = Some 0 /\ loops_part p = true) /\ (forall e, steady_expr e = true -> carets_expr e = Some 0 /\ dollars_expr e = Some 0 /\ loops_expr e = true) /\
  (forall b, steady_branch b = true -> forall p, In p b -> carets_part p = Some 0 /\ dollars_part p = Some 0 /\ loops_part p = true) /\
  (forall e : ere, Forall (fun b => steady_branch b = true -> forall p, In p b -> carets_part p = Some 0 /\ dollars_part p = Some 0 /\ loops_part p = true) e).
Proof.
  apply syntax_ind.
  - intros e H. exact H.
  - intros e q H Hs. cbn in Hs |- *. destruct (exactly (q_type q)) as [n|] eqn:En; [|discriminate]. destruct (H Hs) as (-> & -> & ->). split; [reflexivity|]. split; [reflexivity|]. destruct (q_type q) as [| | |k|k [k'|]]; reflexivity || discriminate En.
  - discriminate.
  - discriminate.
  - auto.
  - intros bs H Hs. destruct (sub_steady bs Hs) as (S1 & _ & _). rewrite Forall_forall in H. assert (K : forall b, In b bs -> forall p, In p b -> carets_part p = Some 0 /\ dollars_part p = Some 0 /\ loops_part p = true) by (intros b Hb; apply H; [assumption|now apply S1]). split; [|split].
    + cbn. apply common_zero. intros x Hx. apply in_map_iff in Hx as (b & <- & Hb). rewrite <- (app_nil_r b). rewrite total_zero; [reflexivity|]. intros p Hp. now apply (K b).
    + cbn. apply common_zero. intros x Hx. apply in_map_iff in Hx as (b & <- & Hb). rewrite <- (app_nil_r b). rewrite total_zero; [reflexivity|]. intros p Hp. now apply (K b).
    + cbn. apply forallb_forall. intros b Hb. apply forallb_forall. intros p Hp. now apply (K b).
  - intros _ p [].
  - intros p b H1 H2 Hs x [<-|Hx]; cbn in Hs; apply andb_true_iff in Hs as [Hs1 Hs2]; auto.
  - constructor.
  - intros b e H1 H2. now constructor.
Qed.
Lemma template_carets a z b : steady_branch b = true -> carets (template a z b) = Some (if a then 1 else 0).
Proof.
  intros Hb. assert (K := proj1 (proj2 (proj2 steady_free)) b Hb). unfold carets, template. cbn [map common forallb]. unfold carets_branch. rewrite map_app. destruct a; cbn [map app carets_part]; rewrite ?total_cons, total_zero by (intros p Hp; now apply K); now destruct z.
Qed.
Lemma template_dollars a z b : steady_branch b = true -> dollars (template a z b) = Some (if z then 1 else 0).
Proof.
  intros Hb. assert (K := proj1 (proj2 (proj2 steady_free)) b Hb). unfold dollars, template. cbn [map common forallb]. unfold dollars_branch. rewrite map_app. destruct a; cbn [map app dollars_part]; rewrite ?total_skip, total_zero by (intros p Hp; now apply K); now destruct z.
Qed.
Lemma template_loops a z b : steady_branch b = true -> loops_read (template a z b) = true.
Proof.
  intros Hb. assert (K := proj1 (proj2 (proj2 steady_free)) b Hb). unfold loops_read, template. cbn [forallb]. rewrite andb_true_r, !forallb_app. assert (X : forallb loops_part b = true) by (apply forallb_forall; intros p Hp; now apply K). rewrite X. now destruct a, z.
Qed.
Lemma template_groups a z b : groups (template a z b) = groups_branch b.
Proof. unfold groups, template. cbn [map]. unfold groups_branch. rewrite !map_app, !list_sum_app. destruct a, z; cbn; lia. Qed.

(** ** What they find *)
Theorem template_finds a z b s en T : compiled s en -> Forall scalar s -> G_ere (template a z b) s -> steady_branch b = true -> Forall scalar T ->
  exists o, engine_exec en T = Ok o /\ engine_test en T = Ok (match o with Some _ => true | None => false end) /\
    match o with
    | Some cs => exists U R, fits_at a z b T U R /\ (forall U' R', fits_at a z b T U' R' -> length U <= length U') /\
        length cs <= S (groups_branch b) /\ forall k, nth k cs None = nth k (in_bytes T (moved (length U) (all_places b))) None
    | None => forall U R, ~ fits_at a z b T U R
    end.
Proof.
  intros H Hs Hg Hb HT. assert (Hc : caret_ok (template a z b) = true) by (unfold caret_ok; now rewrite template_carets).
  destruct (compiled_unique _ en _ H Hs Hg) as (G1 & R & _). specialize (R (or_intror Hc)).
  destruct (right_test _ en R T HT) as (x & Eb & Hx). destruct (right_exec _ en R T HT) as (o & Eo & Ho). exists o. split; [assumption|]. destruct o as [cs|].
  - destruct (compiled_first _ _ en T cs H Hs HT Hg (or_intror Hc) Eo) as (i & j & L & Hm & Ec & E0 & Hf). rewrite Eb. split; [f_equal; apply Hx; now exists i, j, L|].
    destruct (exec_room _ _ en T cs H Hs HT Hg (or_intror Hc) Eo) as (i' & j' & L' & Hm' & Ec' & Hr).
    destruct (template_at T a z b i j L Hb Hm) as ((U & R0 & HU & Ei & ER) & Ej & HL). destruct (template_at T a z b i' j' L' Hb Hm') as (_ & _ & HL').
    exists U, R0. split; [assumption|]. split; [intros U' R' H'; apply template_fits in H' as (L2 & H2); [|assumption]; apply Hf in H2; lia|].
    assert (Lc : length cs = engine_groups en) by (rewrite Ec; now rewrite map_length, seq_length).
    split; [destruct (C32_groups_partial _ en _ H Hs Hg) as [C _]; rewrite template_groups in C; lia|].
    assert (Same : forall k, k < length cs -> nth k cs None = capture T L k). { intros k Hk. rewrite Ec at 1. apply nth_error_nth. rewrite nth_error_map, nth_error_nth' with (d := 0) by (rewrite seq_length; lia). rewrite seq_nth by lia. reflexivity. }
    intros k. assert (Hc' : nth k (in_bytes T (moved (length U) (all_places b))) None = capture T L k).
    { unfold in_bytes. rewrite (map_nth (option_map (fun s : nat * nat => (byte_pos T (fst s), byte_pos T (snd s)))) _ None k), Ei, <- HL. unfold capture. now destruct (last_of k L) as [[]|]. }
    rewrite Hc'. destruct (Nat.ltb_spec k (length cs)) as [Hk|Hk]; [now apply Same|]. rewrite nth_overflow by assumption. unfold capture.
    assert (N : last_of k L' = None) by (destruct (last_of k L') eqn:El; [|reflexivity]; exfalso; assert (k < engine_groups en) by (apply Hr; congruence); lia).
    rewrite HL' in N. rewrite nth_moved in N. rewrite HL, nth_moved. now destruct (nth k (all_places b) None).
  - rewrite Eb. split; [f_equal; destruct x; [exfalso; apply Ho; now apply Hx|reflexivity]|]. intros U R0 HU. apply Ho. apply template_fits in HU as (L & HL); [|assumption]. eexists _, _, _. exact HL.
Qed.
(** All groups are reported if none is repeated zero times. *)
Lemma places_used : (forall p, steady_part p = true -> used_part p -> Forall (fun x => x <> None) (places_part p)) /\ (forall e, steady_expr e = true -> used_expr e -> Forall (fun x => x <> None) (places_expr e)) /\
  (forall b, steady_branch b = true -> used_branch b -> Forall (fun x => x <> None) (places_branch b)) /\
  (forall e : ere, Forall (fun b => steady_branch b = true) e -> used e -> Forall (fun x => x <> None) (flat_map places_branch e)).
Proof.
  assert (M : forall d P, Forall (fun x => x <> None) P -> Forall (fun x : option (nat * nat) => x <> None) (moved d P)).
  { intros d P HP. unfold moved. apply Forall_forall. intros x Hx. apply in_map_iff in Hx as (y & <- & Hy). rewrite Forall_forall in HP. specialize (HP y Hy). now destruct y. }
  apply syntax_ind.
  - intros e H. exact H.
  - intros e q H Hs [(n & Hn & Hq) Hu]. cbn in Hs |- *. destruct (exactly (q_type q)) as [m|] eqn:En; [|discriminate]. apply (exactly_allows _ m n En) in Hq as ->. destruct m as [|m]; [lia|]. apply M. auto.
  - discriminate.
  - discriminate.
  - constructor.
  - intros bs H Hs Hu. destruct (sub_steady bs Hs) as (S1 & _ & _). constructor; [discriminate|]. apply H; [|exact Hu]. apply Forall_forall. intros b Hb. now apply S1.
  - constructor.
  - intros p b H1 H2 Hs [Hu1 Hu2]. cbn in Hs. apply andb_true_iff in Hs as [Hs1 Hs2]. change (Forall (fun x => x <> None) (places_part p ++ moved (width_part p) (places_branch b))). apply Forall_app. split; [auto|]. apply M. auto.
  - constructor.
  - intros b e H1 H2 Hs [Hu1 Hu2]. inversion Hs; subst. cbn. apply Forall_app. auto.
Qed.
Lemma used_full b d T cs : steady_branch b = true -> used_branch b -> length cs <= S (groups_branch b) -> (forall k, nth k cs None = nth k (in_bytes T (moved d (all_places b))) None) -> cs = in_bytes T (moved d (all_places b)).
Proof.
  intros Hb Hu Hl H. assert (Hp := proj1 (proj2 (proj2 places_used)) b Hb Hu). set (F := in_bytes T (moved d (all_places b))) in *.
  assert (LF : length F = S (groups_branch b)) by (unfold F, in_bytes, moved; rewrite !map_length; cbn; now rewrite (proj1 (proj2 (proj2 places_length)))).
  assert (NF : Forall (fun x => x <> None) F).
  { unfold F, in_bytes, moved. rewrite map_map. apply Forall_forall. intros x Hx. apply in_map_iff in Hx as (y & <- & Hy). destruct Hy as [<-|Hy]; [discriminate|]. rewrite Forall_forall in Hp. specialize (Hp y Hy). now destruct y. }
  assert (Lc : length cs = length F).
  { destruct (Nat.eq_dec (length cs) (length F)) as [|Hne]; [assumption|]. exfalso. rewrite Forall_forall in NF. apply (NF (nth (length cs) F None)); [apply nth_In; lia|]. rewrite <- H. now apply nth_overflow. }
  apply (nth_ext _ _ None None Lc). intros k _. apply H.
Qed.

(** ** They compile *)
Lemma template_atoms a z b x : In x (atoms (template a z b)) <-> In x (atoms_branch b).
Proof.
  unfold atoms, template. cbn [flat_map]. rewrite app_nil_r. unfold atoms_branch. rewrite !flat_map_app, !in_app_iff. destruct a, z; cbn; tauto.
Qed.
Lemma template_one z b : steady_branch b = true -> one_answer (template true z b).
Proof.
  intros Hb T i j L i' j' L' k HT H H'. assert (i = 0 /\ i' = 0) as [-> ->].
  { apply template_match in H as (? & _ & _ & Ha & _); [|assumption]. apply template_match in H' as (? & _ & _ & Ha' & _); [|assumption]. auto. }
  apply template_at in H as (_ & _ & H); [|assumption]. apply template_at in H' as (_ & _ & H'); [|assumption]. unfold capture. now rewrite H, H'.
Qed.
Theorem template_compiles a z b s R : Forall scalar s -> G_ere (template a z b) s -> steady_branch b = true -> Forall scalar R -> shaped b R ->
  (exists en, compile_flat_u8 s = Ok en) /\
  ((forall x, In x (atoms_branch b) -> named_well x) -> (exists en, compile_flat s = Ok en) /\ (a = false \/ 0 < width_branch b -> exists en, compile_regex s = Ok en)) /\
  (a = true -> z = true -> 0 < width_branch b -> (forall x, In x (atoms_branch b) -> ascii_atom x) -> exists en, compile_regex s = Ok en).
Proof.
  intros Hs Hg Hb HR Hsh. assert (Hp := Hg). apply parse_iff in Hp. assert (Ho : occurs (template a z b) R) by (destruct (template_fits R a z b [] R Hb) as (L & HL); [split; [exists []; rewrite app_nil_r; auto|assumption]|]; eexists _, _, _; exact HL).
  assert (Ne : a = true -> 0 < width_branch b -> ~ occurs (template a z b) []).
  { intros _ Hw (i & j & L & Hm). apply template_at in Hm as ((U & R0 & ((V & E & _) & _) & _ & ER) & _); [|assumption]. destruct U, R0; discriminate E || (cbn in ER; lia). }
  assert (On : a = true -> dollars (template a z b) = Some 0 \/ exists l, dollars (template a z b) = Some l /\ one_answer (template a z b)) by (intros ->; right; eexists; split; [now apply template_dollars|now apply template_one]).
  split; [exact (flat_u8_compiles _ _ Hp Hs R HR Ho)|]. split.
  - intros Ha. assert (Ha' : forall x, In x (atoms (template a z b)) -> named_well x) by (intros x Hx; apply template_atoms in Hx; auto). split; [exact (flat_compiles _ _ Hp Hs R Ha' HR Ho)|].
    intros Hc. apply (anchors_compile _ _ R _ Hp Hs (template_carets a z b Hb)); auto. destruct a; [|now left]. right. destruct Hc as [Hc|Hc]; [discriminate|]. auto.
  - intros -> -> Hw Ha. apply (anchors_compile _ _ R _ Hp Hs (template_carets true true b Hb)); auto. right. split; [lia|]. split; [exists 1; split; [now apply template_dollars|lia]|]. intros x Hx. apply template_atoms in Hx. auto.
Qed.

(** ** With one byte for each character the captures are read off *)
Lemma class_low k c : class_has k c -> (c < 128)%N.
Proof.
  assert (E : ch "Z" = 90%N /\ ch "z" = 122%N /\ ch "9" = 57%N /\ ch "F" = 70%N /\ ch "f" = 102%N) by (repeat split; reflexivity). destruct E as (E1 & E2 & E3 & E4 & E5).
  destruct k; unfold class_has, sp_punct, sp_graph, sp_print, sp_alnum, sp_alpha, sp_xdigit, sp_upper, sp_lower, sp_digit, sp_space, sp_blank, sp_cntrl, SpecAtom.between; rewrite ?E1, ?E2, ?E3, ?E4, ?E5; intros H; cbn [In] in H; lia.
Qed.
Lemma ascii_has x c : ascii_atom x -> atom_has x c -> (c < 128)%N.
Proof.
  destruct x as [d| |l|l]; cbn [ascii_atom atom_has]; try contradiction; [congruence|]. intros HF (t & Ht & Hc). rewrite Forall_forall in HF. specialize (HF t Ht). destruct t as [d|d d'|k]; cbn in Hc, HF; [congruence|lia|now apply class_low in Hc].
Qed.
Lemma shape_atoms : (forall p sh x, In sh (shapes_part p) -> In x sh -> In x (atoms_part p)) /\ (forall e sh x, In sh (shapes_expr e) -> In x sh -> In x (atoms_expr e)) /\
  (forall b sh x, In sh (shapes_branch b) -> In x sh -> In x (atoms_branch b)) /\ (forall e : ere, Forall (fun b => forall sh x, In sh (shapes_branch b) -> In x sh -> In x (atoms_branch b)) e).
Proof.
  apply syntax_ind.
  - intros e H. exact H.
  - intros e q H sh x Hsh Hx. cbn in Hsh |- *. destruct (exactly (q_type q)) as [n|]; [|destruct Hsh]. revert sh Hsh Hx. induction n as [|n IH]; intros sh Hsh Hx; cbn [power] in Hsh; [destruct Hsh as [<-|[]]; destruct Hx|].
    apply in_mix in Hsh as (u & v & Hu & Hv & ->). apply in_app_or in Hx as [Hx|Hx]; [now apply (H u)|now apply (IH v)].
  - intros sh x [].
  - intros sh x [].
  - intros a sh x [<-|[]] Hx. exact Hx.
  - intros bs H sh x Hsh Hx. cbn in Hsh. apply in_flat_map in Hsh as (b & Hb & Hsh). rewrite Forall_forall in H. cbn. apply in_flat_map. exists b. split; [assumption|]. now apply (H b Hb sh).
  - intros sh x [<-|[]] [].
  - intros p b H1 H2 sh x Hsh Hx. change (In sh (mix (shapes_part p) (shapes_branch b))) in Hsh. apply in_mix in Hsh as (u & v & Hu & Hv & ->). unfold atoms_branch. cbn. apply in_or_app. apply in_app_or in Hx as [Hx|Hx]; [left; now apply (H1 u)|right; now apply (H2 v)].
  - constructor.
  - intros b e H1 H2. now constructor.
Qed.
Lemma shaped_ascii b R : (forall x, In x (atoms_branch b) -> ascii_atom x) -> shaped b R -> Forall (fun c => (c < 128)%N) R.
Proof.
  intros Ha (sh & Hsh & HF). assert (K : forall x, In x sh -> ascii_atom x) by (intros x Hx; apply Ha; now apply (proj1 (proj2 (proj2 shape_atoms)) b sh)). clear Hsh Ha.
  induction HF as [|x c sh R Hc HF IH]; constructor; [apply (ascii_has x); [apply K; now left|assumption]|]. apply IH. intros; apply K. now right.
Qed.
Lemma ascii_pos T : Forall (fun c => (c < 128)%N) T -> forall i, i <= length T -> byte_pos T i = i.
Proof.
  induction 1 as [|c T Hc HT IH]; intros [|i] Hi; try reflexivity; [cbn in Hi; lia|]. unfold byte_pos. cbn [firstn map]. change (char_bytes c + byte_pos T i = S i). rewrite IH by (cbn in Hi; lia). unfold char_bytes. replace (c <? 0x80)%N with true by lia. lia.
Qed.
Lemma template_rigid b : steady_branch b = true -> (forall x, In x (atoms_branch b) -> ascii_atom x) -> rigid (template true true b).
Proof.
  intros Hb Ha. exists (fun k => nth k (all_places b) None). intros T i j L HT Hm. assert (Hlog := match_log_ok T _ HT i j L Hm). assert (i = 0 /\ j = length T) as [-> ->] by (apply template_match in Hm as (? & _ & _ & H1 & H2); [|assumption]; auto).
  apply template_at in Hm as ((U & R & ((V & E & HU & HV) & Hsh) & _) & _ & HL); [|assumption]. rewrite (HU eq_refl), (HV eq_refl), app_nil_r in E. cbn in E. subst R. split; [reflexivity|]. split; [reflexivity|].
  assert (HA := shaped_ascii b T Ha Hsh). intros k. specialize (HL k). rewrite nth_moved in HL. unfold capture. destruct (last_of k L) as [[x y]|] eqn:El.
  - apply last_of_In in El. unfold log_ok in Hlog. rewrite Forall_forall in Hlog. apply Hlog in El. cbn [fst snd] in El. rewrite !ascii_pos by (assumption || lia). destruct (nth k (all_places b) None) as [[u v]|]; [|discriminate]. cbn in HL. congruence.
  - destruct (nth k (all_places b) None); [discriminate HL|reflexivity].
Qed.
Theorem template_chosen b s en : compile_regex s = Ok en -> Forall scalar s -> G_ere (template true true b) s -> steady_branch b = true -> (forall x, In x (atoms_branch b) -> ascii_atom x) ->
  (exists en' offs, en = EFixed en' offs) /\ compile_fixed s = Ok en.
Proof.
  intros H Hs Hg Hb Ha. apply (rigid_chosen s _ en 1 1 H Hs Hg); [now apply template_carets|now apply template_dollars|now apply template_loops|now apply template_rigid].
Qed.
