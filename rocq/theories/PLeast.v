(** The least number of bytes of a match. *)
From Verif Require Import PTight PBytes PCompile SpecLeast.
From Coq Require Import ZifyBool ZifyNat ZifyN.
Open Scope nat_scope.
Open Scope list_scope.

Lemma minimum_le l x : In x l -> minimum l <= x.
Proof.
  destruct l as [|y l]; [intros []|]. cbn. revert y. induction l as [|z l IH]; intros y; cbn; [intros [->|[]]; lia|]. intros [->|[->|H]]; [specialize (IH x (or_introl eq_refl))|..]; [lia|lia|]. specialize (IH y (or_intror H)). lia.
Qed.
Lemma minimum_in l : l <> [] -> In (minimum l) l.
Proof.
  destruct l as [|y l]; [contradiction|]. intros _. cbn. induction l as [|z l IH]; cbn; [now left|]. destruct (Nat.min_spec z (fold_right Nat.min y l)) as [[_ ->]|[_ ->]]; [right; left; reflexivity|]. destruct IH as [H|H]; [left; exact H|right; right; exact H].
Qed.
Lemma least_quant q n : quant_allows q n -> quant_least q <= n.
Proof. destruct q as [ | | |k|a [b|]]; cbn; lia. Qed.
Lemma quant_least_ok q : (exists n, quant_allows q n) -> quant_allows q (quant_least q).
Proof. intros (n & H). destruct q as [ | | |k|a [b|]]; cbn in *; lia. Qed.
Lemma step_pos (T : list N) : forall i c, nth_error T i = Some c -> byte_pos T (S i) = byte_pos T i + char_bytes c.
Proof.
  unfold byte_pos. induction T as [|x l IH]; intros [|i] c H; try discriminate; cbn [nth_error] in H.
  - injection H as ->. cbn. lia.
  - apply IH in H. cbn [firstn map] in *. change (list_sum (?x :: ?l)) with (x + list_sum l). cbn [list_sum fold_right] in *. unfold list_sum in *. cbn [fold_right]. lia.
Qed.
Section Least.
  Variable width : atom -> nat.
  (** *** A lower bound *)
  Section Lower.
    Variable T : list N.
    Hypothesis HT : Forall scalar T.
    Definition below (a : atom) : Prop := forall c, scalar c -> atom_has a c -> width a <= char_bytes c.
    Lemma least_below :
      (forall p g i j L, m_part T p g i j L -> (forall a, In a (atoms_part p) -> below a) -> byte_pos T i + least_part width p <= byte_pos T j) /\
      (forall e n g i j L, m_iter T e n g i j L -> (forall a, In a (atoms_expr e) -> below a) -> byte_pos T i + n * least_expr width e <= byte_pos T j) /\
      (forall e g i j L, m_expr T e g i j L -> (forall a, In a (atoms_expr e) -> below a) -> byte_pos T i + least_expr width e <= byte_pos T j) /\
      (forall e g i j L, m_alts T e g i j L -> (forall a, In a (atoms e) -> below a) -> byte_pos T i + least width e <= byte_pos T j) /\
      (forall b g i j L, m_branch T b g i j L -> (forall a, In a (atoms_branch b) -> below a) -> byte_pos T i + least_branch width b <= byte_pos T j).
    Proof using HT.
      apply match_ind.
      - intros. cbn [least_part]. auto.
      - intros e q n g i j L Hq _ IH Ha. change (least_part width (PQuant e q)) with (quant_least (q_type q) * least_expr width e). specialize (IH Ha). apply least_quant in Hq. apply (Nat.mul_le_mono_r _ _ (least_expr width e)) in Hq. revert IH Hq. generalize (quant_least (q_type q) * least_expr width e), (n * least_expr width e). intros. lia.
      - intros. cbn. lia.
      - intros. cbn. lia.
      - intros. cbn. lia.
      - intros e n g i j k L1 L2 _ IH1 _ IH2 Ha. specialize (IH1 Ha). specialize (IH2 Ha). lia.
      - intros a g i c Hc Hh Ha. rewrite (step_pos T i c Hc). cbn [least_expr]. assert (width a <= char_bytes c); [|lia]. apply (Ha a); [now left| |assumption]. rewrite Forall_forall in HT. apply HT. eapply nth_error_In; eauto.
      - intros bs g i j L _ IH Ha. exact (IH Ha).
      - intros b bs g i j L _ IH Ha. assert (X := IH (fun a H => Ha a (in_or_app _ _ _ (or_introl H)))). assert (Y := minimum_le (map (least_branch width) (b :: bs)) (least_branch width b) (or_introl eq_refl)). unfold least. lia.
      - intros b bs g i j L H IH Ha. assert (X := IH (fun a H => Ha a (in_or_app _ _ _ (or_intror H)))). destruct bs as [|b' bs]; [inversion H|].
        assert (Y : minimum (map (least_branch width) (b :: b' :: bs)) <= minimum (map (least_branch width) (b' :: bs))) by (apply minimum_le; right; apply minimum_in; discriminate). unfold least in *. lia.
      - intros. cbn. lia.
      - intros p b g i j k L1 L2 _ IH1 _ IH2 Ha. assert (X := IH1 (fun a H => Ha a (in_or_app _ _ _ (or_introl H)))). assert (Y := IH2 (fun a H => Ha a (in_or_app _ _ _ (or_intror H)))).
        change (least_branch width (p :: b)) with (least_part width p + least_branch width b). lia.
    Qed.
  End Lower.
  Lemma match_least e T i j L : Forall scalar T -> (forall a, In a (atoms e) -> narrowest width a) -> matches T e i j L -> byte_pos T i + least width e <= byte_pos T j.
  Proof using. intros HT Ha (L' & H & _). eapply (least_below T HT); eauto. intros a Hi. exact (proj1 (Ha a Hi)). Qed.

  (** *** It is reached *)
  Definition attains (t : tree) (k : nat) : Prop := exists w, tlang acheck t w /\ bytes w = k.
  Lemma least_attained :
    (forall p g, (forall a, In a (atoms_part p) -> narrowest width a) -> possible_part p -> attains (part_tree p g) (least_part width p)) /\
    (forall e g, (forall a, In a (atoms_expr e) -> narrowest width a) -> possible_expr e -> attains (expr_tree e g) (least_expr width e)) /\
    (forall b g, (forall a, In a (atoms_branch b) -> narrowest width a) -> possible_branch b -> attains (TConcat (branch_trees b g)) (least_branch width b)) /\
    (forall e g, (forall a, In a (atoms e) -> narrowest width a) -> fold_right (fun b P => possible_branch b /\ P) True e -> forall k, In k (map (least_branch width) e) -> attains (TUnion (ere_trees e g)) k).
  Proof using.
    apply syntax_ind.
    - intros e IH g. exact (IH g).
    - intros e q IH g Ha [Hq Hp]. rewrite part_tree_quant. destruct (IH g Ha Hp) as (v & Hv & E). destruct (quant_attained _ q _ v (quant_least_ok _ Hq) Hv) as (w & Hw & E'). exists w. split; [assumption|]. change (least_part width (PQuant e q)) with (quant_least (q_type q) * least_expr width e). rewrite <- E. lia.
    - intros g _ _. exists [IM EStart]. split; [reflexivity|reflexivity].
    - intros g _ _. exists [IM EEnd]. split; [reflexivity|reflexivity].
    - intros a g Ha _. destruct (Ha a (or_introl eq_refl)) as [_ (c & Hc & Hh & E)]. exists [IC c]. split; [exists c; split; [|reflexivity]|cbn; change (len_utf8 c) with (char_bytes c); lia].
      apply andb_true_iff. split; [now apply atom_check_iff|exact Hc].
    - intros bs IH g Ha [Hn Hp]. rewrite expr_tree_sub. destruct (IH (S g) Ha Hp (least width bs)) as (v & Hv & E); [apply minimum_in; destruct bs; [contradiction|discriminate]|].
      exists (IM (ESC g) :: v ++ [IM (EEC g)]). split; [cbn [tlang]; eauto|]. now rewrite bytes_capture.
    - intros g _ _. exists []. split; [constructor|reflexivity].
    - intros p b IHp IHb g Ha [H1 H2]. rewrite branch_trees_cons. destruct (IHp g (fun a H => Ha a (in_or_app _ _ _ (or_introl H))) H1) as (v & Hv & E).
      destruct (IHb (g + groups_part p) (fun a H => Ha a (in_or_app _ _ _ (or_intror H))) H2) as (u & Hu & E'). exists (v ++ u). split; [cbn [tlang map]; constructor; assumption|]. rewrite bytes_app, E, E'. reflexivity.
    - intros g _ _ k [].
    - intros b e IHb IHe g Ha [H1 H2] k Hk. rewrite ere_trees_cons. destruct Hk as [<-|Hk].
      + destruct (IHb g (fun a H => Ha a (in_or_app _ _ _ (or_introl H))) H1) as (v & Hv & E). exists v. split; [|assumption]. apply tlang_union with (t := TConcat (branch_trees b g)); [now left|assumption].
      + destruct (IHe (g + groups_branch b) (fun a H => Ha a (in_or_app _ _ _ (or_intror H))) H2 k Hk) as (v & Hv & E). exists v. split; [|assumption]. cbn [tlang map]. right. exact Hv.
  Qed.
  Theorem least_text e : anchor_free e = true -> possible e -> (forall a, In a (atoms e) -> narrowest width a) -> exists T L, Forall scalar T /\ matches T e 0 (length T) L /\ byte_pos T (length T) = least width e.
  Proof using.
    intros Hf [Hn Hp] Ha. destruct (proj2 (proj2 (proj2 least_attained)) e 1 Ha Hp (least width e)) as (v & Hv & E); [apply minimum_in; destruct e; [contradiction|discriminate]|].
    rewrite <- E, <- (bytes_capture 0 v). apply word_text; [assumption|]. rewrite tree_of_eq. cbn [tlang]. eauto.
  Qed.
End Least.
