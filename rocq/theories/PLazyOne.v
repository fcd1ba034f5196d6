(** The one-pass engines: all accepted words start their match at the same place. *)
From Verif Require Export PLazyWords.
From Coq Require Import ZifyBool ZifyNat ZifyN.
Open Scope nat_scope.
Open Scope list_scope.
Set Default Proof Using "Type".

Section OneStart.
  Variable n : nfa range.
  Hypothesis Hok : ok n.
  Hypothesis Hlen : 1 <= length n.
  Hypothesis Hgr : groups_ok n.
  Notation g := (num_capture_groups n).
  Variable tab : op_tables.
  Hypothesis Htab : tables n tab.
  Variable T : list N.
  Notation rests := (rest T byte_check n).
  Notation marks1 := (run_marks (fun _ => 1)).
  Hypothesis Hone : forall W, lang byte_check n W -> opens0 W = 1.

  Lemma same_start : forall k j s u w1 w2 b, length T - j <= k -> j <= length T -> s < length n -> b <> [] -> path byte_check n 0 u s -> rests j s w1 -> rests j s w2 ->
    key0 (marks1 j w1 b) = key0 (marks1 j w2 b).
  Proof using Hok Hlen Hgr Htab Hone.
    induction k as [|k IH]; intros j s u w1 w2 b Hk Hj Hs Hb Hu H1 H2.
    - assert (j = length T) as -> by lia.
      assert (Z : forall w, rests (length T) s w -> chars w = []) by (intros w [_ R]; apply reads_chars in R as [R _]; apply length_zero_iff_nil; lia).
      assert (O : forall w, rests (length T) s w -> opens0 u + opens0 w = 1) by (intros w [P _]; rewrite <- opens0_app; apply Hone; eapply path_app; eauto).
      assert (Z1 := Z _ H1). assert (Z2 := Z _ H2). assert (O1 := O _ H1). assert (O2 := O _ H2). destruct (Nat.eq_dec (opens0 w1) 0) as [E|E].
      + rewrite !key0_run_none by lia. reflexivity.
      + rewrite !key0_zero by (auto; lia). reflexivity.
    - destruct (Nat.eq_dec j (length T)) as [->|Hne]; [apply (IH (length T) s u); auto; lia|]. assert (Hj' : j < length T) by lia.
      destruct (rest_now T byte_check n j s w1 H1) as (u1 & q1 & v1 & -> & Z1 & R1 & [(_ & _ & Ej)|(t1 & a1 & c & w1' & -> & C1 & A1 & K1 & N1)]); [lia|].
      destruct (rest_now T byte_check n j s w2 H2) as (u2 & q2 & v2 & -> & Z2 & R2 & [(_ & _ & Ej)|(t2 & a2 & c2 & w2' & -> & C2 & A2 & K2 & N2)]); [lia|].
      assert (c2 = c) as -> by congruence.
      assert (S1 : In (a1, tu_of g t1 u1) (nth s (op_syms tab) [])) by (apply (proj2 (t_syms _ _ Htab s _ _ Hs)); exists u1, q1, t1; auto).
      assert (S2 : In (a2, tu_of g t2 u2) (nth s (op_syms tab) [])) by (apply (proj2 (t_syms _ _ Htab s _ _ Hs)); exists u2, q2, t2; auto).
      assert (X := t_unique _ _ Htab s _ _ c S1 S2 K1 K2).
      assert (X' : tu_of g t1 u1 = tu_of g t2 u2) by congruence. assert (t2 = t1) as -> by (apply (f_equal tu_state) in X'; cbn in X'; congruence).
      assert (B : forall t v q w', zpath n s v q -> marks1 j (v ++ IC c :: w') b = marks1 (S j) w' (apply_tu j (tu_of g t v) b)).
      { intros t v q w' Hz. assert (Hcu := zpath_chars _ _ _ _ Hz). rewrite run_marks_app. unfold wwidth. rewrite Hcu. cbn [run_marks]. rewrite (apply_tu_of g t v j b); [|intros k' Hk'; exact (zpath_groups n Hgr s v q k' Hz Hk')|assumption].
        f_equal. cbn. lia. }
      rewrite (B t1 u1 q1 w1' Z1), (B t1 u2 q2 w2' Z2), <- X'. apply (IH (S j) t1 ((u ++ u1) ++ [IC c])); auto; [lia|eapply wf_trans; [apply Hok|exact A1]| |].
      + assert (Hc1 := zpath_chars _ _ _ _ Z1). rewrite (apply_tu_of g t1 u1 j b); [apply run_marks_ne; assumption|intros k' Hk'; exact (zpath_groups n Hgr s u1 q1 k' Z1 Hk')|assumption].
      + eapply path_app; [eapply path_app; [exact Hu|apply zpath_path; exact Z1]|eapply path_sym1; eauto].
  Qed.
End OneStart.

Lemma one_pass_leads s e n m op : parse_str s = ROk e -> Forall scalar s -> working_new (tree_of e) = Ok n -> u8_new n = Ok m -> m <> [] -> op_make m = Ok (Some op) -> leads e (EOnePass op).
Proof.
  intros Hp Hs En Em Hn Eop T cs x y i j L HT Hx Hc Hm. cbn [engine_exec] in Hx.
  assert (Hb := parsed_u8_ne s e Hp Hs n m En Em Hn). assert (Hb' := Hb). destruct Hb' as (M1 & M2 & M3 & M4 & M5 & M6 & M7).
  destruct (op_make_spec m M1 ltac:(lia) M5 M6 op Eop) as (Hg & H). destruct (H (utf8 T)) as (o & H1 & H2 & H3). unfold op_exec in Hx. rewrite H1 in Hx. cbn [bind] in Hx. rewrite <- Hg in H3.
  destruct o as [b|]; [|discriminate]. destruct (byte_opens e m Hb) as [O1 O2].
  assert (G1 : 1 <= op_groups op) by (rewrite Hg; apply num_groups_pos).
  refine (byte_leads T e m (op_groups op) b Hb HT G1 _ cs x y i j L Hx Hc Hm). intros W HW HR.
  destruct H3 as (W' & B1 & B2 & ->). unfold keyw.
  destruct (op_analyse_spec m (ok_wf _ M1) M6) as (o & Eo & Ho). destruct o as [tab|].
  - rewrite (same_start m M1 ltac:(lia) M5 tab Ho (utf8 T) O1 (length (utf8 T)) 0 0 [] W' W); [apply kle_refl|lia|lia|lia| |constructor|split; auto|split; auto].
    destruct (op_groups op); [lia|discriminate].
  - exfalso. unfold op_make in Eop. destruct (guard _) as [u| | |] eqn:Eg; try discriminate. cbn [bind] in Eop. rewrite Eo in Eop. discriminate.
Qed.
