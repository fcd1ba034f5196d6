(** Properties of the lowering of patterns: C07, C08, C30, C31, C39. *)
From Verif Require Import PLower PBytes PParser Pick.
From Coq Require Import String.
Open Scope nat_scope.
Open Scope list_scope.

(** C07.  The lowering counts one group for the whole match and one for each parenthesis. *)
Theorem C07_count : forall e, snd (from_ere e) = S (List.length (opens e)).
Proof.
  intros e. rewrite (proj2 (proj2 (proj2 opens_length))). unfold from_ere, tree_of_sub.
  assert (H := proj2 (proj2 (proj2 tree_groups)) e 1). destruct (trees_of_branches e 1). exact H.
Qed.
Print Assumptions C07_count.
(** A capture node with number 0 is the whole pattern; one with number [k] is the lowering of the contents
    of the [k]-th parenthesis. *)
Theorem C07_numbering : forall e t k, subtree (TCapture t k) (tree_of e) ->
  (k = 0 /\ t = fst (tree_of_sub e 1)) \/
  (exists bs, 1 <= k /\ nth_error (opens e) (k - 1) = Some bs /\ t = fst (tree_of_sub bs (S k))).
Proof.
  assert (E : forall bs g, fst (tree_of_sub bs g) = TUnion (ere_trees bs g)).
  { intros bs g. unfold tree_of_sub, ere_trees. now destruct (trees_of_branches bs g). }
  intros e t k H. rewrite E. apply tree_numbered in H as [H|(d & bs & -> & Hd & Ht)]; [auto|].
  right. exists bs. rewrite E. split; [lia|]. split; [|assumption]. now replace (1 + d - 1) with d by lia.
Qed.
Print Assumptions C07_numbering.
(** Groups inside a group have larger numbers. *)
Theorem C07_nested : forall e t k u j,
  subtree (TCapture t k) (tree_of e) -> subtree (TCapture u j) t -> k < j.
Proof. exact tree_nested. Qed.
Print Assumptions C07_nested.
(** Every parenthesis has its capture node, unless a quantifier forbids the expression altogether. *)
Theorem C07_present : forall e k bs, used e -> nth_error (opens e) k = Some bs ->
  exists t, subtree (TCapture t (S k)) (tree_of e).
Proof. intros e k bs Hu Hk. eexists. eapply tree_present; eauto. Qed.
Print Assumptions C07_present.
(** [(a(b)|c)*(d)] *)
Example C07_case : exists e t u,
  parse_str (s2l "(a(b)|c)*(d)") = ROk e /\ List.length (opens e) = 3 /\ snd (from_ere e) = 4 /\ used e /\
  subtree (TCapture t 1) (tree_of e) /\ subtree (TCapture u 2) t /\
  nth_error (opens e) 2 = Some [[PSingle (XAtom (NormalChar (ch "d")))]].
Proof.
  eexists _, _, _. split; [vm_compute; reflexivity|]. split; [vm_compute; reflexivity|]. split; [vm_compute; reflexivity|].
  split; [cbn; repeat split; exists 1; split; [lia|exact I]|].
  split; [vm_compute; repeat first [apply st_refl | apply st_capture | apply st_star | eapply st_union; [left; reflexivity|] | eapply st_concat; [left; reflexivity|]]|].
  split; [|vm_compute; reflexivity].
  eapply st_union; [left; reflexivity|]. eapply st_concat; [right; left; reflexivity|]. apply st_refl.
Qed.

(** C08.  A quantified expression has exactly the words made of an allowed number of words of the
    expression. *)
Theorem C08_quantifier : forall check e q g w,
  tlang check (fst (tree_of_part (PQuant e q) g)) w <->
  exists n, quant_allows (q_type q) n /\ powL (tlang check (fst (tree_of_expr e g))) n w.
Proof. intros. change (fst (tree_of_part (PQuant e q) g)) with (part_tree (PQuant e q) g). rewrite part_tree_quant. apply quant_lang. Qed.
Print Assumptions C08_quantifier.
(** Greedy or lazy makes no difference. *)
Theorem C08_lazy : forall check e q1 q2 g w, q_type q1 = q_type q2 ->
  tlang check (fst (tree_of_part (PQuant e q1) g)) w <-> tlang check (fst (tree_of_part (PQuant e q2) g)) w.
Proof. intros check e q1 q2 g w H. rewrite !C08_quantifier, H. reflexivity. Qed.
Print Assumptions C08_lazy.
Theorem C08_impossible : forall check e q g w n m,
  q_type q = QRange n (Some m) -> (m < n)%N -> ~ tlang check (fst (tree_of_part (PQuant e q) g)) w.
Proof. intros check e q g w n m Hq Hlt H. apply C08_quantifier in H as (k & Hk & _). rewrite Hq in Hk. cbn in Hk. lia. Qed.
Print Assumptions C08_impossible.
(** [(a|b){2,3}] on the word of [ab] *)
Example C08_case : exists w,
  tlang atom_check (fst (tree_of_part (PQuant (XSub [[PSingle (XAtom (NormalChar 97%N))]; [PSingle (XAtom (NormalChar 98%N))]]) {| q_type := QRange 2 (Some 3%N); q_alt := true |}) 1)) w
  /\ List.length (List.filter (fun i => match i with IC _ => true | _ => false end) w) = 2.
Proof.
  exists ([IM (ESC 1); IC 97%N; IM (EEC 1)] ++ [IM (ESC 1); IC 98%N; IM (EEC 1)] ++ []). split; [|reflexivity].
  apply C08_quantifier. exists 2. split; [cbn; lia|]. constructor; [|constructor; [|constructor]].
  - exists [IC 97%N]. split; [|reflexivity]. apply Exists_cons_hd. apply (cat_cons _ _ [IC 97%N] []); [|constructor]. exists 97%N. split; reflexivity.
  - exists [IC 98%N]. split; [|reflexivity]. apply Exists_cons_tl, Exists_cons_hd. apply (cat_cons _ _ [IC 98%N] []); [|constructor]. exists 98%N. split; reflexivity.
Qed.

(** C30.  No match is longer than [max_bytes]. *)
Theorem C30_max_bytes : forall s e T i j L n,
  parse_str s = ROk e -> Forall scalar s -> Forall scalar T ->
  max_bytes (tree_of e) = Some n -> matches T e i j L -> byte_pos T j <= byte_pos T i + n.
Proof. intros s e T i j L n Hp Hs HT Hn Hm. apply (max_bytes_match T e HT) with (L := L); auto. eapply parsed_atoms_ok; eauto. Qed.
Print Assumptions C30_max_bytes.
(** A two-byte character, an optional group, a negated bracket: at most 2 + 2*1 + 4 bytes. *)
Example C30_case : exists e, parse_str (233%N :: s2l "(a){0,2}[^x]") = ROk e /\ max_bytes (tree_of e) = Some 8.
Proof. eexists. split; vm_compute; reflexivity. Qed.

(** C31 is false: the lower bound counts optional parts. *)
Theorem C31_refuted : exists s e T i j L,
  parse_str s = ROk e /\ matches T e i j L /\ byte_pos T j < byte_pos T i + min_bytes (tree_of e).
Proof.
  exists (s2l "a?"). eexists. exists [], 0, 0, [(0, (0, 0))]. split; [vm_compute; reflexivity|]. split; [|vm_compute; lia].
  exists []. split; [|reflexivity]. apply ma_here. apply (mb_cons _ _ _ _ 0 0 0 [] []); [|constructor; auto].
  apply mp_quant with 0; [cbn; lia|]. constructor. auto.
Qed.
Print Assumptions C31_refuted.
(** It holds for patterns without [?] and without [{n,m}], [n < m].  (Missing: patterns with them.) *)
Theorem C31_min_bytes_partial : forall s e T i j L,
  parse_str s = ROk e -> Forall scalar s -> Forall scalar T -> exact e ->
  matches T e i j L -> byte_pos T i + min_bytes (tree_of e) <= byte_pos T j.
Proof. intros s e T i j L Hp Hs HT Hx Hm. apply (min_bytes_match T e HT) with (L := L); auto; [eapply parsed_atoms_ok; eauto|now apply tree_exact]. Qed.
Print Assumptions C31_min_bytes_partial.
Example C31_case : exists e, parse_str (s2l "(ab|[^a]){2,}c*") = ROk e /\ exact e /\ min_bytes (tree_of e) = 2.
Proof. eexists. split; [vm_compute; reflexivity|]. split; [cbn; tauto|vm_compute; reflexivity]. Qed.

(** C39.  In a text without characters of the pattern every match is empty. *)
Theorem C39_foreign : forall e T i j L,
  (forall a c, In a (atoms e) -> In c T -> ~ atom_has a c) -> matches T e i j L -> i = j.
Proof. intros. eapply foreign_match; eauto. Qed.
Print Assumptions C39_foreign.
Example C39_case : exists e L, parse_str (s2l "(a|[b-d])*$") = ROk e /\
  (forall a c, In a (atoms e) -> In c (s2l "xy") -> ~ atom_has a c) /\ matches (s2l "xy") e 2 2 L.
Proof.
  eexists. exists [(0, (2, 2))]. split; [vm_compute; reflexivity|]. split.
  - intros a c Ha Hc. cbn in Ha, Hc. destruct Ha as [<-|[<-|[]]], Hc as [<-|[<-|[]]]; cbn; try (intros H; discriminate H); intros (t & [<-|[]] & Ht); cbn in Ht; lia.
  - exists []. split; [|reflexivity]. apply ma_here. apply (mb_cons _ _ _ _ 2 2 2 [] []).
    + apply mp_quant with 0; [exact I|]. constructor. cbn. lia.
    + apply (mb_cons _ _ _ _ 2 2 2 [] []); [|constructor; cbn; lia]. change 2 with (List.length (s2l "xy")) at 1. apply mp_end.
Qed.
