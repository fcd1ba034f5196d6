(** Listings determine automata up to what zero-width transitions are for. *)
From Coq Require Import String.
From Verif Require Export Listing SpecListing PLabel PWalk.
From Coq Require Import ZifyBool ZifyNat ZifyN.
Open Scope nat_scope.
Open Scope list_scope.
Set Default Proof Using "Type".
Local Arguments show_nat : simpl never.
Local Arguments show_N : simpl never.
Local Notation length := List.length.

Lemma nl_no_digit : ~ is_digit 10%N.
Proof. unfold is_digit. cbn. lia. Qed.
Lemma nat_line k k' r r' : show_nat k ++ nl ++ r = show_nat k' ++ nl ++ r' -> k = k' /\ r = r'.
Proof. intros E. apply show_nat_inj in E as [H E]; try exact nl_no_digit. now injection E. Qed.

(** ** Any way of writing transitions *)
Section Lines.
  Variable A : Type.
  Variable after : list N.
  Variable tr : nat * A -> list N.
  Variable P : A -> Prop.
  Hypothesis Hcode : forall t t' r r', P (snd t) -> P (snd t') -> line (tr t) ++ r = line (tr t') ++ r' -> t = t' /\ r = r'.
  Hypothesis Heps : forall t e r r', P (snd t) -> line (tr t) ++ r <> line (show_eps e) ++ r'.

  Definition stops (r : list N) : Prop := r = [] \/ exists r', r = ch "S" :: r'.
  Lemma line_stops t r : ~ stops (line t ++ r).
  Proof. intros [E|(r' & E)]; discriminate. Qed.
  Lemma eps_code e e' r r' : line (show_eps e) ++ r = line (show_eps e') ++ r' -> fst e = fst e' /\ r = r'.
  Proof.
    unfold line, show_eps. rewrite <- !app_assoc. intros E. apply app_inv_head in E. apply app_inv_head in E. now apply nat_line in E.
  Qed.
  Lemma trans_code l : forall l' r r', Forall (fun t => P (snd t)) l -> Forall (fun t => P (snd t)) l' -> stops r -> stops r' ->
    flat_map (fun t => line (tr t)) l ++ r = flat_map (fun t => line (tr t)) l' ++ r' -> l = l' /\ r = r'.
  Proof using Hcode.
    induction l as [|t l IH]; intros [|t' l'] r r' Hl Hl' Hr Hr' E; cbn [flat_map app] in E.
    - auto.
    - exfalso. rewrite <- app_assoc in E. subst r. now apply line_stops in Hr.
    - exfalso. rewrite <- app_assoc in E. subst r'. now apply line_stops in Hr'.
    - rewrite <- !app_assoc in E. inversion Hl; inversion Hl'; subst. apply Hcode in E as [-> E]; [|assumption..]. apply IH in E as [-> ->]; auto.
  Qed.
  Lemma state_code l : forall l' m m' r r', Forall (fun t => P (snd t)) m -> Forall (fun t => P (snd t)) m' -> stops r -> stops r' ->
    flat_map (fun e => line (show_eps e)) l ++ flat_map (fun t => line (tr t)) m ++ r = flat_map (fun e => line (show_eps e)) l' ++ flat_map (fun t => line (tr t)) m' ++ r' ->
    map fst l = map fst l' /\ m = m' /\ r = r'.
  Proof using Hcode Heps.
    induction l as [|e l IH]; intros [|e' l'] m m' r r' Hm Hm' Hr Hr' E; cbn [flat_map app] in E.
    - split; [reflexivity|]. now apply trans_code.
    - exfalso. rewrite <- !app_assoc in E. destruct m as [|t m]; cbn [flat_map app] in E; [subst r; now apply line_stops in Hr|]. rewrite <- app_assoc in E. inversion Hm; subst. now apply Heps in E.
    - exfalso. rewrite <- !app_assoc in E. destruct m' as [|t m']; cbn [flat_map app] in E; [subst r'; now apply line_stops in Hr'|]. rewrite <- app_assoc in E. inversion Hm'; subst. symmetry in E. now apply Heps in E.
    - rewrite <- !app_assoc in E. apply eps_code in E as [E1 E]. apply IH in E as (H1 & H2 & H3); auto. cbn [map]. split; [now rewrite E1, H1|auto].
  Qed.
  Definition block (i : nat) (s : state A) : list N :=
    s2l "State " ++ show_nat i ++ after ++ nl ++ flat_map (fun e => line (show_eps e)) (eps s) ++ flat_map (fun t => line (tr t)) (trans s).
  Lemma blocks_stop l : stops (flat_map (fun '(i, s) => block i s) l).
  Proof. destruct l as [|[i s] l]; [now left|]. right. eexists. reflexivity. Qed.
  Lemma blocks_inj n : forall n' i, Forall (fun s => Forall (fun t => P (snd t)) (trans s)) n -> Forall (fun s => Forall (fun t => P (snd t)) (trans s)) n' ->
    flat_map (fun '(i, s) => block i s) (combine (seq i (length n)) n) = flat_map (fun '(i, s) => block i s) (combine (seq i (length n')) n') -> skeleton n = skeleton n'.
  Proof using Hcode Heps.
    induction n as [|s n IH]; intros [|s' n'] i Hn Hn' E.
    - reflexivity.
    - discriminate.
    - discriminate.
    - inversion Hn as [|? ? H1 H2]; inversion Hn' as [|? ? H3 H4]; subst. cbn [length seq combine flat_map] in E. unfold block in E at 1 3. rewrite <- !app_assoc in E.
      do 4 apply app_inv_head in E. apply state_code in E as (E1 & E2 & E3); [|assumption|assumption|apply blocks_stop..].
      cbn [skeleton map]. f_equal; [now rewrite E1, E2|]. now apply (IH n' (S i)).
  Qed.
End Lines.

Lemma print_blocks {A} after (tr : nat * A -> list N) n : print_nfa after tr n = flat_map (fun '(i, s) => block A after tr i s) (combine (seq 0 (length n)) n).
Proof. reflexivity. Qed.
Lemma print_skeleton {A} after (tr : nat * A -> list N) n n' : skeleton n = skeleton n' -> print_nfa after tr n = print_nfa after tr n'.
Proof.
  rewrite !print_blocks. generalize 0. revert n'. induction n as [|s n IH]; intros [|s' n'] i E; try discriminate; [reflexivity|]. cbn [skeleton map] in E. injection E as E1 E2 E3.
  cbn [length seq combine flat_map]. rewrite (IH n' (S i) E3). f_equal. unfold block. rewrite E2. do 4 f_equal. f_equal.
  assert (G : forall l, flat_map (fun e => line (show_eps e)) l = flat_map (fun k => line (s2l "-> " ++ show_nat k)) (map fst l)) by (induction l as [|x l I]; [reflexivity|]; cbn [flat_map map]; now rewrite I).
  now rewrite !G, E1.
Qed.
Lemma print_inj {A} after (tr : nat * A -> list N) (P : A -> Prop) n n' :
  (forall t t' r r', P (snd t) -> P (snd t') -> line (tr t) ++ r = line (tr t') ++ r' -> t = t' /\ r = r') ->
  (forall t e r r', P (snd t) -> line (tr t) ++ r <> line (show_eps e) ++ r') ->
  Forall (fun s => Forall (fun t => P (snd t)) (trans s)) n -> Forall (fun s => Forall (fun t => P (snd t)) (trans s)) n' ->
  print_nfa after tr n = print_nfa after tr n' <-> skeleton n = skeleton n'.
Proof. intros Hc He Hn Hn'. split; [|apply print_skeleton]. rewrite !print_blocks. now apply (blocks_inj A after tr P). Qed.

(** ** Bytes *)
Lemma escape_some : forallb (fun b => match escape_ascii b with [] => false | _ => true end) all_bytes = true.
Proof. vm_compute. reflexivity. Qed.
Lemma escape_ne b : (b < 256)%N -> escape_ascii b <> [].
Proof. intros H E. pose proof escape_some as P. rewrite forallb_forall in P. specialize (P b (all_bytes_in b H)). rewrite E in P. discriminate. Qed.
Lemma escape_open b s : (b < 256)%N -> forall r, escape_ascii b ++ r = ch "[" :: s -> r = s.
Proof.
  intros H r E. pose proof single_not_range as P. rewrite forallb_forall in P. specialize (P b (all_bytes_in b H)).
  destruct (escape_ascii b) as [|x l] eqn:Eb; [now apply escape_ne in Eb|]. cbn in E. injection E as -> E. cbn in P. apply N.eqb_eq in P. subst b. vm_compute in Eb. injection Eb as <-. exact E.
Qed.
Lemma single_paren : forallb (fun b => negb (is_prefix (s2l ")") (escape_ascii b)) || (b =? ch ")")%N) all_bytes = true.
Proof. vm_compute. reflexivity. Qed.
Lemma escape_close b s : (b < 256)%N -> forall r, escape_ascii b ++ r = ch ")" :: s -> r = s.
Proof.
  intros H r E. pose proof single_paren as P. rewrite forallb_forall in P. specialize (P b (all_bytes_in b H)).
  destruct (escape_ascii b) as [|x l] eqn:Eb; [now apply escape_ne in Eb|]. cbn in E. injection E as -> E. cbn in P. apply N.eqb_eq in P. subst b. vm_compute in Eb. injection Eb as <-. exact E.
Qed.
Lemma clash a b c s r : (a < 256)%N -> (b < 256)%N -> escape_ascii a ++ s2l ")> " ++ s <> s2l "[" ++ escape_ascii b ++ s2l "-" ++ c ++ r.
Proof.
  intros Ha Hb E. apply (escape_open a _ Ha) in E. symmetry in E. apply (escape_close b _ Hb) in E. discriminate.
Qed.
Lemma u8_code r r' s s' : byte_range r -> byte_range r' -> show_u8_atom r ++ s2l ")> " ++ s = show_u8_atom r' ++ s2l ")> " ++ s' -> r = r' /\ s = s'.
Proof.
  intros [H1 H2] [H3 H4] E. unfold show_u8_atom in E. destruct r as [a b], r' as [c d]. cbn [fst snd] in *.
  destruct (N.eqb_spec a b) as [->|Hab], (N.eqb_spec c d) as [->|Hcd].
  - destruct (prefix_free_inj _ _ _ _ _ escape_ascii_free H1 H3 E) as [-> E2]. apply app_inv_head in E2. auto.
  - exfalso. rewrite <- !app_assoc in E. now apply clash in E.
  - exfalso. rewrite <- !app_assoc in E. symmetry in E. now apply clash in E.
  - rewrite <- !app_assoc in E. apply app_inv_head in E. destruct (prefix_free_inj _ _ _ _ _ escape_ascii_free H1 H3 E) as [-> E2]. apply app_inv_head in E2.
    destruct (prefix_free_inj _ _ _ _ _ escape_ascii_free H2 H4 E2) as [-> E3]. apply app_inv_head in E3. apply app_inv_head in E3. auto.
Qed.
Lemma u8_text_inj n n' : bytes_nfa n -> bytes_nfa n' -> u8_text n = u8_text n' <-> skeleton n = skeleton n'.
Proof.
  intros Hn Hn'. apply (print_inj _ _ byte_range); [| |exact Hn|exact Hn'].
  - intros [t a] [t' a'] r r' Ha Ha' E. unfold line, show_trans in E. rewrite <- !app_assoc in E. cbn [fst snd] in *. do 2 apply app_inv_head in E. apply u8_code in E as [-> E]; [|assumption..]. apply nat_line in E as [-> ->]. auto.
  - intros [t a] e r r' _ E. discriminate.
Qed.

(** ** Characters *)
Definition tame (a : atom) : Prop := a = NonmatchingList [] \/ (exists u, G_atom a u) /\ ~ In 10%N (show_atom a).
Lemma any_clash a u w r s : G_atom a u -> ~ In 10%N (show_atom a) -> ~ In (ch "]") w -> s2l "[^]" ++ w ++ nl ++ r <> show_atom a ++ s.
Proof.
  intros Ha Hn Hw E. apply show_atom_ok in Ha.
  assert (G : exists v, show_atom a = s2l "[^]" ++ v /\ (v = [] \/ In (ch "]") v)).
  { assert (L : forall x y, s2l "[^]" ++ x = s2l "[" ++ (y ++ s2l "]") ++ s -> exists v, s2l "[" ++ y ++ s2l "]" = s2l "[^]" ++ v /\ (v = [] \/ In (ch "]") v)).
    { intros x y K. destruct y as [|c y]; [discriminate|]. injection K as <- K. destruct y as [|c y]; [exists []; auto|]. injection K as <- K. exists (y ++ s2l "]"). split; [reflexivity|right]. apply in_or_app. right. now left. }
    destruct a as [c| |ts|ts]; cbn [show_atom] in *.
    - destruct (is_escapable c) eqn:Ec; [discriminate|]. injection E as <- _. discriminate.
    - discriminate.
    - rewrite <- app_assoc in E. exact (L _ _ E).
    - apply (L (w ++ nl ++ r) (s2l "^" ++ flat_map show_term ts)). rewrite E. cbn [s2l list_ascii_of_string map app]. rewrite <- !app_assoc. reflexivity. }
  destruct G as (v & Ev & [->|Hv]); [rewrite app_nil_r in Ev; rewrite Ev in Ha; now apply any_no_atom in Ha|].
  rewrite Ev, <- app_assoc in E. apply app_inv_head in E. assert (Hvn : ~ In 10%N v) by (intros H; apply Hn; rewrite Ev; apply in_or_app; now right).
  clear - E Hv Hvn Hw. revert w Hw E. induction v as [|x v IH]; intros w Hw E; [destruct Hv|]. destruct w as [|y w]; cbn [app] in E; [injection E as <- _; apply Hvn; now left|]. injection E as <- E.
  destruct Hv as [->|Hv]; [apply Hw; now left|]. apply (IH Hv) in E; [exact E| |]; [intros H; apply Hvn; now right|intros H; apply Hw; now right].
Qed.
Lemma nat_no_bracket k : ~ In (ch "]") (show_nat k).
Proof.
  intros H. destruct (show_N_decimal (N.of_nat k)) as (_ & Hd & _). rewrite Forall_forall in Hd. apply Hd in H. revert H. unfold is_digit. cbn. lia.
Qed.
Lemma atom_code a a' sep r r' : tame a -> tame a' -> (forall k, ~ In (ch "]") (sep ++ show_nat k)) -> forall k k',
  show_atom a ++ sep ++ show_nat k ++ nl ++ r = show_atom a' ++ sep ++ show_nat k' ++ nl ++ r' -> a = a' /\ k = k' /\ r = r'.
Proof.
  intros Ha Ha' Hs k k' E. assert (G : a = a' /\ show_nat k ++ nl ++ r = show_nat k' ++ nl ++ r').
  2:{ destruct G as [-> G]. apply nat_line in G as [-> ->]. auto. }
  destruct Ha as [->|[(u & Hu) Hn]], Ha' as [->|[(u' & Hu') Hn']].
  - split; [reflexivity|]. now do 2 apply app_inv_head in E.
  - exfalso. apply (any_clash a' u' (sep ++ show_nat k) r (sep ++ show_nat k' ++ nl ++ r') Hu' Hn' (Hs k)). rewrite <- app_assoc. exact E.
  - exfalso. apply (any_clash a u (sep ++ show_nat k') r' (sep ++ show_nat k ++ nl ++ r) Hu Hn (Hs k')). rewrite <- app_assoc. symmetry. exact E.
  - apply show_atom_ok in Hu. apply show_atom_ok in Hu'. assert (Q := atom_complete _ _ (sep ++ show_nat k ++ nl ++ r) Hu). rewrite E, (atom_complete _ _ _ Hu') in Q. injection Q as Q1 Q2. subst a'. split; [reflexivity|]. now apply app_inv_head in Q1.
Qed.
Definition tame_nfa (n : nfa atom) : Prop := Forall (fun s => Forall (fun t => tame (snd t)) (trans s)) n.
Lemma working_text_inj n n' : tame_nfa n -> tame_nfa n' -> working_text n = working_text n' <-> skeleton n = skeleton n'.
Proof.
  intros Hn Hn'. apply (print_inj _ _ tame); [| |exact Hn|exact Hn'].
  - intros [t a] [t' a'] r r' Ha Ha' E. unfold line, show_trans in E. rewrite <- !app_assoc in E. cbn [fst snd] in *. do 2 apply app_inv_head in E. apply atom_code in E as (-> & -> & ->); auto.
    intros k H. apply in_app_or in H as [H|H]; [|now apply nat_no_bracket in H]. cbn in H. intuition discriminate.
  - intros [t a] e r r' _ E. discriminate.
Qed.
Lemma show_static_atom a : show_static (static_atom a) = show_atom a.
Proof. destruct a; reflexivity. Qed.
Lemma static_text_eq n : static_text (static_nfa n) = print_nfa [] (show_static_trans show_atom) n.
Proof.
  unfold static_text. rewrite !print_blocks. unfold static_nfa. rewrite map_length. generalize 0. induction n as [|s n IH]; intros i; [reflexivity|]. cbn [length seq map combine flat_map]. rewrite IH. f_equal.
  unfold block. do 5 f_equal. cbn [static_state trans]. induction (trans s) as [|t l I]; [reflexivity|]. cbn [map flat_map]. rewrite I. f_equal. unfold show_static_trans. cbn [fst snd]. now rewrite show_static_atom.
Qed.
Lemma static_text_inj n n' : tame_nfa n -> tame_nfa n' -> static_text (static_nfa n) = static_text (static_nfa n') <-> skeleton n = skeleton n'.
Proof.
  intros Hn Hn'. rewrite !static_text_eq. apply (print_inj _ _ tame); [| |exact Hn|exact Hn'].
  - intros [t a] [t' a'] r r' Ha Ha' E. unfold line, show_static_trans in E. rewrite <- !app_assoc in E. cbn [fst snd] in *. do 2 apply app_inv_head in E. apply atom_code in E as (-> & -> & ->); auto.
    intros k H. apply in_app_or in H as [H|H]; [|now apply nat_no_bracket in H]. cbn in H. intuition discriminate.
  - intros [t a] e r r' Ha E. unfold line, show_static_trans, show_eps in E. cbn [fst snd] in *. injection E as E. rewrite <- !app_assoc in E.
    destruct a as [c| |ts|ts]; cbn [show_atom] in E; try discriminate. destruct (is_escapable c); [discriminate|]. injection E as -> E. discriminate.
Qed.
(** Atoms of a pattern without a newline are shown without one. *)
Lemma shown_newline a u : G_atom a u -> ~ In 10%N u -> ~ In 10%N (show_atom a).
Proof.
  destruct 1 as [c H|c H| |ts t H1 H2|ts t H2]; intros Hn Hi; apply Hn; cbn [show_atom] in Hi.
  - destruct (is_escapable c); [destruct Hi as [D|[D|[]]]; [discriminate|subst c; now left]|exact Hi].
  - destruct (is_escapable c); [exact Hi|]. destruct Hi as [->|[]]. right. now left.
  - exact Hi.
  - now rewrite (show_list _ _ H2) in Hi.
  - now rewrite (show_list _ _ H2) in Hi.
Qed.
Definition plain_atom (a : atom) : Prop := exists u, G_atom a u /\ ~ In 10%N u.
Lemma grammar_plain :
  (forall p t, G_part p t -> ~ In 10%N t -> part_atoms plain_atom p) /\
  (forall e t, G_expr e t -> ~ In 10%N t -> expr_atoms plain_atom e) /\
  (forall b t, G_branch b t -> ~ In 10%N t -> branch_atoms plain_atom b) /\
  (forall e t, G_ere e t -> ~ In 10%N t -> ere_atoms plain_atom e).
Proof.
  apply G_mutind; intros; cbn; repeat rewrite in_app_iff in *; unfold plain_atom; eauto; intuition eauto.
Qed.
Lemma pattern_tame s e n : G_ere e s -> Forall scalar s -> ~ In 10%N s -> working_new (tree_of e) = Ok n -> n <> [] -> tame_nfa n.
Proof.
  intros Hg Hs Hnl En Hn. assert (Ha : ere_atoms atom_ok e) by (eapply grammar_atoms_ok; eauto).
  assert (He : ere_atoms tame e).
  { apply (proj2 (proj2 (proj2 (atoms_In _)))). intros a Hi. right. assert (Q : plain_atom a).
    { revert a Hi. apply (proj2 (proj2 (proj2 (atoms_In plain_atom)))). eapply grammar_plain; eauto. }
    destruct Q as (u & Q1 & Q2). split; [eauto|]. eapply shown_newline; eauto. }
  destruct (working_spec true true (tree_of e)) as (n' & En' & H).
  - eapply tree_labels_mono; [|apply tree_of_labels; exact Ha]. auto.
  - apply tree_of_ok.
  - apply tree_of_length.
  - unfold working_new in En. rewrite En in En'. injection En' as <-. destruct H as [[-> _]|(_ & _ & _ & _ & _ & H6)]; [congruence|].
    assert (HF : Forall (lab tame (mark_in 0 (S (groups e)))) n).
    { apply H6; [exact I|now left|]. apply tree_of_labels. exact He. }
    unfold tame_nfa. eapply Forall_impl; [|exact HF]. intros x [HT _]. apply Forall_forall. intros [t a] Hin. exact (HT _ _ Hin).
Qed.
