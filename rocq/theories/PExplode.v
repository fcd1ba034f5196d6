(** How many states a DFA needs: at least as many as there are texts that have to be told apart, which can be exponential in
    the pattern; no more than the automaton has when that is one-pass. *)
From Coq Require Import String.
From Verif Require Import PStrip PCompile PSize PMin POnePass SpecSize SpecDfa.
From Coq Require Import ZifyBool ZifyNat ZifyN.
Open Scope nat_scope.
Open Scope list_scope.

(** ** Texts that are told apart *)
Fixpoint after (d : dfa) (s : option nat) (w : list N) : bool + option nat :=
  match w with
  | [] => Datatypes.inr s
  | c :: r =>
      match ds_acc (d_get d s) with
      | DAlways => Datatypes.inl true
      | _ => match find (fun t => in_range c (snd t)) (ds_trans (d_get d s)) with
             | Some (to, _) => after d (Some to) r
             | None => Datatypes.inl false
             end
      end
  end.
Lemma after_test d w z : forall s, dfa_test_loop d s (w ++ z) = match after d s w with Datatypes.inl b => b | Datatypes.inr s' => dfa_test_loop d s' z end.
Proof.
  induction w as [|c w IH]; intros s; [reflexivity|]. cbn [app dfa_test_loop after].
  destruct (ds_acc (d_get d s)), (find (fun t => in_range c (snd t)) (ds_trans (d_get d s))) as [[to r]|]; try reflexivity; apply IH.
Qed.
Lemma run_loop d w : dfa_run_test d w = dfa_test_loop d None w.
Proof. unfold dfa_run_test. destruct w as [|c w]; cbn [dfa_test_loop d_get]; destruct (ds_acc (d_start d)); reflexivity. Qed.
Definition outcomes (d : dfa) : list (bool + option nat) :=
  Datatypes.inl true :: Datatypes.inl false :: Datatypes.inr None :: map (fun i => Datatypes.inr (Some i)) (seq 0 (length (d_states d))).
Lemma after_In d w : dvalid d -> forall s, dlabel d s -> In (after d s w) (outcomes d).
Proof.
  intros Hv. induction w as [|c w IH]; intros s Hs; cbn [after].
  - destruct s as [i|]; [|now do 2 right; left]. do 3 right. apply in_map_iff. exists i. split; [reflexivity|]. apply in_seq. cbn in Hs. lia.
  - assert (K : In (match find (fun t => in_range c (snd t)) (ds_trans (d_get d s)) with Some (to, _) => after d (Some to) w | None => Datatypes.inl false end) (outcomes d)).
    { destruct (find _ _) as [[to r]|] eqn:E; [|right; now left]. apply IH. apply find_some in E as [E _]. exact (Hv _ _ (d_get_In d s Hs) E). }
    destruct (ds_acc (d_get d s)); [exact K|now left|exact K].
Qed.
Lemma NoDup_map_on {A B} (f : A -> B) l : NoDup l -> (forall x y, In x l -> In y l -> f x = f y -> x = y) -> NoDup (map f l).
Proof.
  induction 1 as [|x l Hx N IH]; intros Hf; cbn; [constructor|]. constructor.
  - intros Hi. apply in_map_iff in Hi as (y & E & Hy). assert (y = x) by (apply Hf; [now right|now left|assumption]). now subst.
  - apply IH. intros a b Ha Hb. apply Hf; now right.
Qed.
Lemma dfa_tells d (f : list N -> Prop) Ts : dvalid d -> NoDup Ts -> (forall w, dfa_run_test d w = true <-> f w) ->
  (forall t u, In t Ts -> In u Ts -> t <> u -> exists z, ~ (f (t ++ z) <-> f (u ++ z))) -> length Ts <= length (d_states d) + 3.
Proof.
  intros Hv N Hf Ha. rewrite <- (map_length (after d None)). etransitivity; [apply NoDup_incl_length with (l' := outcomes d)|].
  - apply NoDup_map_on; [assumption|]. intros t u Ht Hu E. destruct (list_eq_dec N.eq_dec t u) as [H|H]; [assumption|]. exfalso. destruct (Ha t u Ht Hu H) as (z & Hz). apply Hz.
    rewrite <- !Hf, !run_loop, !after_test, E. reflexivity.
  - intros x Hx. apply in_map_iff in Hx as (t & <- & _). now apply after_In.
  - unfold outcomes. cbn [length]. rewrite map_length, seq_length. lia.
Qed.
Lemma tdfa_tells s e n m max d Ts : parse_str s = ROk e -> Forall scalar s -> caret_ok e = true -> working_new (tree_of e) = Ok n -> u8_new n = Ok m -> m <> [] -> tdfa_from_nfa m max = Ok (Some d) ->
  NoDup Ts -> Forall (Forall scalar) Ts -> told_apart e Ts -> length Ts <= length (td_states d) + 3.
Proof.
  intros Hp Hs Hc En Em Hm Hd N HT Ha. assert (Hb := parsed_u8_ne s e Hp Hs n m En Em Hm). assert (Hst := parsed_settled s e n m Hp Hs Hc En Em Hm).
  assert (R := dfa_right e m max d Hb Hst Hd). destruct Hb as (M1 & M2 & _). destruct (tdfa_from_nfa_spec m (ok_wf _ M1) ltac:(lia) max) as (o & E & Ho). rewrite Hd in E. injection E as <-.
  assert (V := base_valid m ltac:(lia) max d Ho). destruct (from_tagged_spec d V) as (d' & F1 & F2 & _). fold (base_dfa d) in F2.
  destruct (minimise_full (length (d_states (base_dfa d))) (base_dfa d)) as (d2 & E3 & V2 & L2 & _); [apply validate_valid; exact V|apply le_n|]. rewrite F2 in E3. injection E3 as <-.
  assert (L : length (d_states d') <= length (td_states d)) by (unfold base_dfa in L2; cbn [d_states] in L2; rewrite map_length in L2; lia).
  assert (X : length (map utf8 Ts) <= length (d_states d') + 3); [|rewrite map_length in X; lia].
  assert (Hrun : forall T, Forall scalar T -> dfa_run_test d' (utf8 T) = true <-> occurs e T).
  { intros T HTs. destruct (right_test e _ R T HTs) as (b & Eb & Hb). cbn [engine_test] in Eb. unfold dfa_test in Eb. rewrite F1 in Eb. cbn [bind] in Eb. injection Eb as ->. exact Hb. }
  apply (dfa_tells d' (fun w => dfa_run_test d' w = true)); [exact V2| |reflexivity|].
  - apply NoDup_map_on; [assumption|]. intros t u _ _ E. now apply utf8_inj.
  - intros t' u' Ht Hu Hne. apply in_map_iff in Ht as (t & <- & Ht). apply in_map_iff in Hu as (u & <- & Hu).
    destruct (Ha t u Ht Hu) as (z & Hz & Hnz); [intros ->; contradiction|]. rewrite Forall_forall in HT. exists (utf8 z).
    assert (U : forall x, utf8 x ++ utf8 z = utf8 (x ++ z)) by (intros x; unfold utf8; now rewrite flat_map_app). rewrite !U, !Hrun by (apply Forall_app; split; auto). exact Hnz.
Qed.

(** ** A family of patterns *)
(** An [a] and [k] more characters up to the end. *)
Definition dots (k : nat) : branch := repeat (PSingle (XAtom Dot)) k ++ [PEnd].
Definition nth_last (k : nat) : ere := [PSingle (XAtom (NormalChar 97%N)) :: dots k].
Definition nth_last_text (k : nat) : list N := s2l "a" ++ concat (repeat (s2l ".") k) ++ s2l "$".
Lemma nth_last_grammar k : G_ere (nth_last k) (nth_last_text k).
Proof.
  apply Ge_one. apply Gbr_cons; [apply Gp_single, Gx_atom, Ga_char; cbn; intuition discriminate|]. unfold dots.
  induction k as [|k IH]; cbn [repeat concat app]; [|rewrite <- app_assoc; apply Gbr_cons; [apply Gp_single, Gx_atom, Ga_dot|exact IH]].
  change (s2l "$") with (s2l "$" ++ []). apply Gbr_cons; [apply Gp_end|constructor].
Qed.
Lemma nth_last_scalar k : Forall scalar (nth_last_text k).
Proof. unfold nth_last_text. apply Forall_app. split; [repeat constructor|]. apply Forall_app. split; [|repeat constructor]. induction k as [|k IH]; cbn [repeat concat]; [constructor|]. apply Forall_app. split; [repeat constructor|exact IH]. Qed.
Lemma nth_last_length k : List.length (nth_last_text k) = k + 2.
Proof. unfold nth_last_text. rewrite !app_length. assert (H : List.length (concat (repeat (s2l ".") k)) = k) by (induction k as [|k IH]; [reflexivity|]; cbn [repeat concat]; rewrite app_length, IH; reflexivity). rewrite H. cbn. lia. Qed.
Lemma nth_last_caret k : caret_ok (nth_last k) = true.
Proof.
  unfold caret_ok, carets, nth_last. cbn [map common forallb]. unfold carets_branch. cbn [map carets_part carets_expr].
  assert (H : SpecCaret.total (map carets_part (dots k)) = Some 0) by (unfold dots; induction k as [|k IH]; [reflexivity|]; cbn [repeat app map carets_part carets_expr SpecCaret.total fold_right]; unfold SpecCaret.total in IH; rewrite IH; reflexivity).
  cbn [SpecCaret.total fold_right]. unfold SpecCaret.total in H. rewrite H. reflexivity.
Qed.
Lemma nth_last_size k : size (fun a => 27 * intervals a) (nth_last k) = 31 + 28 * k.
Proof.
  assert (H : list_sum (map (size_part (fun a => 27 * intervals a)) (dots k)) = 28 * k + 1).
  { unfold dots. induction k as [|k IH]; [reflexivity|]. cbn [repeat app map]. change (list_sum (?x :: ?l)) with (x + list_sum l). rewrite IH. cbn [size_part size_expr intervals]. lia. }
  change (size (fun a => 27 * intervals a) (nth_last k)) with (1 + (1 + (1 + 27 + list_sum (map (size_part (fun a => 27 * intervals a)) (dots k))) + 0)). rewrite H. lia.
Qed.
Lemma dots_match T k : forall g i j L, m_branch T (dots k) g i j L -> j = i + k /\ j = List.length T.
Proof.
  unfold dots. induction k as [|k IH]; intros g i j L H; cbn [repeat app] in H; inversion H as [|p b g' i' j' k' L1 L2 H1 H2]; subst.
  - inversion H1; subst. inversion H2; subst. lia.
  - inversion H1 as [e0 g0 i0 j0 L0 Hx| | |]; subst. inversion Hx; subst. apply IH in H2. lia.
Qed.
Lemma dots_matches T k : (forall i c, nth_error T i = Some c -> c <> 0%N) -> forall g i, i + k = List.length T -> m_branch T (dots k) g i (i + k) [].
Proof.
  intros H0. unfold dots. induction k as [|k IH]; intros g i Hi; cbn [repeat app].
  - rewrite Nat.add_0_r in *. subst i. apply mb_cons with (L1 := []) (L2 := []) (j := List.length T); [constructor|]. constructor. lia.
  - apply mb_cons with (L1 := []) (L2 := []) (j := S i).
    + apply mp_single. destruct (nth_error T i) as [c|] eqn:E; [|apply nth_error_None in E; lia]. apply me_atom with c; [assumption|]. exact (H0 i c E).
    + replace (i + S k) with (S i + k) by lia. apply IH. lia.
Qed.
Lemma nth_last_occurs T k : (forall i c, nth_error T i = Some c -> c <> 0%N) -> occurs (nth_last k) T <-> exists i, S i + k = List.length T /\ nth_error T i = Some 97%N.
Proof.
  intros H0. split.
  - intros (i & j & L & L' & H & _). unfold nth_last in H. inversion H as [b bs g i' j' L0 Hb|b bs g i' j' L0 Hb]; subst; [|inversion Hb].
    inversion Hb as [|p b g' i' j' k' L1 L2 H1 H2]; subst. inversion H1 as [e0 g0 i0 j0 L0 Hx| | |]; subst. inversion Hx as [a g1 i1 c Hc Ha|]; subst. cbn in Ha. subst c.
    apply dots_match in H2. exists i. split; [lia|assumption].
  - intros (i & Hl & Hi). exists i, (S i + k), [(0, (i, S i + k))], []. split; [|reflexivity]. apply ma_here. apply mb_cons with (L1 := []) (L2 := []) (j := S i).
    + apply mp_single, me_atom with 97%N; [assumption|reflexivity].
    + now apply dots_matches.
Qed.
Fixpoint bits (k : nat) : list (list N) := match k with 0 => [[]] | S k => map (cons 97%N) (bits k) ++ map (cons 98%N) (bits k) end.
Lemma bits_length k : List.length (bits k) = 2 ^ k.
Proof. induction k as [|k IH]; [reflexivity|]. cbn [bits]. rewrite app_length, !map_length, IH. cbn. lia. Qed.
Definition letters (t : list N) : Prop := Forall (fun c => c = 97%N \/ c = 98%N) t.
Lemma bits_In k : forall t, In t (bits k) -> List.length t = k /\ letters t.
Proof.
  induction k as [|k IH]; intros t H; cbn [bits] in H; [destruct H as [<-|[]]; split; [reflexivity|constructor]|].
  apply in_app_or in H as [H|H]; apply in_map_iff in H as (u & <- & Hu); destruct (IH u Hu) as [H1 H2]; (split; [cbn; lia|constructor; auto]).
Qed.
Lemma bits_NoDup k : NoDup (bits k).
Proof.
  induction k as [|k IH]; cbn [bits]; [constructor; [intros []|constructor]|]. apply NoDup_app_intro; [now apply FinFun.Injective_map_NoDup; [intros x y E; injection E|]..|].
  intros x Hx Hy. apply in_map_iff in Hx as (u & <- & _). apply in_map_iff in Hy as (v & E & _). discriminate.
Qed.
Lemma letters_ok t : letters t -> (forall i c, nth_error t i = Some c -> c <> 0%N) /\ Forall scalar t.
Proof.
  intros H. split; [|eapply Forall_impl; [|exact H]; intros c [-> | ->]; reflexivity]. intros i c Hi. apply nth_error_In in Hi. unfold letters in H. rewrite Forall_forall in H. destruct (H c Hi); subst; discriminate.
Qed.
(** Two texts of the same length differ somewhere. *)
Lemma differ t : forall u, letters t -> letters u -> List.length t = List.length u -> t <> u ->
  exists p x y, nth_error t p = Some x /\ nth_error u p = Some y /\ (x = 97%N /\ y = 98%N \/ x = 98%N /\ y = 97%N).
Proof.
  induction t as [|a t IH]; intros [|b u] Ht Hu Hl Hn; try discriminate; [contradiction|]. inversion Ht as [|? ? Ha Ht']; subst. inversion Hu as [|? ? Hb Hu']; subst.
  destruct (N.eq_dec a b) as [->|Hab].
  - destruct (IH u Ht' Hu') as (p & x & y & H1 & H2 & H3); [now injection Hl|congruence|]. exists (S p), x, y. auto.
  - exists 0, a, b. split; [reflexivity|]. split; [reflexivity|]. destruct Ha, Hb; subst; auto; contradiction.
Qed.
Lemma bits_apart k : told_apart (nth_last k) (bits (S k)).
Proof.
  intros t u Ht Hu Hn. destruct (bits_In _ _ Ht) as [Lt Bt]. destruct (bits_In _ _ Hu) as [Lu Bu]. destruct (differ t u Bt Bu ltac:(lia) Hn) as (p & x & y & Hx & Hy & Hxy).
  assert (Bz : letters (repeat 98%N p)) by (apply Forall_forall; intros c Hc; apply repeat_spec in Hc; auto). exists (repeat 98%N p). split; [now apply letters_ok|].
  assert (K : forall w, letters w -> List.length w = S k -> forall c, nth_error w p = Some c -> occurs (nth_last k) (w ++ repeat 98%N p) <-> c = 97%N).
  { intros w Bw Lw c Hc. rewrite nth_last_occurs by (apply letters_ok, Forall_app; auto). rewrite app_length, repeat_length, Lw. assert (Hp : p < List.length w) by (apply nth_error_Some; congruence).
    split.
    - intros (i & Hi & H). assert (i = p) as -> by lia. rewrite nth_error_app1 in H by assumption. congruence.
    - intros ->. exists p. split; [lia|]. now rewrite nth_error_app1. }
  rewrite (K t Bt Lt x Hx), (K u Bu Lu y Hy). destruct Hxy as [[-> ->]|[-> ->]]; intros [H1 H2]; [specialize (H1 eq_refl)|specialize (H2 eq_refl)]; discriminate.
Qed.
Lemma nth_last_large k n m max d : working_new (tree_of (nth_last k)) = Ok n -> u8_new n = Ok m -> m <> [] -> tdfa_from_nfa m max = Ok (Some d) -> 2 ^ S k <= List.length (td_states d) + 3.
Proof.
  intros En Em Hm Hd. rewrite <- bits_length. apply (tdfa_tells (nth_last_text k) (nth_last k) n m max d); try assumption.
  - apply parse_iff, nth_last_grammar.
  - apply nth_last_scalar.
  - apply nth_last_caret.
  - apply bits_NoDup.
  - apply Forall_forall. intros t Ht. apply letters_ok. now apply (bits_In (S k)).
  - apply bits_apart.
Qed.
(** ** One-pass automata *)
Lemma short_nodup {A B} (f : A -> B) l : NoDup (map f l) -> (forall x y, In x l -> In y l -> f x = f y) -> length l <= 1.
Proof.
  intros N H. destruct l as [|x [|y l]]; cbn; [lia|lia|]. exfalso. cbn in N. inversion N as [|a l0 Ha _]; subst. apply Ha. left. apply H; cbn; auto.
Qed.
Section One.
  Variable n : nfa range.
  Hypothesis Hwf : wf n.
  Hypothesis Hlen : 1 <= length n.
  Variable tab : op_tables.
  Hypothesis Ht : tables n tab.
  Lemma one_target q w w' s s' t t' r r' c : q < length n -> zpath n q w s -> zpath n q w' s' -> In (t, r) (trans (get n s)) -> In (t', r') (trans (get n s')) ->
    in_range c r = true -> in_range c r' = true -> t = t'.
  Proof using Ht.
    intros Hq Hz Hz' H H' Hc Hc'. destruct Ht as [_ _ T3 _ T5].
    assert (E := T5 q (r, tu_of (num_capture_groups n) t w) (r', tu_of (num_capture_groups n) t' w') c). cbn [fst] in E.
    specialize (E ltac:(apply T3; eauto 8) ltac:(apply T3; eauto 8) Hc Hc'). now injection E.
  Qed.
  Lemma one_each keep nfas r cl : in_n n nfas -> length nfas <= 1 -> In (r, cl) (cand_ranges (all_cands n keep nfas)) -> length (map c_to cl) <= 1.
  Proof using Hwf Hlen Ht.
    intros Hin Hl H. rewrite map_length. destruct (cands_targets n Hwf Hlen keep nfas r cl Hin H) as [_ N]. apply (short_nodup c_to); [exact N|].
    destruct (cand_ranges_ok (all_cands n keep nfas)) as [O1 O2 O3 O4]. rewrite Forall_forall in O1. specialize (O1 _ H). cbn [fst] in O1.
    assert (Hr : in_range (fst r) r = true) by (apply in_range_iff; lia). rewrite (O3 r cl (fst r) H Hr).
    assert (K : forall x, In x (dedup_cands (byte_cands (all_cands n keep nfas) (fst r))) -> exists q w s r0, nth_error nfas 0 = Some q /\ zpath n q w s /\ In (c_to x, r0) (trans (get n s)) /\ in_range (fst r) r0 = true).
    { intros x Hx. apply PDfa.dedup_In in Hx as [Hx _]. apply byte_cands_In in Hx as (r0 & Hx & Hc). apply all_cands_In in Hx as (k & t & w & Hk & Hz & _ & _ & Htr); [|assumption..].
      assert (c_from x < length nfas) by (apply nth_error_Some; congruence). replace (c_from x) with 0 in Hk by lia. exists k, w, t, r0. auto. }
    intros x y Hx Hy. destruct (K x Hx) as (q & w & s & r1 & Hq & Hz & Htr & Hc). destruct (K y Hy) as (q' & w' & s' & r2 & Hq' & Hz' & Htr' & Hc'). rewrite Hq in Hq'. injection Hq' as <-.
    apply (one_target q w w' s s' (c_to x) (c_to y) r1 r2 (fst r)); try assumption. destruct Hin as [Hin _]. rewrite Forall_forall in Hin. apply Hin. eapply nth_error_In; eauto.
  Qed.
  Lemma one_reached l : reached n l -> in_n n l /\ length l <= 1.
  Proof using Hwf Hlen Ht.
    induction 1 as [r cl H|nfas r cl _ [IH1 IH2] H].
    - assert (Hin : in_n n [0]) by (split; [constructor; [lia|constructor]|constructor; [intros []|constructor]]). split; [eapply cands_targets; eauto|eapply one_each; eauto].
    - split; [eapply cands_targets; eauto|eapply one_each; eauto].
  Qed.
  Lemma one_few max : length n + 1 <= max -> exists d, tdfa_from_nfa n max = Ok (Some d).
  Proof using Hwf Hlen Ht.
    intros Hm. destruct (tdfa_from_nfa_spec n Hwf Hlen max) as ([d|] & E & H); [eauto|]. exfalso. destruct H as (ls & N & H & Hl).
    assert (length ls <= length ([] :: map (fun x => [x]) (seq 0 (length n)))); [|cbn [length] in *; rewrite map_length, seq_length in *; lia].
    apply NoDup_incl_length; [assumption|]. intros l Hi. rewrite Forall_forall in H. destruct (H l Hi) as [_ Hr]. destruct (one_reached l Hr) as [[Hin _] Hs].
    destruct l as [|x [|y l]]; [now left| |cbn in Hs; lia]. right. apply in_map_iff. exists x. split; [reflexivity|]. apply in_seq. inversion Hin; subst. lia.
  Qed.
End One.
Theorem one_pass_dfa s en : Forall scalar s -> compile_one_pass s = Ok en -> exists en', compile_dfa s = Ok en'.
Proof.
  intros Hs H. unfold compile_one_pass in H. apply with_ere_ok in H as (e & Hp & H). apply bind_ok in H as (n & En & H). apply bind_ok in H as (m & Em & H).
  apply bind_ok in H as ([op|] & Eop & H); [|discriminate]. 
  unfold compile_dfa. rewrite (parsed_with_ere s e _ Hp), En. cbn [bind]. rewrite Em. cbn [bind].
  assert (Hm : m <> []) by (intros ->; vm_compute in Eop; discriminate).
  destruct (parsed_u8_ne s e Hp Hs n m En Em Hm) as (M1 & M2 & M3 & M4 & M5 & M6 & M7).
  assert (Et : exists tab, op_analyse m = Ok (Some tab)).
  { unfold op_make in Eop. destruct (op_analyse m) as [[tab|]| | |]; cbn [bind] in Eop; try discriminate; eauto; now apply bind_ok in Eop as (? & _ & ?). }
  destruct Et as (tab & Et). destruct (op_analyse_spec m (ok_wf _ M1) M6) as (o & Eo & Ho). rewrite Et in Eo. injection Eo as <-.
  destruct (one_few m (ok_wf _ M1) ltac:(lia) tab Ho (default_bound (length m))) as (d & Ed); [unfold default_bound; lia|]. rewrite Ed. cbn [bind]. unfold make_dfa.
  destruct (dfa_engine_late m _ d [] (ok_wf _ M1) ltac:(lia) Ed ltac:(constructor)) as [(x & Ex & _) _]. rewrite Ex. cbn [bind]. eauto.
Qed.

(** ** What the macros make of the family *)
Lemma pow_more k : 11 <= k -> 697 + 224 * k < 2 ^ S k.
Proof.
  intros H. induction H as [|k H IH]; [change 11 with (N.to_nat 11); change 12 with (N.to_nat 12); cbn; lia|]. cbn [Nat.pow] in *. lia.
Qed.
Lemma nth_last_atoms k a : In a (atoms (nth_last k)) -> a = NormalChar 97%N \/ a = Dot.
Proof.
  change (atoms (nth_last k)) with ((NormalChar 97%N :: flat_map atoms_part (dots k)) ++ []). rewrite app_nil_r. intros [<-|H]; [now left|]. right.
  apply in_flat_map in H as (p & Hp & H). unfold dots in Hp. apply in_app_or in Hp as [Hp|[<-|[]]]; [|destruct H]. apply repeat_spec in Hp. subst p. cbn in H. intuition.
Qed.
Lemma nth_last_match k : matches (98%N :: 97%N :: repeat 98%N k) (nth_last k) 1 (2 + k) [(0, (1, 2 + k))].
Proof.
  exists []. split; [|reflexivity]. apply ma_here. apply mb_cons with (L1 := []) (L2 := []) (j := 2); [apply mp_single, me_atom with 97%N; reflexivity|]. apply dots_matches; [|cbn; rewrite repeat_length; reflexivity].
  intros i c Hi. apply nth_error_In in Hi. destruct Hi as [<-|[<-|Hi]]; try discriminate. apply repeat_spec in Hi. subst. discriminate.
Qed.
Theorem nth_last_macros k : 11 <= k -> compile_dfa (nth_last_text k) = NoCompile /\ exists en, compile_regex (nth_last_text k) = Ok en /\ not_dfa en.
Proof.
  intros Hk. assert (Hp : parse_str (nth_last_text k) = ROk (nth_last k)) by apply parse_iff, nth_last_grammar. assert (Hs := nth_last_scalar k).
  set (T := 98%N :: 97%N :: repeat 98%N k). assert (HT : Forall scalar T) by (repeat constructor; apply Forall_forall; intros c Hc; apply repeat_spec in Hc; subst; reflexivity).
  destruct (parsed_automata _ _ Hp Hs T HT) as (n & m & En & Hn & Hg & Em & Hb); [eexists _, _, _; apply nth_last_match|].
  assert (Hm : m <> []) by (intros ->; destruct Hb as (_ & Hl & _); cbn in Hl; lia).
  assert (Hsz : List.length m <= 347 + 112 * k).
  { etransitivity; [apply (byte_size _ _ n m Hp Hs)|rewrite nth_last_size; lia]; try assumption. intros a Ha. apply nth_last_atoms in Ha as [-> | ->]; exact I. }
  assert (Eo : tdfa_from_nfa m (default_bound (List.length m)) = Ok None).
  { destruct Hb as (M1 & M2 & _). destruct (tdfa_from_nfa_spec m (ok_wf _ M1) ltac:(lia) (default_bound (List.length m))) as ([d|] & E & H); [|exact E]. exfalso.
    assert (G := nth_last_large k n m _ d En Em Hm E). assert (B := b_max _ _ _ H). assert (P := pow_more k Hk). unfold default_bound in B. lia. }
  split; [unfold compile_dfa; rewrite (parsed_with_ere _ _ _ Hp), En; cbn [bind]; rewrite Em; cbn [bind]; now rewrite Eo|].
  assert (Hnw : forall a, In a (atoms (nth_last k)) -> named_well a) by (intros a Ha; apply nth_last_atoms in Ha as [-> | ->]; exact I).
  assert (HTl : 0 < 1 < List.length T) by (unfold T; cbn [List.length]; lia).
  destruct (default_compiles _ _ Hp Hs T _ _ _ Hnw HT (nth_last_match k) HTl) as (en & E).
  exists en. split; [exact E|]. unfold compile_regex in E. rewrite (parsed_with_ere _ _ _ Hp) in E. unfold pick_engine, pick_base_engine in E. rewrite En in E. cbn [bind] in E. rewrite Em in E. cbn [bind] in E.
  rewrite (not_one_pass _ m T _ _ _ Hb HT (nth_last_match k) HTl) in E. cbn [bind] in E. rewrite Eo in E. cbn [bind] in E. apply bind_ok in E as ([b u] & E1 & E2).
  apply bind_ok in E1 as (b' & E1 & E3). injection E3 as <- <-. assert (Hb' : not_dfa b').
  { destruct (nfa_is_ascii n); [unfold make_flat_u8 in E1|unfold make_flat in E1]; apply bind_ok in E1 as (? & _ & E1); [injection E1 as <-; exact I|]. destruct (nfa_compiles n); [|discriminate]. injection E1 as <-. exact I. }
  apply bind_ok in E2 as ([offs|] & _ & E2); [|now injection E2 as <-]. destruct (List.length offs =? num_capture_groups m); [|discriminate]. injection E2 as <-. destruct b'; exact Hb' || exact I.
Qed.
