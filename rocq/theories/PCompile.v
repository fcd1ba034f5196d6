(** Which patterns the default macro compiles. *)
From Verif Require Export SpecGroups PCount.
From Coq Require Import ZifyBool ZifyNat ZifyN.
Open Scope nat_scope.
Open Scope list_scope.
Set Default Proof Using "Type".

(** *** A pattern that can match later and read something is not one-pass *)
Lemma nth_skipn (T : list N) i c : nth_error T i = Some c -> skipn i T = c :: skipn (S i) T.
Proof. revert i; induction T as [|x T IH]; intros [|i] H; cbn in *; try discriminate; [now injection H as ->|now apply IH]. Qed.
Lemma skipn_add {A} a : forall b (l : list A), skipn a (skipn b l) = skipn (b + a) l.
Proof. induction b as [|b IH]; intros l; [reflexivity|]. destruct l; cbn; [now rewrite skipn_nil|apply IH]. Qed.
Lemma reads_shift T i v j : reads T i v j -> ~ In (IM EStart) v -> forall p, reads (p ++ skipn i T) (length p) v (length p + (j - i)).
Proof.
  induction 1 as [i Hi|i c w j Hc H IH|i e w j H1 H2 H IH]; intros Hn p.
  - rewrite Nat.sub_diag, Nat.add_0_r. constructor. rewrite app_length. lia.
  - assert (Hl := reads_le _ _ _ _ H). rewrite (nth_skipn _ _ _ Hc). constructor; [rewrite nth_error_app2, Nat.sub_diag by lia; reflexivity|].
    specialize (IH ltac:(intros X; apply Hn; now right) (p ++ [c])). rewrite <- app_assoc in IH. rewrite app_length in IH. cbn [length app] in IH.
    replace (length p + (j - i)) with (length p + 1 + (j - S i)) by lia. now rewrite Nat.add_1_r in IH |- *.
  - assert (Hl := reads_le _ _ _ _ H). constructor; [intros ->; exfalso; apply Hn; now left| |].
    + intros ->. rewrite app_length, skipn_length. rewrite H2 by reflexivity. lia.
    + apply IH. intros X; apply Hn; now right.
Qed.
Lemma later_unanchored T i v j : reads T i v j -> 0 < i -> ~ In (IM EStart) v.
Proof.
  induction 1 as [i Hi|i c w j Hc H IH|i e w j H1 H2 H IH]; intros H0 Hi'; [destruct Hi'| |]; destruct Hi' as [E|Hi']; try discriminate.
  - apply IH; [lia|assumption].
  - injection E as ->. rewrite H1 in H0 by reflexivity. lia.
  - now apply IH.
Qed.
Lemma shifted_accepted T e i j v p : Forall scalar T -> Forall scalar p -> tlang acheck (tree_of e) v -> reads T i v j -> 0 < i ->
  accepted (p ++ skipn i T) e (map IC p ++ v ++ map IC (skipn j T)).
Proof.
  intros HT Hp Hv Hr Hi. assert (Hl := reads_le _ _ _ _ Hr). split.
  - exists p, v, (skipn j T). repeat split; try discriminate; auto. apply Forall_forall. intros x Hx. rewrite Forall_forall in HT. apply HT. rewrite <- (firstn_skipn j T). apply in_or_app. auto.
  - apply reads_app. exists (length p). split.
    + apply (reads_IC (p ++ skipn i T) 0 p); [|rewrite app_length; lia]. cbn [skipn]. rewrite firstn_app, Nat.sub_diag, firstn_all. cbn. apply app_nil_r.
    + apply reads_app. exists (length p + (j - i)). split; [apply reads_shift; [assumption|eapply later_unanchored; eauto]|].
      assert (E : p ++ skipn i T = (p ++ firstn (j - i) (skipn i T)) ++ skipn j T).
      { rewrite <- app_assoc. f_equal. rewrite <- (firstn_skipn (j - i) (skipn i T)) at 1. f_equal. rewrite skipn_add. f_equal. lia. }
      rewrite E. assert (El : length (p ++ firstn (j - i) (skipn i T)) = length p + (j - i)) by (rewrite app_length, firstn_length, skipn_length; lia).
      rewrite (app_length _ (skipn j T)), El. apply reads_IC; [|rewrite app_length, El; lia].
      rewrite <- El, skipn_app, skipn_all, Nat.sub_diag. cbn. apply firstn_all.
Qed.
Definition head_byte (c : N) : N := hd 0%N (encode c).
Lemma encode_head c : exists r, encode c = head_byte c :: r.
Proof. unfold head_byte. destruct (encode c) as [|b r] eqn:E; [now apply encode_nonempty in E|]. exists r. reflexivity. Qed.
Lemma rest_row_at (m : nfa range) tab T w b : tables m tab -> 1 <= length m -> lang byte_check m w -> reads T 0 w (length T) -> nth_error T 0 = Some b ->
  exists u r t w', w = u ++ IC b :: w' /\ chars u = [] /\ In (r, tu_of (num_capture_groups m) t u) (nth 0 (op_syms tab) []) /\ in_range b r = true.
Proof.
  intros Ht Hl Hw Hr Hb. destruct (rest_now T byte_check m 0 0 w (conj Hw Hr)) as (u & q & v & -> & Hz & Hu & [(_ & _ & E)|(t & a & c & w' & -> & Hc & Ha & Hca & Hr')]).
  - assert (0 < length T) by (apply nth_error_Some; congruence). lia.
  - rewrite Hc in Hb. injection Hb as ->. exists u, a, t, w'. split; [reflexivity|]. split; [eapply zpath_chars; eauto|]. split; [|assumption].
    apply (proj2 (t_syms _ _ Ht 0 _ _ ltac:(lia))). exists u, q, t. auto.
Qed.
Lemma wfb_tags_ok (m : nfa range) : groups_ok m -> tu_tags_ok m = true.
Proof.
  intros Hg. apply forallb_forall. intros st Hst. apply (In_nth _ _ empty_state) in Hst as (s & Hs & <-). apply forallb_forall. intros [t k] Hk. cbn [snd].
  destruct k; try reflexivity; apply Nat.ltb_lt; eauto.
Qed.
Lemma not_one_pass e m T i j L : byte_automaton_of e m -> Forall scalar T -> matches T e i j L -> 0 < i < length T -> op_make m = Ok None.
Proof.
  intros Hm HT Hma Hij. apply (matches_word T HT) in Hma as (v & Hv & Hr & _). assert (Hl := reads_le _ _ _ _ Hr).
  destruct (nth_error T i) as [c|] eqn:Ec; [|apply nth_error_None in Ec; lia].
  assert (Hc : scalar c) by (rewrite Forall_forall in HT; apply HT; eapply nth_error_In; eauto).
  assert (HS : Forall scalar (skipn i T)) by (apply Forall_forall; intros x Hx; rewrite Forall_forall in HT; apply HT; rewrite <- (firstn_skipn i T); apply in_or_app; auto).
  assert (A1 := shifted_accepted T e i j v [] HT ltac:(constructor) Hv Hr ltac:(lia)).
  assert (A2 := shifted_accepted T e i j v [c] HT ltac:(repeat constructor; assumption) Hv Hr ltac:(lia)).
  assert (Hm' := Hm). destruct Hm' as (M1 & M2 & M3 & M4 & M5 & M6 & M7). cbn [app map] in A1, A2.
  destruct (proj2 (M4 _ _ HS) (ex_intro _ _ (conj A1 eq_refl))) as [L1 R1].
  destruct (proj2 (M4 (c :: skipn i T) _ ltac:(constructor; assumption)) (ex_intro _ _ (conj A2 eq_refl))) as [L2 R2].
  unfold op_make. rewrite (proj2 (wfb_iff m) (ok_wf _ M1)), (wfb_tags_ok m M5). cbn [andb guard bind].
  destruct (op_analyse_spec m (ok_wf _ M1) M6) as (o & -> & Ho). cbn [bind]. destruct o as [tab|]; [|reflexivity]. exfalso.
  destruct (encode_head c) as (rb & Eb).
  destruct (rest_row_at m tab _ _ (head_byte c) Ho ltac:(lia) L1 R1) as (u1 & r1 & t1 & w1 & E1 & Hu1 & In1 & Hr1).
  { rewrite (nth_skipn _ _ _ Ec). cbn. rewrite Eb. reflexivity. }
  destruct (rest_row_at m tab _ _ (head_byte c) Ho ltac:(lia) L2 R2) as (u2 & r2 & t2 & w2 & E2 & Hu2 & In2 & Hr2).
  { cbn. rewrite Eb. reflexivity. }
  assert (X := t_unique _ _ Ho 0 _ _ _ In1 In2 Hr1 Hr2). apply (f_equal snd) in X. cbn [snd] in X.
  assert (U2 : u2 = []). { destruct u2 as [|[x|x] u2]; [reflexivity|discriminate|]. cbn in E2. rewrite Eb in E2. discriminate. }
  assert (U1 : has (ESC 0) u1 = true).
  { rewrite tree_of_eq in Hv. destruct Hv as (v' & _ & ->). destruct u1 as [|x u1]; cbn in E1; [discriminate|]. injection E1 as <- _. reflexivity. }
  subst u2. assert (Y : In (TagS 0) (tu_tags (tu_of (num_capture_groups m) t1 u1))).
  { apply tu_tags_In. split; [apply num_groups_pos|]. unfold tags_of. apply tags_of_In. right. exists (IM (ESC 0)). split; [now apply has_iff|now left]. }
  rewrite X in Y. apply tu_tags_In in Y as [_ []].
Qed.

(** *** The names of the classes *)
Lemma atoms_In (P : atom -> Prop) :
  (forall p, part_atoms P p <-> forall a, In a (atoms_part p) -> P a) /\ (forall e, expr_atoms P e <-> forall a, In a (atoms_expr e) -> P a) /\
  (forall b, branch_atoms P b <-> forall a, In a (atoms_branch b) -> P a) /\ (forall e, ere_atoms P e <-> forall a, In a (atoms e) -> P a).
Proof.
  apply syntax_ind; intros.
  - exact H.
  - exact H.
  - split; [intros _ a []|constructor].
  - split; [intros _ a []|constructor].
  - cbn. split; [intros H b [<-|[]]; exact H|intros H; apply H; now left].
  - exact H.
  - split; [intros _ a []|constructor].
  - change (atoms_branch (p :: b)) with (atoms_part p ++ atoms_branch b). change (branch_atoms P (p :: b)) with (part_atoms P p /\ branch_atoms P b). rewrite H, H0. split.
    + intros [H1 H2] a Ha. apply in_app_or in Ha as [Ha|Ha]; auto.
    + intros H1. split; intros a Ha; apply H1, in_or_app; auto.
  - split; [intros _ a []|constructor].
  - change (atoms (b :: e)) with (atoms_branch b ++ atoms e). change (ere_atoms P (b :: e)) with (branch_atoms P b /\ ere_atoms P e). rewrite H, H0. split.
    + intros [H1 H2] a Ha. apply in_app_or in Ha as [Ha|Ha]; auto.
    + intros H1. split; intros a Ha; apply H1, in_or_app; auto.
Qed.
Lemma named_compiles a : named_well a <-> atom_compiles a = true.
Proof.
  assert (G : forall l, (~ In (Class Graphic) l /\ ~ In (Class HexDigit) l) <-> forallb term_compiles l = true).
  { intros l. rewrite forallb_forall. split.
    - intros [H1 H2] t Ht. destruct t as [| |k]; try reflexivity. destruct k; try reflexivity; tauto.
    - intros H. split; intros X; apply H in X; vm_compute in X; discriminate. }
  destruct a; cbn; try tauto; apply G.
Qed.
Lemma working_compiles e n : ere_atoms atom_ok e -> (forall a, In a (atoms e) -> named_well a) -> working_new (tree_of e) = Ok n -> nfa_compiles n = true.
Proof.
  intros Ha Hn En. assert (He : ere_atoms (fun a => a = NonmatchingList [] \/ In a (atoms e)) e) by (apply (proj2 (proj2 (proj2 (atoms_In _)))); auto).
  destruct (working_spec true true (tree_of e)) as (n' & En' & H).
  - eapply tree_labels_mono; [|apply tree_of_labels; exact Ha]. auto.
  - apply tree_of_ok.
  - apply tree_of_length.
  - unfold working_new in En. rewrite En in En'. injection En' as <-. destruct H as [[-> _]|(_ & _ & _ & _ & _ & H6)]; [reflexivity|].
    apply forallb_forall. intros st Hst. apply forallb_forall. intros [t a] Hin. cbn [snd].
    assert (HF : Forall (lab (fun a => a = NonmatchingList [] \/ In a (atoms e)) (mark_in 0 (S (groups e)))) n).
    { apply H6; [exact I|now left|]. apply tree_of_labels. exact He. }
    rewrite Forall_forall in HF. destruct (HF st Hst) as [HT _]. destruct (HT _ _ Hin) as [->|Hi]; [reflexivity|]. now apply named_compiles, Hn.
Qed.

(** *** The default macro *)
  Lemma fixed_ok e m b : byte_automaton_of e m -> exists en, (do o <- fixed_offsets m; match o with Some offs => if length offs =? num_capture_groups m then Ok (EFixed b offs) else NoCompile | None => Ok b end) = Ok en.
  Proof.
    intros (M1 & M2 & M3 & M4 & M5 & M6 & M7). destruct (fixed_offsets_spec m M6 (ok_wf _ M1) ltac:(lia) M5) as (o & -> & Ho). cbn [bind]. destruct o as [offs|]; [|eauto].
    destruct (proj1 (Ho offs) eq_refl) as (_ & (W0 & HW0) & Hall).
    assert (Hlen : length offs = num_capture_groups m) by (rewrite <- (Hall W0 HW0), run_marks_length; apply repeat_length). rewrite Hlen, Nat.eqb_refl. eauto.
  Qed.
Section Default.
  Variables (s : list N) (e : ere).
  Hypothesis Hp : parse_str s = ROk e.
  Hypothesis Hs : Forall scalar s.
  Lemma parsed_automata T : Forall scalar T -> occurs e T ->
    exists n m, working_new (tree_of e) = Ok n /\ automaton_of e n /\ groups_ok n /\ u8_new n = Ok m /\ byte_automaton_of e m.
  Proof using Hp Hs.
    intros HT Ho. destruct (working_new_spec e (parsed_ok s e Hp Hs)) as (n & En & [[-> Hn]|Hn]); [destruct (Hn T HT Ho)|].
    assert (Hne : n <> []) by (intros ->; destruct Hn as (_ & Hl & _); cbn in Hl; lia).
    destruct (parsed_u8 s e Hp Hs n En Hne) as (m & Em & [[-> Hm]|Hm]); [destruct (Hm T HT Ho)|].
    exists n, m. do 2 (split; [assumption|]). split; [now apply (parsed_working_ne s e Hp Hs n En Hne)|]. auto.
  Qed.
  Theorem default_compiles T i j L : (forall a, In a (atoms e) -> named_well a) -> Forall scalar T -> matches T e i j L -> 0 < i < length T -> exists en, compile_regex s = Ok en.
  Proof using Hp Hs.
    intros Ha HT Hm Hij. destruct (parsed_automata T HT) as (n & m & En & Hn & Hg & Em & Hb); [now exists i, j, L|].
    unfold compile_regex. rewrite (parsed_with_ere s e _ Hp). unfold pick_engine, pick_base_engine. rewrite En. cbn [bind]. rewrite Em. cbn [bind].
    rewrite (not_one_pass e m T i j L Hb HT Hm Hij). cbn [bind]. assert (Hb' := Hb). destruct Hb' as (M1 & M2 & M3 & M4 & M5 & M6 & M7).
    destruct (tdfa_from_nfa_spec m (ok_wf _ M1) ltac:(lia) (default_bound (length m))) as (o & Eo & Ho). rewrite Eo. cbn [bind]. destruct o as [d|].
    - destruct (dfa_engine_late m _ d [] (ok_wf _ M1) ltac:(lia) Eo ltac:(constructor)) as [(x & Ex & _) _]. unfold make_dfa. rewrite Ex. cbn [bind]. now apply (fixed_ok e).
    - destruct (nfa_is_ascii n).
      + unfold make_flat_u8. destruct (flat_make_spec m (ok_wf _ M1) ltac:(lia) M5) as (tbl & -> & _). cbn [bind]. now apply (fixed_ok e).
      + unfold make_flat. destruct Hn as (N1 & N2 & _). destruct (flat_make_spec n (ok_wf _ N1) ltac:(lia) Hg) as (tbl & -> & _). cbn [bind].
        rewrite (working_compiles e n (parsed_ok s e Hp Hs) Ha En). cbn [bind]. now apply (fixed_ok e).
  Qed.
  (** The macros that name an engine. *)
  Theorem flat_u8_compiles T : Forall scalar T -> occurs e T -> exists en, compile_flat_u8 s = Ok en.
  Proof using Hp Hs.
    intros HT Ho. destruct (parsed_automata T HT Ho) as (n & m & En & Hn & Hg & Em & Hb). unfold compile_flat_u8. rewrite (parsed_with_ere s e _ Hp), En. cbn [bind]. rewrite Em. cbn [bind].
    destruct Hb as (M1 & M2 & M3 & M4 & M5 & M6 & M7). unfold make_flat_u8. destruct (flat_make_spec m (ok_wf _ M1) ltac:(lia) M5) as (tbl & -> & _). cbn [bind]. eauto.
  Qed.
  Theorem flat_compiles T : (forall a, In a (atoms e) -> named_well a) -> Forall scalar T -> occurs e T -> exists en, compile_flat s = Ok en.
  Proof using Hp Hs.
    intros Ha HT Ho. destruct (parsed_automata T HT Ho) as (n & m & En & Hn & Hg & Em & Hb). unfold compile_flat. rewrite (parsed_with_ere s e _ Hp), En. cbn [bind].
    destruct Hn as (N1 & N2 & _). unfold make_flat. destruct (flat_make_spec n (ok_wf _ N1) ltac:(lia) Hg) as (tbl & -> & _). cbn [bind].
    rewrite (working_compiles e n (parsed_ok s e Hp Hs) Ha En). eauto.
  Qed.
End Default.
