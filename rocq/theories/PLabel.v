(** Drawings determine the byte automata they were made from. *)
From Coq Require Import String ZArith.
From Verif Require Export PDraw.
From Coq Require Import ZifyBool ZifyNat ZifyN Permutation.
Open Scope nat_scope.
Open Scope list_scope.
Set Default Proof Using "Type".
Local Arguments show_nat : simpl never.
Local Arguments show_N : simpl never.

(** ** Labels of bytes *)
Fixpoint is_prefix (a b : list N) : bool :=
  match a, b with
  | [], _ => true
  | _, [] => false
  | x :: a, y :: b => (x =? y)%N && is_prefix a b
  end.
Lemma prefix_or (a b s t : list N) : a ++ s = b ++ t -> is_prefix a b = true \/ is_prefix b a = true.
Proof.
  revert b. induction a as [|x a IH]; intros b E; [now left|]. destruct b as [|y b]; [now right|]. cbn in E. injection E as -> E. cbn. rewrite N.eqb_refl. cbn.
  exact (IH b E).
Qed.
Definition all_bytes : list N := map N.of_nat (seq 0 256).
Lemma all_bytes_in b : (b < 256)%N -> In b all_bytes.
Proof. intros H. unfold all_bytes. apply in_map_iff. exists (N.to_nat b). split; [lia|]. apply in_seq. lia. Qed.
Definition prefix_free (f : N -> list N) : bool :=
  forallb (fun b => forallb (fun c => (b =? c)%N || negb (is_prefix (f b) (f c))) all_bytes) all_bytes.
Lemma prefix_free_inj f b c s t : prefix_free f = true -> (b < 256)%N -> (c < 256)%N -> f b ++ s = f c ++ t -> b = c /\ s = t.
Proof.
  intros H Hb Hc E. unfold prefix_free in H. rewrite forallb_forall in H. assert (P : forall x y, (x < 256)%N -> (y < 256)%N -> x = y \/ is_prefix (f x) (f y) = false).
  { intros x y Hx Hy. specialize (H x (all_bytes_in x Hx)). rewrite forallb_forall in H. specialize (H y (all_bytes_in y Hy)).
    destruct (N.eqb_spec x y); [now left|]. right. cbn [orb] in H. now destruct (is_prefix (f x) (f y)). }
  assert (G : b = c).
  { destruct (prefix_or _ _ _ _ E) as [Q|Q]; [destruct (P b c Hb Hc)|destruct (P c b Hc Hb)]; congruence. }
  subst c. split; [reflexivity|]. eapply app_inv_head. exact E.
Qed.
Lemma escape_ascii_free : prefix_free escape_ascii = true.
Proof. vm_compute. reflexivity. Qed.
Lemma byte_char_free : prefix_free show_byte_char = true.
Proof. vm_compute. reflexivity. Qed.
Definition byte_range (r : range) : Prop := (fst r < 256)%N /\ (snd r < 256)%N.
Lemma single_not_range : forallb (fun b => negb (is_prefix (s2l "[") (escape_ascii b)) || (b =? ch "[")%N) all_bytes = true.
Proof. vm_compute. reflexivity. Qed.
Lemma u8_label_neq b s : (b < 256)%N -> escape_ascii b = s2l "[" ++ s -> s = [].
Proof.
  intros H E. pose proof single_not_range as P. rewrite forallb_forall in P. specialize (P b (all_bytes_in b H)). rewrite E in P. cbn in P.
  apply N.eqb_eq in P. subst b. vm_compute in E. now injection E as <-.
Qed.
Lemma u8_label_inj r r' : byte_range r -> byte_range r' -> show_u8_atom r = show_u8_atom r' -> r = r'.
Proof.
  intros [H1 H2] [H3 H4] E. unfold show_u8_atom in E. destruct r as [a b], r' as [c d]. cbn [fst snd] in *.
  destruct (N.eqb_spec a b) as [->|Hab], (N.eqb_spec c d) as [->|Hcd].
  - destruct (prefix_free_inj escape_ascii b d [] [] escape_ascii_free H1 H3) as [-> _]; [now rewrite !app_nil_r|reflexivity].
  - apply u8_label_neq in E; [|exact H1]. apply app_eq_nil in E as [_ E]. discriminate.
  - symmetry in E. apply u8_label_neq in E; [|exact H3]. apply app_eq_nil in E as [_ E]. discriminate.
  - apply app_inv_head in E. destruct (prefix_free_inj _ _ _ _ _ escape_ascii_free H1 H3 E) as [-> E2]. apply app_inv_head in E2.
    destruct (prefix_free_inj _ _ _ _ _ escape_ascii_free H2 H4 E2) as [-> _]. reflexivity.
Qed.
Lemma range_label_inj r r' : byte_range r -> byte_range r' -> show_byte_range r = show_byte_range r' -> r = r'.
Proof.
  intros [H1 H2] [H3 H4] E. unfold show_byte_range in E. destruct r as [a b], r' as [c d]. cbn [fst snd] in *.
  destruct (N.eqb_spec a b) as [->|Hab], (N.eqb_spec c d) as [->|Hcd].
  - destruct (prefix_free_inj show_byte_char b d [] [] byte_char_free H1 H3) as [-> _]; [now rewrite !app_nil_r|reflexivity].
  - exfalso. rewrite <- (app_nil_r (show_byte_char b)) in E. destruct (prefix_free_inj _ _ _ _ _ byte_char_free H1 H3 E) as [_ E2]. discriminate.
  - exfalso. rewrite <- (app_nil_r (show_byte_char d)) in E. destruct (prefix_free_inj _ _ _ _ _ byte_char_free H1 H3 E) as [_ E2]. discriminate.
  - destruct (prefix_free_inj _ _ _ _ _ byte_char_free H1 H3 E) as [-> E2]. apply app_inv_head in E2. rewrite <- (app_nil_r (show_byte_char b)), <- (app_nil_r (show_byte_char d)) in E2.
    destruct (prefix_free_inj _ _ _ _ _ byte_char_free H2 H4 E2) as [-> _]. reflexivity.
Qed.
Lemma escape_inj s t : escape_latex s = escape_latex t -> s = t.
Proof. intros E. apply (prints_fun (escape_latex s) s (escape_prints s)). rewrite E. apply escape_prints. Qed.

(** ** Labels of zero-width edges *)
Lemma not_prints_dollar s t : ~ prints (ch "$" :: s) t.
Proof. intros H. inversion H as [|? ? ? Hc ?|? ? ? Hc ?|]; subst. discriminate. Qed.
Lemma eps_label_not k e t : ~ prints (eps_label k e) t.
Proof.
  intros H. destruct e; try exact (not_prints_dollar _ _ H). unfold eps_label in H.
  assert (G : exists t', prints (s2l "$_{" ++ show_nat k ++ s2l "}$") t'); [|destruct G as [t' G]; exact (not_prints_dollar _ _ G)].
  change (s2l "{\textasciicircum}$_{" ++ show_nat k ++ s2l "}$") with (s2l "{\" ++ s2l "textasciicircum" ++ s2l "}" ++ (s2l "$_{" ++ show_nat k ++ s2l "}$")) in H.
  remember (s2l "$_{" ++ show_nat k ++ s2l "}$") as rest. remember (s2l "{\" ++ s2l "textasciicircum" ++ s2l "}" ++ rest) as full eqn:Ef.
  inversion H as [E|? s1 ? Hc' Hp' E|? s1 ? Hc' Hp' E|w' c' s1 t1 Hw' Hp' E].
  - rewrite Ef in E. discriminate.
  - rewrite Ef in E. injection E as E1 E2. rewrite E1 in Hc'. discriminate.
  - rewrite Ef in E. discriminate.
  - rewrite Ef in E. apply app_inv_head in E. cbn [In] in Hw'. destruct Hw' as [Hw'|[Hw'|[Hw'|[]]]]; injection Hw' as <- <-; try discriminate.
    cbn in E. injection E as E. subst s1. eauto.
Qed.
Lemma show_nat_digit k : exists d s, show_nat k = d :: s /\ is_digit d.
Proof. destruct (show_N_decimal (N.of_nat k)) as (Hn & Hd & _). unfold show_nat. destruct (show_N (N.of_nat k)); [congruence|]. inversion Hd; subst. eauto. Qed.
Lemma show_nat_inj k k' s s' c c' : ~ is_digit c -> ~ is_digit c' -> show_nat k ++ c :: s = show_nat k' ++ c' :: s' -> k = k' /\ c :: s = c' :: s'.
Proof.
  intros Hc Hc' E. destruct (show_N_decimal (N.of_nat k)) as (_ & Hd & Hv). destruct (show_N_decimal (N.of_nat k')) as (_ & Hd' & Hv'). unfold show_nat in *.
  assert (G : forall a b, Forall is_digit a -> Forall is_digit b -> a ++ c :: s = b ++ c' :: s' -> a = b /\ c :: s = c' :: s').
  { intros a. induction a as [|x a IH]; intros b Ha Hb E'.
    - destruct b as [|y b]; [now split|]. cbn in E'. injection E' as -> _. inversion Hb; subst. contradiction.
    - destruct b as [|y b]; [cbn in E'; injection E' as <- _; inversion Ha; subst; contradiction|]. cbn in E'. injection E' as -> E'. inversion Ha; inversion Hb; subst.
      destruct (IH b) as [-> ?]; auto. }
  destruct (G _ _ Hd Hd' E) as [E1 E2]. split; [|exact E2]. rewrite E1 in Hv. rewrite Hv in Hv'. lia.
Qed.
Lemma eps_label_inj k e e' : eps_label k e = eps_label k e' -> e = e'.
Proof.
  intros E. assert (D : forall c, In c (s2l "\{}()_$") -> ~ is_digit c).
  { intros c Hc Hd. unfold is_digit in Hd. cbn in Hc. repeat destruct Hc as [<-|Hc]; vm_compute in Hd; destruct Hd as [Hd1 Hd2]; try (now apply Hd1); try (now apply Hd2); destruct Hc. }
  destruct e as [ | | |i|i], e' as [ | | |j|j]; try reflexivity; try discriminate; unfold eps_label in E; try (destruct (show_nat_digit i) as (d & s & Ed & Hd)); try (destruct (show_nat_digit j) as (d' & s' & Ed' & Hd')); cbn in E;
    try (exfalso; rewrite Ed in E; cbn in E; injection E as E _; first [rewrite E in Hd|rewrite <- E in Hd]; revert Hd; apply D; cbn; tauto);
    try (exfalso; rewrite Ed' in E; cbn in E; injection E as E _; first [rewrite E in Hd'|rewrite <- E in Hd']; revert Hd'; apply D; cbn; tauto).
  - injection E as E. apply show_nat_inj in E as [-> _]; [reflexivity| |]; apply D; cbn; tauto.
  - injection E as E. apply show_nat_inj in E as [-> _]; [reflexivity| |]; apply D; cbn; tauto.
Qed.

(** ** Automata *)
Lemma map_inj {A B} (f : A -> B) (P : A -> Prop) l l' : (forall x y, P x -> P y -> f x = f y -> x = y) -> Forall P l -> Forall P l' -> map f l = map f l' -> l = l'.
Proof.
  intros Hf Hl. revert l'. induction Hl as [|x l Hx Hl IH]; intros [|y l'] Hl' E; try discriminate; [reflexivity|]. cbn in E. injection E as E1 E2. inversion Hl'; subst.
  f_equal; auto.
Qed.
Lemma split_lists {A} (P : A -> Prop) (a a' b b' : list A) :
  Forall P a -> Forall P a' -> Forall (fun x => ~ P x) b -> Forall (fun x => ~ P x) b' -> a ++ b = a' ++ b' -> a = a' /\ b = b'.
Proof.
  intros Ha. revert a'. induction Ha as [|x a Hx Ha IH]; intros [|y a'] Ha' Hb Hb' E; cbn in E.
  - now split.
  - subst b. exfalso. inversion Ha'; inversion Hb; subst. contradiction.
  - subst b'. exfalso. inversion Hb'; subst. contradiction.
  - injection E as -> E. inversion Ha'; subst. destruct (IH a') as [-> ->]; auto.
Qed.
Lemma enumerate_inj {A B} (f : nat * A -> B) (P : A -> Prop) (l l' : list A) : (forall i x y, P x -> P y -> f (i, x) = f (i, y) -> x = y) -> Forall P l -> Forall P l' ->
  map f (enumerate l) = map f (enumerate l') -> l = l'.
Proof.
  unfold enumerate. intros Hf. generalize 0. intros k Hl. revert k l'. induction Hl as [|x l Hx Hl IH]; intros k [|y l'] Hl' E; try discriminate; [reflexivity|].
  cbn in E. injection E as E1 E2. inversion Hl'; subst. f_equal; [eapply Hf; eauto|eapply IH; eauto].
Qed.
(** The symbols of a byte automaton are bytes. *)
Definition bytes_nfa (n : nfa range) : Prop := Forall (fun s => Forall (fun t => byte_range (snd t)) (trans s)) n.
Lemma nfa_graph_inj n m : bytes_nfa n -> bytes_nfa m -> nfa_graph show_u8_atom n = nfa_graph show_u8_atom m -> n = m.
Proof.
  unfold nfa_graph. intros Hn Hm E. assert (El : length n = length m).
  { apply (f_equal (@length _)) in E. now rewrite !map_length, !enumerate_length in E. }
  rewrite El in E. revert E. apply enumerate_inj with (P := fun s => Forall (fun t => byte_range (snd t)) (trans s)); [|exact Hn|exact Hm].
  intros i x y Hx Hy E. injection E as E.
  apply (split_lists (fun p => exists t, prints (snd p) t)) in E; cycle 1.
  { apply Forall_map, Forall_forall. intros t _. cbn. eexists. apply escape_prints. }
  { apply Forall_map, Forall_forall. intros t _. cbn. eexists. apply escape_prints. }
  { apply Forall_map, Forall_forall. intros [k e] _ [t Ht]. exact (eps_label_not _ _ _ Ht). }
  { apply Forall_map, Forall_forall. intros [k e] _ [t Ht]. exact (eps_label_not _ _ _ Ht). }
  destruct E as [E1 E2]. destruct x as [tx ex], y as [ty ey]. cbn [trans eps] in *. f_equal.
  - revert E1. apply map_inj with (P := fun t => byte_range (snd t)); [|exact Hx|exact Hy]. intros [a r] [b r'] Hr Hr' E. injection E as -> E. cbn [snd] in *.
    apply escape_inj, u8_label_inj in E; [now subst|assumption|assumption].
  - revert E2. apply enumerate_inj with (P := fun _ => True); try (apply Forall_forall; auto). intros k [a e] [b e'] _ _ E. injection E as -> E. cbn [snd] in E. apply eps_label_inj in E. now subst.
Qed.
Definition bytes_dfa (d : dfa) : Prop := Forall (fun s => Forall (fun t => byte_range (snd t)) (ds_trans s)) (d_start d :: d_states d).
Lemma dfa_graph_inj d d' : bytes_dfa d -> bytes_dfa d' -> Forall (fun s => Forall (fun t => fst t < length (d_states d)) (ds_trans s)) (d_start d :: d_states d) ->
  Forall (fun s => Forall (fun t => fst t < length (d_states d')) (ds_trans s)) (d_start d' :: d_states d') -> dfa_graph d = dfa_graph d' -> d_start d = d_start d' /\ d_states d = d_states d'.
Proof.
  unfold dfa_graph. intros Hd Hd' Td Td' E. apply app_inj_tail in E as [E _].
  assert (El : length (d_states d) = length (d_states d')).
  { apply (f_equal (@length _)) in E. rewrite !map_length, !enumerate_length in E. cbn in E. lia. }
  assert (G : d_start d :: d_states d = d_start d' :: d_states d'); [|injection G; auto]. rewrite El in E, Td.
  assert (Pd : Forall (fun s => Forall (fun t => byte_range (snd t) /\ fst t < length (d_states d')) (ds_trans s)) (d_start d :: d_states d)).
  { unfold bytes_dfa in *. rewrite Forall_forall in *. intros s Hs. apply Forall_forall. intros t Ht. specialize (Hd s Hs). specialize (Td s Hs). rewrite Forall_forall in Hd, Td. auto. }
  assert (Pd' : Forall (fun s => Forall (fun t => byte_range (snd t) /\ fst t < length (d_states d')) (ds_trans s)) (d_start d' :: d_states d')).
  { clear - Hd' Td'. unfold bytes_dfa in *. rewrite Forall_forall in *. intros s Hs. apply Forall_forall. intros t Ht. specialize (Hd' s Hs). specialize (Td' s Hs). rewrite Forall_forall in Hd', Td'. auto. }
  revert E. apply enumerate_inj with (P := fun s => Forall (fun t => byte_range (snd t) /\ fst t < length (d_states d')) (ds_trans s)); [|exact Pd|exact Pd'].
  intros i x y Hx Hy E. injection E as E. apply (split_lists (fun p => fst p < length (d_states d') + 1)) in E; cycle 1.
  { apply Forall_map. eapply Forall_impl; [|exact Hx]. cbn. intros t [_ H]. lia. }
  { apply Forall_map. eapply Forall_impl; [|exact Hy]. cbn. intros t [_ H]. lia. }
  { destruct (ds_acc x); constructor; cbn; try lia; constructor. }
  { destruct (ds_acc y); constructor; cbn; try lia; constructor. }
  destruct E as [E1 E2]. destruct x as [ax tx], y as [ay ty]. cbn [ds_trans ds_acc] in *. f_equal; [destruct ax, ay; try reflexivity; exfalso; apply (f_equal (map snd)) in E2; cbn in E2; discriminate E2|].
  revert E1. apply map_inj with (P := fun t => byte_range (snd t) /\ fst t < length (d_states d')); [|exact Hx|exact Hy]. intros [a r] [b r'] [Hr _] [Hr' _] E. cbn [fst snd] in *. assert (E0 := f_equal fst E). apply (f_equal snd) in E. cbn [fst snd] in E0, E.
  apply escape_inj, range_label_inj in E; [|assumption|assumption]. subst. f_equal. lia.
Qed.

(** The automata made from patterns have byte symbols. *)
Lemma byte_nfa_bytes (m : nfa range) : (forall s t r, In (t, r) (trans (get m s)) -> byte_ok r) -> bytes_nfa m.
Proof.
  intros H. unfold bytes_nfa. apply Forall_forall. intros x Hx. apply In_nth_error in Hx as (i & Hi). apply Forall_forall. intros [t r] Ht.
  destruct (H i t r) as [H1 H2]; [unfold get; erewrite nth_error_nth by exact Hi; exact Ht|]. unfold byte_range. cbn. lia.
Qed.
Definition sym_le (s : dstate) : Prop := Forall (fun t => byte_range (snd t)) (ds_trans s).
Lemma map_dtrans_bytes f s : sym_le s -> sym_le (map_dtrans f s).
Proof. unfold sym_le, map_dtrans. cbn. intros H. apply Forall_map. exact H. Qed.
Lemma remove_at_incl {A} i (l : list A) : incl (remove_at i l) l.
Proof. revert i. induction l as [|x l IH]; intros [|i]; cbn; intros y Hy; auto; [now right|]. destruct Hy as [->|Hy]; [now left|]. right. eapply IH; eauto. Qed.
Lemma merge_bytes d k m : bytes_dfa d -> bytes_dfa (merge_states d k m).
Proof.
  unfold bytes_dfa. intros H. inversion H as [|x l H1 H2]; subst. constructor; [apply map_dtrans_bytes; exact H1|]. cbn. apply Forall_map. rewrite Forall_forall in *. intros s Hs.
  apply map_dtrans_bytes, H2. eapply remove_at_incl; eauto.
Qed.
Lemma minimise_bytes fuel d d' : bytes_dfa d -> minimise fuel d = Ok d' -> bytes_dfa d'.
Proof.
  revert d. induction fuel as [|f IH]; intros d H; cbn [minimise]; destruct (merges (d_states d)) as [|p ms]; try discriminate; try (now intros [= <-]).
  destruct (guard _); try discriminate. cbn [bind]. generalize (rev (p :: ms)). intros l. intros E. destruct (foldM merge_checked l d) as [d1| | |] eqn:E1; try discriminate. cbn [bind] in E. rename E into E2. apply (IH d1); [|exact E2]. clear E2 IH. revert d H E1.
  induction l as [|[x y] l IHl]; intros d H E1; cbn [foldM] in E1; [injection E1 as <-; exact H|]. unfold merge_checked at 1 in E1. destruct (guard _); try discriminate. cbn [bind] in E1. eapply IHl; [|exact E1]. apply merge_bytes, H.
Qed.
Lemma base_bytes n max d : SpecAuto.closed n -> 1 <= length n -> tdfa_from_nfa n max = Ok (Some d) -> bytes_dfa (base_dfa d).
Proof.
  intros Hc Hl E. apply closed_wf in Hc. destruct (tdfa_from_nfa_spec n Hc Hl max) as (o & E' & Ho). rewrite E in E'. injection E' as <-.
  assert (X : forall ns keep s, expanded n ns keep s -> sym_le (dstate_of s)).
  { intros ns keep s [_ H]. unfold sym_le, dstate_of. cbn. apply Forall_forall. intros t Ht. eapply Permutation_in in Ht; [|apply Permutation_sym, sort_perm].
    apply in_map_iff in Ht as (t' & <- & Ht). cbn. destruct (cand_ranges_ok (all_cands n keep (ts_nfa s))) as [O1 _ _ _].
    induction H as [|x y l l' (Hs & _) Hr IH]; [destruct Ht|]. inversion O1 as [|? ? [Ha Hb] O1']; subst. destruct Ht as [->|Ht]; [|now apply IH]. rewrite Hs. unfold byte_range. clear - Ha Hb. destruct x as [[a b] cl]. cbn [fst snd] in *. split; lia. }
  destruct Ho as [_ B2 B3 _ _ _]. unfold bytes_dfa, base_dfa. cbn. constructor; [eapply X, B2|]. apply Forall_map, Forall_forall. intros s Hs. eapply X, B3, Hs.
Qed.
Lemma dfa_bytes n max d d' : SpecAuto.closed n -> 1 <= length n -> tdfa_from_nfa n max = Ok (Some d) -> dfa_from_tagged d = Ok d' -> bytes_dfa d'.
Proof.
  intros Hc Hl E E2. assert (B := base_bytes n max d Hc Hl E). apply closed_wf in Hc. destruct (tdfa_from_nfa_spec n Hc Hl max) as (o & E' & Ho). rewrite E in E'. injection E' as <-.
  assert (V := base_valid n Hl max d Ho). destruct (from_tagged_spec d V) as (m0 & E1 & E4 & _). rewrite E2 in E1. injection E1 as <-. fold (base_dfa d) in E4. eapply minimise_bytes; [exact B|exact E4].
Qed.
