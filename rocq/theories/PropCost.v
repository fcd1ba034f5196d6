(** What matching and compiling cost: C48 to C52, C59, C60. *)
From Coq Require Import String Sorted Lia.
From Verif Require Import PExplode PStrip PAll PBound PDfaRun PSize PBlow SpecGroups SpecDfa.
Open Scope nat_scope.
Open Scope list_scope.

(** C48.  [exec] of the lockstep engines holds at most one thread per state, however long the text. *)
Definition threads_bounded (en : engine) : Prop :=
  match en with
  | EFlat n | EFixed (EFlat n) _ => small atom_check len_utf8 n
  | EFlatU8 n | EFixed (EFlatU8 n) _ => small byte_check (fun _ => 1) n
  | _ => True
  end.
Lemma make_flat_bounded n en : make_flat n = Ok en -> exists m, en = EFlat m /\ small atom_check len_utf8 m.
Proof. unfold make_flat. intros H. apply bind_ok in H as (t & Ht & H). destruct (nfa_compiles n); [|discriminate]. injection H as <-. eexists. split; [reflexivity|]. exact (make_small _ _ _ _ Ht). Qed.
Lemma make_flat_u8_bounded n en : make_flat_u8 n = Ok en -> exists m, en = EFlatU8 m /\ small byte_check (fun _ => 1) m.
Proof. unfold make_flat_u8. intros H. apply bind_ok in H as (t & Ht & H). injection H as <-. eexists. split; [reflexivity|]. exact (make_small _ _ _ _ Ht). Qed.
Lemma base_bounded e b u : pick_base_engine e = Ok (b, u) -> match b with EFlat n => small atom_check len_utf8 n | EFlatU8 n => small byte_check (fun _ => 1) n | EFixed _ _ => False | _ => True end.
Proof.
  unfold pick_base_engine. intros H. apply bind_ok in H as (n & _ & H). apply bind_ok in H as (m & _ & H). apply bind_ok in H as (op & _ & H). destruct op as [op|]; [injection H as <- <-; exact I|].
  apply bind_ok in H as (d & _ & H). destruct d as [d|].
  - apply bind_ok in H as (x & Hx & H). unfold make_dfa in Hx. apply bind_ok in Hx as (y & _ & Hx). injection Hx as <-. injection H as <- <-. exact I.
  - apply bind_ok in H as (x & Hx & H). injection H as <- <-. destruct (nfa_is_ascii n); [apply make_flat_u8_bounded in Hx as (k & -> & Hk)|apply make_flat_bounded in Hx as (k & -> & Hk)]; exact Hk.
Qed.
Theorem C48_flat : forall s en, compile_flat s = Ok en -> exists n, en = EFlat n /\ small atom_check len_utf8 n.
Proof. intros s en H. apply with_ere_ok in H as (e & _ & H). apply bind_ok in H as (n & _ & H). now apply make_flat_bounded in H. Qed.
Print Assumptions C48_flat.
Theorem C48_flat_u8 : forall s en, compile_flat_u8 s = Ok en -> exists n, en = EFlatU8 n /\ small byte_check (fun _ => 1) n.
Proof. intros s en H. apply with_ere_ok in H as (e & _ & H). apply bind_ok in H as (n & _ & H). apply bind_ok in H as (m & _ & H). now apply make_flat_u8_bounded in H. Qed.
Print Assumptions C48_flat_u8.
Theorem C48_any : forall s en, compiled s en -> threads_bounded en.
Proof.
  intros s en [H|[H|[H|[H|[H|H]]]]].
  - apply with_ere_ok in H as (e & _ & H). apply bind_ok in H as ([b u] & Hb & H). apply base_bounded in Hb. apply bind_ok in H as ([offs|] & _ & H).
    + destruct (_ =? _); [|discriminate]. injection H as <-. destruct b; try exact Hb. destruct Hb.
    + injection H as <-. destruct b; try exact Hb. destruct Hb.
  - apply with_ere_ok in H as (e & _ & H). apply bind_ok in H as (n & _ & H). apply bind_ok in H as (m & _ & H). apply bind_ok in H as ([d|] & _ & H); [|discriminate]. unfold make_dfa in H. apply bind_ok in H as (y & _ & H). injection H as <-. exact I.
  - apply C48_flat in H as (n & -> & H). exact H.
  - apply C48_flat_u8 in H as (n & -> & H). exact H.
  - apply with_ere_ok in H as (e & _ & H). apply bind_ok in H as (n & _ & H). apply bind_ok in H as (m & _ & H). apply bind_ok in H as ([d|] & _ & H); [|discriminate]. injection H as <-. exact I.
  - apply with_ere_ok in H as (e & _ & H). apply bind_ok in H as ([b u] & Hb & H). apply base_bounded in Hb. apply bind_ok in H as ([offs|] & _ & H); [|discriminate].
    destruct (_ =? _); [|discriminate]. injection H as <-. destruct b; try exact Hb. destruct Hb.
Qed.
Print Assumptions C48_any.
(** Two ways into the same state: one thread is kept. *)
Example C48_case : (do en <- compile_flat_u8 (s2l "^(a|b)*(ab|a)*$");
  match en with EFlatU8 n => do t <- flat_make n; Ok (List.length n, map (fun p => map fst (threads_after byte_check (fun _ => 1) n t p (s2l "ba"))) [ []; s2l "a"; s2l "ab"; s2l "abaaabab"])
   | _ => Panic end) = Ok (15, [[3; 4; 8; 10]; [3; 4; 8; 10; 9]; [3; 4; 8; 10]; [3; 4; 8; 10]]).
Proof. vm_compute. reflexivity. Qed.

(** C49.  The DFA conversion never fails: every tagged DFA the construction returns, from any well-formed automaton and
    for any bound, is converted, so all assertions on the way hold; in the result (and in the tagged DFA) the transitions
    of each state are on disjoint non-empty ranges in increasing order and go to existing states. *)
Definition in_order (lo hi : range) : Prop := (snd lo < fst hi)%N.
Theorem C49_converts : forall (n : nfa range) max, SpecAuto.closed n -> 1 <= List.length n ->
  (exists o, tdfa_from_nfa n max = Ok o) /\
  forall d, tdfa_from_nfa n max = Ok (Some d) ->
    (forall s, In s (td_start d :: td_states d) ->
      StronglySorted in_order (map tt_sym (ts_trans s)) /\ Forall (fun t => tt_to t < List.length (td_states d) /\ (fst (tt_sym t) <= snd (tt_sym t))%N) (ts_trans s)) /\
    exists d', dfa_from_tagged d = Ok d' /\
    forall s, In s (d_start d' :: d_states d') ->
      StronglySorted in_order (map snd (ds_trans s)) /\ Forall (fun t => fst t < List.length (d_states d') /\ (fst (snd t) <= snd (snd t))%N) (ds_trans s).
Proof.
  intros n max Hc Hl. apply closed_wf in Hc. destruct (tdfa_from_nfa_spec n Hc Hl max) as (o & E & Ho). split; [eauto|]. intros d Ed. rewrite E in Ed. injection Ed as ->. split.
  - intros s Hs. assert (G : exists l j, lab_ok d l j /\ s = td_get d l).
    { destruct Hs as [<-|Hs]; [exists None, 0; split; reflexivity|]. apply In_nth with (d := stub []) in Hs as (i & Hi & <-). exists (Some i), 1. split; [cbn; lia|reflexivity]. }
    destruct G as (l & j & Hlab & ->). destruct (trans_sorted n Hl max d Ho l j Hlab) as [H1 H2]. split; [apply SS_map; exact H1|exact H2].
  - destruct (from_tagged_spec d (base_valid n Hl max d Ho)) as (d' & E1 & E2 & _). exists d'. split; [exact E1|]. fold (base_dfa d) in E2.
    destruct (minimise_full (List.length (d_states (base_dfa d))) (base_dfa d)) as (d2 & E3 & V & _ & _ & Hs & _); [apply validate_valid, (base_valid n Hl max d Ho)|apply le_n|].
    rewrite E2 in E3. injection E3 as <-. intros s Hin. destruct (Hs s Hin) as (s0 & H0 & Es). destruct (base_sorted n Hl max d Ho s0 H0) as [B1 B2]. split.
    + rewrite Es. apply SS_map. exact B1.
    + apply Forall_forall. intros t Ht. split; [exact (V s t Hin Ht)|]. assert (X : In (snd t) (map snd (ds_trans s0))) by (rewrite <- Es; now apply in_map).
      apply in_map_iff in X as (t0 & <- & H). rewrite Forall_forall in B2. now apply B2.
Qed.
Print Assumptions C49_converts.
(** The automaton of a pattern, with overlapping ranges to split and states to merge. *)
Example C49_case : with_ere (s2l "^([a-m]x|[c-z]x|e)*$") (fun e => do n <- working_new (tree_of e); do m <- u8_new n; do o <- tdfa_from_nfa m 100;
    match o with None => NoCompile | Some d => do d' <- dfa_from_tagged d; Ok (List.length m, List.length (td_states d), List.length (d_states d'), ds_trans (d_start d')) end) = Ok (11, 4, 4, [(0, (97, 98)%N); (0, (99, 100)%N); (1, (101, 101)%N); (0, (102, 109)%N); (0, (110, 122)%N)]).
Proof. vm_compute. reflexivity. Qed.

(** What the validation accepts, when the ranges are not empty: targets exist, and every range ends before any later one starts. *)
Theorem C49_validate : forall d, (forall s t, In s (d_start d :: d_states d) -> In t (ds_trans s) -> (fst (snd t) <= snd (snd t))%N) ->
  dfa_validate d = true <-> forall s, In s (d_start d :: d_states d) ->
    (forall t, In t (ds_trans s) -> fst t < List.length (d_states d)) /\
    forall i j t u, i < j -> nth_error (ds_trans s) i = Some t -> nth_error (ds_trans s) j = Some u -> (snd (snd t) < fst (snd u))%N.
Proof.
  intros d Hd. unfold dfa_validate. rewrite forallb_forall. assert (G : forall s, In s (d_start d :: d_states d) -> forall t, In t (ds_trans s) -> (fst (snd t) <= snd (snd t))%N) by eauto. clear Hd.
  split; intros H s Hs; specialize (H s Hs); specialize (G s Hs).
  - split; [intros t Ht; apply validate_trans_spec in H; rewrite Forall_forall in H; now apply H|]. revert H G. generalize (@None N). generalize (ds_trans s). clear.
    assert (K : forall c l p, validate_trans c (Some p) l = true -> (forall t, In t l -> (fst (snd t) <= snd (snd t))%N) -> forall t : nat * range, In t l -> (p < fst (snd t))%N).
    { intros c l. induction l as [|[x r] l IH]; intros p H G t Ht; [destruct Ht|]. cbn [validate_trans] in H. apply andb_prop in H as [H H2]. apply andb_prop in H as [_ H1]. apply N.ltb_lt in H1.
      destruct Ht as [<-|Ht]; [exact H1|]. assert (Q := IH _ H2 (fun t Ht => G t (or_intror Ht)) t Ht). specialize (G (x, r) (or_introl eq_refl)). cbn [fst snd] in G. lia. }
    intros l. induction l as [|[x r] l IH]; intros o H G i j t u Hij Hi Hj; [destruct i; discriminate|]. cbn [validate_trans] in H. apply andb_prop in H as [_ H2].
    destruct j as [|j]; [lia|]. cbn [nth_error] in Hj. destruct i as [|i]; [|apply (IH (Some (snd r)) H2 (fun t Ht => G t (or_intror Ht)) i j t u); [lia|exact Hi|exact Hj]]. injection Hi as <-. cbn [fst snd]. apply (K _ l _ H2 (fun t Ht => G t (or_intror Ht))). eapply nth_error_In; eauto.
  - destruct H as [H1 H2]. apply validate_trans_intro; [|clear H1|exact I].
    + apply Forall_forall. intros t Ht. split; auto.
    + revert H2 G. induction (ds_trans s) as [|t l IH]; intros H2 G; constructor.
      * apply IH; [|intros; apply G; now right]. intros i j a b Hij Hi Hj. apply (H2 (S i) (S j)); [lia|exact Hi|exact Hj].
      * apply Forall_forall. intros u Hu. apply In_nth_error in Hu as (k & Hk). apply (H2 0 (S k)); [lia|reflexivity|exact Hk].
Qed.
Print Assumptions C49_validate.
(** Ranges that share a byte are refused, adjacent ranges are not. *)
Example C49_case_validate :
  dfa_validate (mkDfa (mkDS DNone [(0, (97, 99)%N); (0, (99, 100)%N)]) [mkDS DAlways []]) = false /\
  dfa_validate (mkDfa (mkDS DNone [(0, (97, 98)%N); (0, (99, 100)%N)]) [mkDS DAlways []]) = true.
Proof. split; reflexivity. Qed.

(** C50.  The conversion, described as minimisation, need not give a minimal DFA: two different states can accept
    exactly the same strings. *)
Definition distinguishes (d : dfa) : Prop :=
  forall i j, i < List.length (d_states d) -> j < List.length (d_states d) -> (forall bytes, dfa_test_loop d (Some i) bytes = dfa_test_loop d (Some j) bytes) -> i = j.
Definition test_dfa_of (s : list N) : res dfa :=
  with_ere s (fun e => do n <- working_new (tree_of e); do m <- u8_new n; do o <- tdfa_from_nfa m (default_bound (List.length m)); match o with None => NoCompile | Some d => dfa_from_tagged d end).
Lemma refute_minimal s d i j : test_dfa_of s = Ok d -> i < List.length (d_states d) -> j < List.length (d_states d) -> i <> j -> (forall bytes, dfa_test_loop d (Some i) bytes = dfa_test_loop d (Some j) bytes) -> exists s d, test_dfa_of s = Ok d /\ ~ distinguishes d.
Proof. intros H Hi Hj Hn He. exists s, d. split; [exact H|]. intros D. apply Hn. now apply D. Qed.
(** Because of a loop. *)
Theorem C50_loop_refuted : exists s d, test_dfa_of s = Ok d /\ ~ distinguishes d.
Proof.
  refine (refute_minimal (s2l "^(a*b|ca*b)$") (mkDfa (mkDS DNone [(0, (97, 97)%N); (1, (98, 98)%N); (2, (99, 99)%N)]) [mkDS DNone [(0, (97, 97)%N); (1, (98, 98)%N)]; mkDS DAnchored []; mkDS DNone [(2, (97, 97)%N); (1, (98, 98)%N)]]) 0 2 _ _ _ _ _);
    [vm_compute; reflexivity|cbn; lia|cbn; lia|lia|].
  induction bytes as [|c bytes IH]; [reflexivity|]. cbn. destruct (in_range c (97, 97)%N); [exact IH|]. destruct (in_range c (98, 98)%N); reflexivity.
Qed.
Print Assumptions C50_loop_refuted.
(** Because the same range is written as two. *)
Theorem C50_split_refuted : exists s d, test_dfa_of s = Ok d /\ ~ distinguishes d.
Proof.
  refine (refute_minimal (s2l "^(z([a-b]x|cx)|y[a-c]x)$") (mkDfa (mkDS DNone [(0, (121, 121)%N); (1, (122, 122)%N)]) [mkDS DNone [(2, (97, 99)%N)]; mkDS DNone [(2, (97, 98)%N); (2, (99, 99)%N)]; mkDS DNone [(3, (120, 120)%N)]; mkDS DAnchored []]) 0 1 _ _ _ _ _);
    [vm_compute; reflexivity|cbn; lia|cbn; lia|lia|].
  intros [|c bytes]; [reflexivity|]. cbn. unfold in_range. cbn. destruct (N.leb_spec 97 c), (N.leb_spec c 98), (N.leb_spec c 99), (N.leb_spec 99 c); cbn; try reflexivity; lia.
Qed.
Print Assumptions C50_split_refuted.

(** C51.  The character automaton is linear in the unrolled pattern: at most four states per atom, anchor, group,
    alternative and quantifier, each counted as often as its quantifiers repeat it, and twelve more. *)
Theorem C51_states : forall e n, working_new (tree_of e) = Ok n -> List.length n <= 4 * size (fun _ => 0) e + 12.
Proof. exact working_size. Qed.
Print Assumptions C51_states.
(** [(ab|c){3}] has size 24, so at most 108 states; 50 are built and 25 left by the passes (with the loops at both ends). *)
Example C51_case : match parse_str (s2l "(ab|c){3}") with
  | ROk e => (do n <- working_new (tree_of e); Ok (List.length n, List.length (build (tree_of e)), size (fun _ => 0) e))
  | _ => Panic end = Ok (25, 50, 24).
Proof. vm_compute. reflexivity. Qed.

(** C52.  The byte automaton is linear in the unrolled pattern too, where an atom counts 27 more for every interval
    written in it: a range of characters has at most 35 sequences of byte ranges, and a list of [k] intervals none of
    which is reversed has at most [k + 1] ranges. *)
Theorem C52_states_partial : forall s e n m, parse_str s = ROk e -> Forall scalar s -> (forall a, In a (atoms e) -> atom_fwd a) ->
  working_new (tree_of e) = Ok n -> u8_new n = Ok m -> List.length m <= 4 * size (fun a => 27 * intervals a) e + 223.
Proof. exact byte_size. Qed.
Print Assumptions C52_states_partial.
Theorem C52_sequences : forall r l, utf8_sequences r = Ok l -> List.length l <= 35.
Proof. exact sequences_few. Qed.
Print Assumptions C52_sequences.
Theorem C52_ranges_partial : forall a, atom_ok a -> atom_fwd a -> List.length (to_ranges a) <= intervals a.
Proof. exact ranges_few. Qed.
Print Assumptions C52_ranges_partial.
(** Not so with reversed ranges: a negated list of [k] of them, a pattern of [3 * k + 3] characters, becomes [2 ^ k]
    ranges (for every [k] up to 4000), each of which is visited when the byte automaton is built. *)
Theorem C52_ranges_refuted : forall k, 1 <= k -> (N.of_nat k <= 4000)%N ->
  exists s a, List.length s = 3 * k + 3 /\ Forall scalar s /\ parse_str s = ROk [[PSingle (XAtom a)]] /\ intervals a = k + 1 /\ List.length (to_ranges a) = 2 ^ k.
Proof. exact ranges_explode. Qed.
Print Assumptions C52_ranges_refuted.
Example C52_case : match parse_str (s2l "[^a-c[:digit:]]x{2}") with
  | ROk e => (do n <- working_new (tree_of e); do m <- u8_new n; Ok (List.length n, List.length m, size (fun a => 27 * intervals a) e))
  | _ => Panic end = Ok (10, 31, 224).
Proof. vm_compute. reflexivity. Qed.
Example C52_case_reversed : match parse_str (s2l "[^z-ay-bx-cw-dv-eu-f]") with ROk [[PSingle (XAtom a)]] => Some (intervals a, List.length (to_ranges a)) | _ => None end = Some (7, 64).
Proof. vm_compute. reflexivity. Qed.
Example C52_case_sequences : (do l <- utf8_sequences (1, 0x10FFFE)%N; Ok (List.length l)) = Ok 11.
Proof. vm_compute. reflexivity. Qed.

(** C59.  The generated code has one branch for every way of going from a state to another without reading, told apart by
    the groups opened and closed and the anchors passed.  Their number is not polynomial in the pattern: [(a?)?] written [k] times
    has [5 * k] characters and at most [28 * k + 20] states, and [2 ^ k] branches for its first state. *)
Theorem C59_refuted : forall k, exists s n tbl, List.length s = 5 * k /\ Forall scalar s /\ compile_flat s = Ok (EFlat n) /\ List.length n <= 28 * k + 20 /\
  flat_make n = Ok tbl /\ 2 ^ k <= List.length (nth 0 tbl []).
Proof.
  intros k. destruct (options_flat k) as (n & tbl & H1 & H2 & H3 & H4). exists (options_text k), n, tbl.
  split; [apply options_length|]. split; [apply options_scalar|]. auto.
Qed.
Print Assumptions C59_refuted.
Theorem C59_bytes_refuted : forall k, exists s m tbl, List.length s = 5 * k /\ Forall scalar s /\ compile_flat_u8 s = Ok (EFlatU8 m) /\
  flat_make m = Ok tbl /\ 2 ^ k <= List.length (nth 0 tbl []).
Proof.
  intros k. destruct (options_flat_u8 k) as (m & tbl & H1 & H2 & H3). exists (options_text k), m, tbl.
  split; [apply options_length|]. split; [apply options_scalar|]. auto.
Qed.
Print Assumptions C59_bytes_refuted.
(** What holds: the number depends only on the number of states and of groups. *)
Theorem C59_bound_partial : forall s e n, parse_str s = ROk e -> Forall scalar s -> working_new (tree_of e) = Ok n ->
  (forall q l, q < List.length n -> eps_props n q = Ok l -> List.length l <= 4 * List.length n * arrangements (2 * S (groups e))) /\
  (forall m q l, u8_new n = Ok m -> q < List.length m -> eps_props m q = Ok l -> List.length l <= 4 * List.length m * arrangements (2 * S (groups e))).
Proof. intros s e n Hp Hs En. split; [intros; eapply char_few; eauto|intros; eapply byte_few; eauto]. Qed.
Print Assumptions C59_bound_partial.
(** Without groups it is linear. *)
Theorem C59_no_groups : forall s e n q l, parse_str s = ROk e -> Forall scalar s -> groups e = 0 -> working_new (tree_of e) = Ok n ->
  q < List.length n -> eps_props n q = Ok l -> List.length l <= 20 * List.length n.
Proof. intros s e n q l Hp Hs Hg En Hq El. assert (H := char_few s e n q l Hp Hs En Hq El). rewrite Hg in H. change (arrangements (2 * 1)) with 5 in H. lia. Qed.
Print Assumptions C59_no_groups.
Example C59_case : map (fun k => do en <- compile_flat (concat (repeat (s2l "(a?)?") k)); match en with EFlat n => do t <- flat_make n; Ok (List.length n, List.length (nth 0 t [])) | _ => Panic end) [1; 2; 3; 4] =
    [Ok (11, 6); Ok (15, 12); Ok (19, 24); Ok (23, 48)] /\
  match parse_str (s2l "a*b?|c?") with ROk e => (do n <- working_new (tree_of e); do l <- eps_props n 0; Ok (groups e, List.length n, List.length l)) | _ => Panic end = Ok (0, 12, 12).
Proof. split; vm_compute; reflexivity. Qed.

(** C60.  The DFA macro gives up when the DFA has more than [max 100 (2 * states)] states.  This is not only a precaution: an [a]
    followed by [k] dots and [$] has [k + 2] characters, and from [k = 11] on the macro rejects it; the default macro compiles it to another engine. *)
Theorem C60_refuted : forall k, 11 <= k -> exists s e T, List.length s = k + 2 /\ Forall scalar s /\ G_ere e s /\ Forall scalar T /\ occurs e T /\ compile_dfa s = NoCompile /\
  exists en, compile_regex s = Ok en /\ not_dfa en.
Proof.
  intros k Hk. destruct (nth_last_macros k Hk) as [H1 H2]. exists (nth_last_text k), (nth_last k), (repeat 97%N (S k)). split; [apply nth_last_length|]. split; [apply nth_last_scalar|].
  split; [apply nth_last_grammar|]. split; [apply Forall_forall; intros c Hc; apply repeat_spec in Hc; subst; reflexivity|]. split; [|split; assumption].
  apply nth_last_occurs; [|exists 0; split; [now rewrite repeat_length|reflexivity]]. intros i c Hi. apply nth_error_In, repeat_spec in Hi. subst. discriminate.
Qed.
Print Assumptions C60_refuted.
(** No other bound would do: whatever it is, a DFA that is built has at least as many states, but for three, as there are texts that must be told apart. *)
Theorem C60_lower : forall s e n m max d Ts, parse_str s = ROk e -> Forall scalar s -> caret_ok e = true -> working_new (tree_of e) = Ok n -> u8_new n = Ok m -> m <> [] ->
  tdfa_from_nfa m max = Ok (Some d) -> NoDup Ts -> Forall (Forall scalar) Ts -> told_apart e Ts -> List.length Ts <= List.length (td_states d) + 3.
Proof. exact tdfa_tells. Qed.
Print Assumptions C60_lower.
Theorem C60_exponential : forall k n m max d, working_new (tree_of (nth_last k)) = Ok n -> u8_new n = Ok m -> m <> [] -> tdfa_from_nfa m max = Ok (Some d) -> 2 ^ S k <= List.length (td_states d) + 3.
Proof. exact nth_last_large. Qed.
Print Assumptions C60_exponential.
(** What holds: a pattern that the one-pass macro accepts, the DFA macro accepts. *)
Theorem C60_one_pass_partial : forall s en, Forall scalar s -> compile_one_pass s = Ok en -> exists en', compile_dfa s = Ok en'.
Proof. exact one_pass_dfa. Qed.
Print Assumptions C60_one_pass_partial.
Example C60_case : map (fun k => do en <- compile_regex (nth_last_text k); match en with EDfa d => Ok (Some (List.length (td_states d))) | _ => Ok None end) [0; 1; 2; 3; 4] =
  [Ok (Some 9); Ok (Some 18); Ok (Some 36); Ok (Some 72); Ok None] /\ compile_dfa (s2l "a....$") = NoCompile.
Proof. split; vm_compute; reflexivity. Qed.
Example C60_case_lower : exists Ts, List.length Ts = 4 /\ NoDup Ts /\ told_apart (nth_last 1) Ts.
Proof. exists (bits 2). split; [reflexivity|]. split; [apply bits_NoDup|apply bits_apart]. Qed.
Example C60_case_one_pass : match compile_one_pass (s2l "^(ab|cd)ef?$") with Ok _ => true | _ => false end = true /\
  match compile_dfa (s2l "^(ab|cd)ef?$") with Ok (EDfa d) => List.length (td_states d) | _ => 0 end = 5.
Proof. split; vm_compute; reflexivity. Qed.
