(** Range splitting, determinisation and minimisation: C27, C28, C29. *)
From Coq Require Import String Sorted Lia.
From Verif Require Import PDfaRun.
Open Scope nat_scope.
Open Scope list_scope.

(** C29.  The pieces are ordered and disjoint, and a byte is in a piece exactly when it is in some given range; the
    piece then lists the positions of all ranges the byte is in, in increasing order. *)
Theorem C29_split_exact : forall rs,
  Forall (fun x => (fst (fst x) <= snd (fst x) <= 255)%N) (split_ranges rs) /\
  StronglySorted (fun x y => (snd (fst x) < fst (fst y))%N) (split_ranges rs) /\
  forall b, (b <= 255)%N ->
    (positions rs b = [] /\ forall lo hi is, In ((lo, hi), is) (split_ranges rs) -> ~ (lo <= b <= hi)%N) \/
    (positions rs b <> [] /\ exists lo hi is, In ((lo, hi), is) (split_ranges rs) /\ (lo <= b <= hi)%N) /\
    (forall lo hi is, In ((lo, hi), is) (split_ranges rs) -> (lo <= b <= hi)%N -> is = positions rs b).
Proof.
  intros rs. destruct (split_ranges_spec rs) as [P1 P2 P3 P4 P5].
  split; [eapply Forall_impl; [|exact P1]; cbv beta; intros x Hx; lia|]. split; [exact P2|]. intros b Hb.
  assert (HR : forall lo hi, (lo <= b <= hi)%N <-> in_range b (lo, hi) = true) by (intros lo hi; rewrite in_range_iff; reflexivity).
  assert (HV : forall lo hi is, In ((lo, hi), is) (split_ranges rs) -> (lo <= b <= hi)%N -> is = positions rs b).
  { intros lo hi is Hi Hr. rewrite <- items_at_positions. eapply P3; [exact Hi|]. now apply HR. }
  destruct (positions rs b) as [|p l] eqn:E.
  - left. split; [reflexivity|]. intros lo hi is Hi Hr. apply (P4 _ _ Hi). rewrite (HV lo hi is Hi Hr). reflexivity.
  - right. split; [|assumption]. split; [discriminate|]. destruct (P5 b) as ([lo hi] & is & Hi & Hr); [lia|rewrite items_at_positions, E; discriminate|].
    exists lo, hi, is. split; [assumption|]. now apply HR.
Qed.
Print Assumptions C29_split_exact.
Example C29_case : split_ranges [(97, 122)%N; (100, 100)%N; (0, 255)%N; (98, 101)%N] =
  [((0, 96)%N, [2]); ((97, 97)%N, [0; 2]); ((98, 99)%N, [0; 2; 3]); ((100, 100)%N, [0; 1; 2; 3]); ((101, 101)%N, [0; 2; 3]); ((102, 122)%N, [0; 2]); ((123, 255)%N, [2])].
Proof. vm_compute. reflexivity. Qed.

(** C27.  For every automaton there is one tagged DFA; construction ends for every bound and returns that DFA when it
    has at most as many states as the bound, and gives up otherwise. *)
Theorem C27_bounded : forall n : nfa range, SpecAuto.closed n -> 1 <= List.length n ->
  exists d, forall max, tdfa_from_nfa n max = Ok (if List.length (td_states d) <=? max then Some d else None).
Proof.
  intros n Hc Hl. apply closed_wf in Hc. destruct (tdfa_some_bound n Hc Hl) as (max0 & d & E0). exists d. intros max.
  destruct (tdfa_from_nfa_spec n Hc Hl max) as (o & E & Ho). rewrite E. f_equal.
  destruct (Nat.le_ge_cases max max0) as [Hm|Hm].
  - assert (G := tdfa_mono n max max0 _ _ Hm E E0). destruct o as [d'|].
    + injection G as ->. apply b_max in Ho. apply Nat.leb_le in Ho. now rewrite Ho.
    + specialize (G d eq_refl). apply Nat.leb_gt in G. now rewrite G.
  - assert (G := tdfa_mono n max0 max _ _ Hm E0 E). cbn in G. subst o. apply b_max in Ho. apply Nat.leb_le in Ho. now rewrite Ho.
Qed.
Print Assumptions C27_bounded.
(** Four states besides the start are needed here, so a bound of 3 is refused. *)
Example C27_case :
  with_ere (s2l "^(a|b)*a(a|b)$") (fun e => do n <- working_new (tree_of e); do m <- u8_new n; do o3 <- tdfa_from_nfa m 3; do o4 <- tdfa_from_nfa m 4; do o9 <- tdfa_from_nfa m 9;
    Ok (map (option_map (fun d => List.length (td_states d))) [o3; o4; o9])) = Ok [None; Some 4; Some 4].
Proof. vm_compute. reflexivity. Qed.

(** C28.  Minimisation ends without an error, gives a DFA whose states are all different, with no more states than
    before, and with the same answer for every byte string. *)
Theorem C28_minimise : forall d,
  (forall s t, In s (d_start d :: d_states d) -> In t (ds_trans s) -> fst t < List.length (d_states d)) ->
  exists d', minimise (List.length (d_states d)) d = Ok d' /\
    List.length (d_states d') <= List.length (d_states d) /\ NoDup (d_states d') /\
    forall bytes, dfa_run_test d' bytes = dfa_run_test d bytes.
Proof.
  intros d Hv. destruct (minimise_spec (List.length (d_states d)) d Hv (le_n _)) as (d' & E & _ & H). eauto.
Qed.
Print Assumptions C28_minimise.
(** The whole conversion succeeds on every constructed tagged DFA, and answers as the unminimised one. *)
Theorem C28_from_tagged : forall n max d, SpecAuto.closed n -> 1 <= List.length n -> tdfa_from_nfa n max = Ok (Some d) ->
  exists d', dfa_from_tagged d = Ok d' /\ List.length (d_states d') <= List.length (td_states d) /\
    forall bytes, dfa_run_test d' bytes = dfa_run_test (mkDfa (dstate_of (td_start d)) (map dstate_of (td_states d))) bytes.
Proof.
  intros n max d Hc Hl E. apply closed_wf in Hc. destruct (tdfa_from_nfa_spec n Hc Hl max) as (o & E' & Ho). rewrite E in E'. injection E' as <-.
  assert (V := base_valid n Hl max d Ho). destruct (from_tagged_spec d V) as (m & F1 & F2 & _). fold (base_dfa d) in F2.
  destruct (C28_minimise (base_dfa d)) as (d' & E1 & E2 & _ & E3); [apply validate_valid; exact V|]. rewrite F2 in E1. injection E1 as ->. clear F2. rename F1 into E1.
  exists d'. split; [exact E1|]. split; [|exact E3]. etransitivity; [exact E2|]. unfold base_dfa. cbn [d_states]. rewrite map_length. apply le_n.
Qed.
Print Assumptions C28_from_tagged.
Example C28_case :
  with_ere (s2l "^((ax)|(bx)|(cy)|(dx))*$") (fun e => do n <- working_new (tree_of e); do m <- u8_new n; do o <- tdfa_from_nfa m 100;
    match o with None => NoCompile | Some d => do d' <- dfa_from_tagged d;
      Ok (List.length (td_states d), List.length (d_states d'), dfa_run_test d' (s2l "axcydx"), dfa_run_test d' (s2l "axcx")) end) = Ok (8, 3, true, false).
Proof. vm_compute. reflexivity. Qed.
