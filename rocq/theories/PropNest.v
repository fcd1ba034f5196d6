(** Captures nest and keep the order of the pattern (C82). *)
From Coq Require Import String.
From Verif Require Import SpecNest PNest PropEngines.
From Coq Require Import ZifyBool ZifyNat ZifyN.
Open Scope string_scope.
Open Scope nat_scope.
Open Scope list_scope.

Lemma exec_log s en e T cs : compiled s en -> Forall scalar s -> Forall scalar T -> G_ere e s -> engine_exec en T = Ok (Some cs) ->
  exists P i j L, matches_at T P e i j L /\ forall k x, nth_error cs k = Some x -> x = capture T L k.
Proof.
  intros H Hs HT Hg E. destruct (C20_captures_late s en e T H Hs HT Hg) as (o & Eo & R). rewrite E in Eo. injection Eo as <-. destruct R as (_ & i & j & L & Hm & Hc). eexists _, i, j, L. split; [exact Hm|].
  intros k x Hx. assert (Hk : k < List.length cs) by (apply nth_error_Some; congruence). rewrite Hc, nth_error_map in Hx. assert (Es : nth_error (seq 0 (List.length cs)) k = Some k) by (rewrite nth_error_nth' with (d := 0) by (now rewrite seq_length); now rewrite seq_nth). rewrite Es in Hx. now injection Hx.
Qed.
Lemma capture_set T L k a b : capture T L k = Some (a, b) -> exists i j, last_of k L = Some (i, j) /\ a = byte_pos T i /\ b = byte_pos T j.
Proof. unfold capture. destruct (last_of k L) as [[i j]|]; [|discriminate]. intros E. injection E as <- <-. eauto. Qed.

(** C82.  A group captured within another one: the outer one is captured, and the inner one does not end behind it.  It does not
    begin before it either if the outer group is in nothing repeated, or if the inner one takes part in every pass of the outer one. *)
Theorem C82_outer : forall s en e T cs k k' a' b', compiled s en -> Forall scalar s -> Forall scalar T -> G_ere e s -> engine_exec en T = Ok (Some cs) ->
  encloses e k k' -> nth_error cs k' = Some (Some (a', b')) ->
  exists a b, nth_error cs k = Some (Some (a, b)) /\ b' <= b /\ (~ together e k k \/ bound_to e k k' -> a <= a').
Proof.
  intros s en e T cs k k' a' b' H Hs HT Hg E He Hk'. destruct (exec_log s en e T cs H Hs HT Hg E) as (P & i & j & L & Hm & Hc).
  assert (X := Hc _ _ Hk'). symmetry in X. apply capture_set in X as (x' & y' & Hl & -> & ->). destruct (count_outer T P e i j L Hm k k' x' y' He Hl) as (x & y & Hx & Hy & Hb).
  destruct (nth_error cs k) as [o|] eqn:Ek.
  - apply Hc in Ek. unfold capture in Ek. rewrite Hx in Ek. subst o. exists (byte_pos T x), (byte_pos T y). split; [reflexivity|]. split; [now apply byte_pos_mono|]. intros R. apply byte_pos_mono. auto.
  - exfalso. apply nth_error_None in Ek. assert (k' < List.length cs) by (apply nth_error_Some; congruence). destruct He as (bs & _ & He). lia.
Qed.
Print Assumptions C82_outer.
(** A group that takes part in every pass of another one is captured if that one is, and within it. *)
Theorem C82_inner : forall s en e T cs k k' a b x, compiled s en -> Forall scalar s -> Forall scalar T -> G_ere e s -> engine_exec en T = Ok (Some cs) ->
  bound_to e k k' -> nth_error cs k = Some (Some (a, b)) -> nth_error cs k' = Some x -> exists a' b', x = Some (a', b') /\ a <= a' /\ a' <= b' /\ b' <= b.
Proof.
  intros s en e T cs k k' a b x H Hs HT Hg E He Hk Hk'. destruct (exec_log s en e T cs H Hs HT Hg E) as (P & i & j & L & Hm & Hc).
  assert (X := Hc _ _ Hk). symmetry in X. apply capture_set in X as (x1 & y1 & Hl & -> & ->). destruct (count_inner T P e i j L Hm k k' x1 y1 He Hl) as (x2 & y2 & Hl2 & R1 & R2 & R3).
  apply Hc in Hk'. unfold capture in Hk'. rewrite Hl2 in Hk'. eexists _, _. split; [exact Hk'|]. split; [now apply byte_pos_mono|]. split; now apply byte_pos_mono.
Qed.
Print Assumptions C82_inner.
(** Groups that are not one in the other and in nothing repeated together are captured one behind the other, ... *)
Theorem C82_order : forall s en e T cs k k' a b a' b', compiled s en -> Forall scalar s -> Forall scalar T -> G_ere e s -> engine_exec en T = Ok (Some cs) ->
  k < k' -> ~ encloses e k k' -> ~ together e k k' -> nth_error cs k = Some (Some (a, b)) -> nth_error cs k' = Some (Some (a', b')) -> b <= a'.
Proof.
  intros s en e T cs k k' a b a' b' H Hs HT Hg E Hk He Ht H1 H2. destruct (exec_log s en e T cs H Hs HT Hg E) as (P & i & j & L & Hm & Hc).
  apply Hc in H1, H2. symmetry in H1, H2. apply capture_set in H1 as (x & y & Hl & -> & ->). apply capture_set in H2 as (x' & y' & Hl' & -> & ->).
  apply byte_pos_mono. exact (count_order T P e i j L Hm k k' x y x' y' Hk He Ht Hl Hl').
Qed.
Print Assumptions C82_order.
(** ... and only one of them if they are in different alternatives. *)
Theorem C82_either : forall s en e T cs k k' x x', compiled s en -> Forall scalar s -> Forall scalar T -> G_ere e s -> engine_exec en T = Ok (Some cs) ->
  rivals e k k' -> ~ together e k k' -> nth_error cs k = Some x -> nth_error cs k' = Some x' -> x = None \/ x' = None.
Proof.
  intros s en e T cs k k' x x' H Hs HT Hg E Hr Ht H1 H2. destruct (exec_log s en e T cs H Hs HT Hg E) as (P & i & j & L & Hm & Hc).
  apply Hc in H1, H2. subst x x'. unfold capture. destruct (count_rival T P e i j L Hm k k' Hr Ht) as [->| ->]; auto.
Qed.
Print Assumptions C82_either.
(** In what is repeated neither holds: an inner group keeps what an earlier pass captured. *)
Theorem C82_refuted :
  (exists s en e T cs k k' a b a' b', compile_regex s = Ok en /\ Forall scalar s /\ Forall scalar T /\ G_ere e s /\ engine_exec en T = Ok (Some cs) /\
     encloses e k k' /\ nth_error cs k = Some (Some (a, b)) /\ nth_error cs k' = Some (Some (a', b')) /\ a' < a) /\
  (exists s en e T cs k k' a b a' b', compile_regex s = Ok en /\ Forall scalar s /\ Forall scalar T /\ G_ere e s /\ engine_exec en T = Ok (Some cs) /\
     k < k' /\ ~ encloses e k k' /\ rivals e k k' /\ nth_error cs k = Some (Some (a, b)) /\ nth_error cs k' = Some (Some (a', b')) /\ a' < b).
Proof.
  set (star := {| q_type := QStar; q_alt := false |}). set (ca := PSingle (XAtom (NormalChar 97%N))). set (cb := PSingle (XAtom (NormalChar 98%N))). split.
  - destruct (compile_regex (s2l "((a)|b)*")) as [en| | |] eqn:E; [|vm_compute in E; discriminate E..].
    exists (s2l "((a)|b)*"), en, [[PQuant (XSub [[PSingle (XSub [[ca]])]; [cb]]) star]], (s2l "ab"), [Some (0, 2); Some (1, 2); Some (0, 1)], 1, 2, 1, 2, 0, 1.
    split; [exact E|]. split; [repeat constructor|]. split; [repeat constructor|]. split; [apply parse_iff; vm_compute; reflexivity|]. split; [|split; [|split; [reflexivity|split; [reflexivity|lia]]]].
    + assert (X : (do en <- compile_regex (s2l "((a)|b)*"); engine_exec en (s2l "ab")) = Ok (Some [Some (0, 2); Some (1, 2); Some (0, 1)])) by (vm_compute; reflexivity). rewrite E in X. exact X.
    + exists [[PSingle (XSub [[ca]])]; [cb]]. split; [right; right; exists star; now left|]. cbn. lia.
  - destruct (compile_regex (s2l "((a)|(b))*")) as [en| | |] eqn:E; [|vm_compute in E; discriminate E..].
    exists (s2l "((a)|(b))*"), en, [[PQuant (XSub [[PSingle (XSub [[ca]])]; [PSingle (XSub [[cb]])]]) star]], (s2l "ba"), [Some (0, 2); Some (1, 2); Some (1, 2); Some (0, 1)], 2, 3, 1, 2, 0, 1.
    split; [exact E|]. split; [repeat constructor|]. split; [repeat constructor|]. split; [apply parse_iff; vm_compute; reflexivity|]. split; [|split; [lia|split; [|split; [|split; [reflexivity|split; [reflexivity|lia]]]]]].
    + assert (X : (do en <- compile_regex (s2l "((a)|(b))*"); engine_exec en (s2l "ba")) = Ok (Some [Some (0, 2); Some (1, 2); Some (1, 2); Some (0, 1)])) by (vm_compute; reflexivity). rewrite E in X. exact X.
    + clear E. intros (bs & [[R _]|[R|(q & R)]] & Hk); [discriminate R|..]; cbn in R; repeat destruct R as [R|R]; try discriminate R; try (match type of R with False => destruct R end); injection R as <-; cbn in Hk; lia.
    + exists 1, [], [PSingle (XSub [[ca]])], [[PSingle (XSub [[cb]])]]. split; [right; right; exists star; now left|]. cbn. lia.
Qed.
Print Assumptions C82_refuted.
(** A case: in the pattern below group 2 takes part in every pass of group 1, group 3 need not; 3 and 4 follow one another, 5 and 6 are alternatives. *)
Definition nest_sample : ere := [[PSingle (XAtom (NormalChar 120%N));
  PQuant (XSub [[PSingle (XSub [[PSingle (XAtom (NormalChar 97%N))]]); PQuant (XSub [[PSingle (XAtom (NormalChar 98%N))]]) {| q_type := QQuestion; q_alt := false |}]]) {| q_type := QPlus; q_alt := false |};
  PSingle (XSub [[PSingle (XSub [[PSingle (XAtom (NormalChar 99%N))]])]; [PSingle (XSub [[PSingle (XAtom (NormalChar 100%N))]])]])]].
Lemma nest_together k k' : together nest_sample k k' -> k <= 3 /\ k' <= 3.
Proof.
  intros (g & x & q & n & Hi & Hq & Hn & Hk & Hk'). cbn in Hi. repeat destruct Hi as [Hi|Hi]; try discriminate Hi; try (match type of Hi with False => destruct Hi end); injection Hi as <- <- <-; cbn in Hk, Hk'; lia.
Qed.
Lemma nest_encloses k k' : encloses nest_sample k k' -> k = 0 \/ k = 1 /\ 2 <= k' <= 3 \/ k = 4 /\ 5 <= k' <= 6.
Proof.
  intros (bs & [[R _]|[R|(q & R)]] & Hk); [now left|..]; cbn in R; repeat destruct R as [R|R]; try discriminate R; try (match type of R with False => destruct R end); injection R as <- <-; cbn in Hk; lia.
Qed.
Example C82_case : parse_str (s2l "x((a)(b)?)+((c)|(d))") = ROk nest_sample /\
  encloses nest_sample 1 3 /\ together nest_sample 1 1 /\ bound_to nest_sample 1 2 /\ encloses nest_sample 4 6 /\ ~ together nest_sample 4 4 /\
  ~ encloses nest_sample 3 4 /\ ~ together nest_sample 3 4 /\ rivals nest_sample 5 6 /\ ~ together nest_sample 5 6 /\
  (do en <- compile_regex (s2l "x((a)(b)?)+((c)|(d))"); do x <- engine_exec en (s2l "xaabd"); do y <- engine_exec en (s2l "xabac"); Ok (x, y)) =
  Ok (Some [Some (0, 5); Some (2, 4); Some (2, 3); Some (3, 4); Some (4, 5); None; Some (4, 5)], Some [Some (0, 5); Some (3, 4); Some (3, 4); Some (2, 3); Some (4, 5); Some (4, 5); None]).
Proof.
  split; [vm_compute; reflexivity|]. split; [|split; [|split; [|split; [|split; [|split; [|split; [|split; [|split]]]]]]]].
  - eexists. split; [right; right; eexists; right; left; reflexivity|]. cbn. lia.
  - exists 1. eexists _, _, 2. split; [right; left; reflexivity|]. cbn. lia.
  - eexists. split; [right; right; eexists; right; left; reflexivity|]. apply al_first. apply al_here.
  - eexists. split; [right; left; cbn; do 6 right; left; reflexivity|]. cbn. lia.
  - intros H. apply nest_together in H. lia.
  - intros H. apply nest_encloses in H. lia.
  - intros H. apply nest_together in H. lia.
  - exists 4, []. eexists _, _. split; [right; left; cbn; do 6 right; left; reflexivity|]. cbn. lia.
  - intros H. apply nest_together in H. lia.
  - vm_compute. reflexivity.
Qed.
