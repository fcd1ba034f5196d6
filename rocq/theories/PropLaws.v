(** Properties of patterns and their compiled form as a whole: C45, C46, C47. *)
From Coq Require Import String.
From Verif Require Import PLaws.
From Coq Require Import ZifyBool ZifyNat ZifyN.
Open Scope nat_scope.
Open Scope list_scope.

(** C45.  Classifying a group never trips the assertion that the group is not closed before it is opened. *)
Theorem C45_total : forall s e n k, Forall scalar s -> G_ere e s -> working_new (tree_of e) = Ok n -> n <> [] -> exists b, capture_group_is_optional n k = Ok b.
Proof. exact optional_parsed. Qed.
Print Assumptions C45_total.
(** A group classified as not optional takes part in every match. *)
Theorem C45_mandatory : forall s en opts e k, attr_compile s = Ok (en, opts) -> Forall scalar s -> G_ere e s -> nth_error opts k = Some false ->
  forall T i j L, Forall scalar T -> matches T e i j L -> last_of k L <> None.
Proof. exact attr_mandatory. Qed.
Print Assumptions C45_mandatory.
(** A group classified as optional is left out by some match, when no atom is empty and there are no anchors. *)
Theorem C45_optional_partial : forall s en opts e k, attr_compile s = Ok (en, opts) -> Forall scalar s -> G_ere e s -> anchor_free e = true -> inhabited_atoms e -> nth_error opts k = Some true ->
  exists T i j L, Forall scalar T /\ matches T e i j L /\ last_of k L = None.
Proof. exact attr_optional. Qed.
Print Assumptions C45_optional_partial.
Definition optional_pattern : ere := [[PSingle (XSub [[PSingle (XAtom (NormalChar 97%N))]]); PQuant (XSub [[PSingle (XAtom (NormalChar 98%N))]; [PSingle (XSub [[PSingle (XAtom (NormalChar 99%N))]])]]) {| q_type := QQuestion; q_alt := false |}]].
Example C45_case : parse_str (s2l "(a)(b|(c))?") = ROk optional_pattern /\ anchor_free optional_pattern = true /\
  (do r <- attr_compile (s2l "(a)(b|(c))?"); Ok (snd r)) = Ok [false; false; true; true].
Proof. vm_compute. auto. Qed.
Example C45_case_atoms : inhabited_atoms optional_pattern.
Proof. intros a Ha. cbn in Ha. destruct Ha as [<-|[<-|[<-|[]]]]; eexists; (split; [|reflexivity]); reflexivity. Qed.
(** With anchors the classification is not exact: group 2 takes part in every match of this pattern, since [^] cannot be passed
    after the first [x], but the returned field is an [Option]. *)
Theorem C45_refuted : exists s e, Forall scalar s /\ G_ere e s /\ (do r <- attr_compile s; Ok (snd r)) = Ok [false; false; true] /\
  forall T i j L, matches T e i j L -> last_of 2 L <> None.
Proof.
  exists (s2l "(^x|(y?)){2}"), twice_pattern. split; [repeat constructor|]. split; [apply parse_iff; reflexivity|]. split; [vm_compute; reflexivity|]. exact twice_uses.
Qed.
Print Assumptions C45_refuted.

(** C46.  How the answers for [p|q], [(p)] and repetitions of [(p)] follow from the answers for [p] and [q], whichever macros
    compile them.  [reliable] leaves out the DFAs whose answer may be wrong (C17_refuted). *)
Theorem C46_alternation_partial : forall p q ep eq er T, reliable p ep -> reliable q eq -> reliable (either p q) er -> Forall scalar p -> Forall scalar q -> Forall scalar T ->
  exists b c, engine_test ep T = Ok b /\ engine_test eq T = Ok c /\ engine_test er T = Ok (b || c).
Proof. exact law_either. Qed.
Print Assumptions C46_alternation_partial.
Theorem C46_group_partial : forall p ep er T, reliable p ep -> reliable (parens p) er -> Forall scalar p -> Forall scalar T -> engine_test er T = engine_test ep T.
Proof. exact law_group. Qed.
Print Assumptions C46_group_partial.
Theorem C46_repeat_partial : forall p q u er T, reliable (parens p ++ u) er -> G_quant q u -> quant_allows (q_type q) 0 -> (exists e, G_ere e p) -> Forall scalar p -> Forall scalar T -> engine_test er T = Ok true.
Proof. exact law_optional. Qed.
Print Assumptions C46_repeat_partial.
Theorem C46_entire_partial : forall p er e T, reliable (entire p) er -> G_ere e p -> Forall scalar p -> Forall scalar T -> engine_test er T = Ok true <-> exists L, matches T e 0 (List.length T) L.
Proof. exact law_whole. Qed.
Print Assumptions C46_entire_partial.
(** With DFAs the law of alternation fails. *)
Theorem C46_refuted : exists p q ep eq er T, compile_dfa p = Ok ep /\ compile_dfa q = Ok eq /\ compile_dfa (either p q) = Ok er /\ Forall scalar T /\
  engine_test ep T = Ok false /\ engine_test eq T = Ok false /\ engine_test er T = Ok true.
Proof.
  assert (H : (do a <- compile_dfa (s2l "^$"); do b <- compile_dfa (s2l "b"); do c <- compile_dfa (either (s2l "^$") (s2l "b"));
    do x <- engine_test a (s2l "xyz"); do y <- engine_test b (s2l "xyz"); do z <- engine_test c (s2l "xyz"); Ok (x, y, z)) = Ok (false, false, true)) by (vm_compute; reflexivity).
  destruct (bind_ok _ _ _ H) as (a & Ea & H1). destruct (bind_ok _ _ _ H1) as (b & Eb & H2). destruct (bind_ok _ _ _ H2) as (c & Ec & H3).
  destruct (bind_ok _ _ _ H3) as (x & Ex & H4). destruct (bind_ok _ _ _ H4) as (y & Ey & H5). destruct (bind_ok _ _ _ H5) as (z & Ez & H6). injection H6 as -> -> ->.
  exists (s2l "^$"), (s2l "b"), a, b, c, (s2l "xyz"). do 3 (split; [assumption|]). split; [repeat constructor|]. auto.
Qed.
Print Assumptions C46_refuted.
(** The group around the whole pattern reports what group 0 reports. *)
Theorem C46_outer : forall p en T cs, compiled (parens p) en -> (exists e, G_ere e p) -> Forall scalar p -> Forall scalar T -> engine_exec en T = Ok (Some cs) -> 1 < List.length cs -> nth_error cs 1 = nth_error cs 0.
Proof. exact law_outer. Qed.
Print Assumptions C46_outer.
Example C46_case : mapM (fun s => do en <- compile_regex (s2l s); engine_test en (s2l "xby")) ["ab+"; "b|c"; "ab+|b|c"; "(ab+)"; "(ab+)*"; "^(xb.)$"]%string = Ok [false; true; true; false; true; true].
Proof. vm_compute. reflexivity. Qed.
Example C46_case_outer : (do en <- compile_regex (parens (s2l "a(b|c)+")); engine_exec en (s2l "xabcy")) = Ok (Some [Some (1, 4); Some (1, 4); Some (3, 4)]).
Proof. vm_compute. reflexivity. Qed.

(** C47.  Patterns without anchors: they are found in a text exactly if they match a part of it from end to end, and the texts
    they match from end to end are the union, concatenation and repetition of those of their parts.  For every engine, DFAs included. *)
Theorem C47_infix : forall p ep ew e T, compiled p ep -> compiled (entire p) ew -> G_ere e p -> anchor_free e = true -> Forall scalar p -> Forall scalar T ->
  engine_test ep T = Ok true <-> exists U M V, T = U ++ M ++ V /\ engine_test ew M = Ok true.
Proof. exact law_infix. Qed.
Print Assumptions C47_infix.
Theorem C47_union : forall p q ep eq er e f T, compiled (entire p) ep -> compiled (entire q) eq -> compiled (entire (either p q)) er -> G_ere e p -> G_ere f q -> anchor_free e = true -> anchor_free f = true ->
  Forall scalar p -> Forall scalar q -> Forall scalar T -> engine_test er T = Ok true <-> engine_test ep T = Ok true \/ engine_test eq T = Ok true.
Proof. exact law_union. Qed.
Print Assumptions C47_union.
Theorem C47_concat : forall p q ep eq er e f T, compiled (entire p) ep -> compiled (entire q) eq -> compiled (entire (parens p ++ parens q)) er -> G_ere e p -> G_ere f q -> anchor_free e = true -> anchor_free f = true ->
  Forall scalar p -> Forall scalar q -> Forall scalar T -> engine_test er T = Ok true <-> exists U V, T = U ++ V /\ engine_test ep U = Ok true /\ engine_test eq V = Ok true.
Proof. exact law_concat. Qed.
Print Assumptions C47_concat.
Theorem C47_repeat : forall p q u ep er e T, compiled (entire p) ep -> compiled (entire (parens p ++ u)) er -> G_ere e p -> G_quant q u -> anchor_free e = true -> Forall scalar p -> Forall scalar T ->
  engine_test er T = Ok true <-> exists Ts, quant_allows (q_type q) (List.length Ts) /\ concat Ts = T /\ Forall (fun M => engine_test ep M = Ok true) Ts.
Proof. exact law_repeat. Qed.
Print Assumptions C47_repeat.
(** Extending the text on either side loses no match. *)
Theorem C47_extend : forall p en e U T V, compiled p en -> G_ere e p -> anchor_free e = true -> Forall scalar p -> Forall scalar (U ++ T ++ V) -> engine_test en T = Ok true -> engine_test en (U ++ T ++ V) = Ok true.
Proof. exact law_extend. Qed.
Print Assumptions C47_extend.
Example C47_case : (do a <- compile_regex (entire (s2l "ab?")); do b <- compile_regex (entire (s2l "(ab?){2,3}")); do c <- compile_dfa (s2l "ab?");
  do r1 <- mapM (fun t => engine_test a (s2l t)) ["ab"; "a"; "aa"; "b"]%string; do r2 <- mapM (fun t => engine_test b (s2l t)) ["aba"; "a"; "aaab"; "aaaa"]%string; do r3 <- engine_test c (s2l "xay"); Ok (r1, r2, r3)) =
  Ok ([true; true; false; false], [true; false; true; false], true).
Proof. vm_compute. reflexivity. Qed.
(** An anchored pattern may stop matching when the text is extended. *)
Theorem C47_extend_refuted : exists p en U T V, compiled p en /\ Forall scalar p /\ Forall scalar (U ++ T ++ V) /\ engine_test en T = Ok true /\ engine_test en (U ++ T ++ V) = Ok false.
Proof.
  assert (H : (do en <- compile_regex (s2l "^a"); do x <- engine_test en (s2l "a"); do y <- engine_test en (s2l "ba"); Ok (x, y)) = Ok (true, false)) by (vm_compute; reflexivity).
  destruct (bind_ok _ _ _ H) as (en & En & H1). exists (s2l "^a"), en, (s2l "b"), (s2l "a"), []. split; [now left|]. split; [repeat constructor|]. split; [repeat constructor|].
  destruct (bind_ok _ _ _ H1) as (x & Ex & H2). destruct (bind_ok _ _ _ H2) as (y & Ey & H3). injection H3 as -> ->. split; assumption.
Qed.
Print Assumptions C47_extend_refuted.
