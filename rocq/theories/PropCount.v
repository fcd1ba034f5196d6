(** The number of captures (C32) and whether the generated code compiles (C33). *)
From Coq Require Import String.
From Verif Require Import PAnchored PUsed PLazyAll PRoom.
From Coq Require Import ZifyBool ZifyNat ZifyN.
Open Scope nat_scope.
Open Scope list_scope.

(** C32.  A compiled pattern never reports more captures than it has groups, counting the whole match; and it has room for every
    group that takes part in some match (the plain DFA engine excepted). *)
Theorem C32_groups_partial : forall s en e, compiled s en -> Forall scalar s -> G_ere e s ->
  engine_groups en <= S (groups e) /\
  (~ is_dfa en -> forall T i j L k, Forall scalar T -> matches T e i j L -> last_of k L <> None -> k < engine_groups en).
Proof.
  intros s en e H Hs Hg. destruct (compiled_counted s en H Hs) as (e' & Hg' & Hc). apply parse_iff in Hg, Hg'. rewrite Hg in Hg'. injection Hg' as <-. split.
  - now apply counted_bound.
  - intros Hd T i j L k HT Hm Hk. eapply counted_uses; eauto.
Qed.
Print Assumptions C32_groups_partial.
(** So the number is right whenever the last group takes part in some match. *)
Theorem C32_exact : forall s en e T i j L, compiled s en -> Forall scalar s -> G_ere e s -> ~ is_dfa en -> Forall scalar T -> matches T e i j L -> last_of (groups e) L <> None ->
  engine_groups en = S (groups e).
Proof.
  intros s en e T i j L H Hs Hg Hd HT Hm Hk. destruct (C32_groups_partial s en e H Hs Hg) as [H1 H2]. specialize (H2 Hd T i j L _ HT Hm Hk). lia.
Qed.
Print Assumptions C32_exact.
Example C32_case : with_ere (s2l "(a(b)?)+") (fun e => do en <- compile_flat_u8 (s2l "(a(b)?)+"); do x <- engine_exec en (s2l "abab"); Ok (engine_groups en, groups e, x)) =
  Ok (3, 2, Some [Some (0, 4); Some (2, 4); Some (3, 4)]).
Proof. vm_compute. reflexivity. Qed.
(** The plain DFA may count fewer groups, but never so few that it would cut off a group of the match it reports: there is one match all
    of whose groups have room and whose captures are the ones reported. *)
Theorem C32_room : forall s en e T cs, compiled s en -> Forall scalar s -> G_ere e s -> not_dfa en \/ caret_ok e = true -> Forall scalar T -> engine_exec en T = Ok (Some cs) ->
  exists i j L, matches T e i j L /\ cs = map (capture T L) (seq 0 (List.length cs)) /\ forall k, last_of k L <> None -> k < List.length cs.
Proof.
  intros s en e T cs H Hs Hg Hc HT E. destruct (exec_room s e en T cs H Hs HT Hg Hc E) as (i & j & L & H1 & H2 & H3).
  assert (El : List.length cs = engine_groups en) by (rewrite H2; now rewrite map_length, seq_length). rewrite El. exists i, j, L. auto.
Qed.
Print Assumptions C32_room.
(** [(a|(b))(c)]: the second group has not taken part in the match, the third one has.  [(|())]: the second group, which the DFA leaves out, takes part in none of the matches it reports. *)
Example C32_case_room : (do en <- compile_dfa (s2l "(a|(b))(c)"); mapM (engine_exec en) [s2l "bac"; s2l "bc"]) = Ok [Some [Some (1, 3); Some (1, 2); None; Some (2, 3)]; Some [Some (0, 2); Some (0, 1); Some (0, 1); Some (1, 2)]] /\
  (do en <- compile_dfa (s2l "(|())"); engine_exec en (s2l "x")) = Ok (Some [Some (0, 0); Some (0, 0)]).
Proof. split; vm_compute; reflexivity. Qed.
(** So of a pattern whose matches of one text all give the same captures the DFA counts every group up to the last one that takes part, too. *)
Theorem C32_exact_one : forall s en e T i j L, compiled s en -> Forall scalar s -> G_ere e s -> not_dfa en \/ caret_ok e = true -> one_answer e -> Forall scalar T -> matches T e i j L ->
  (forall k, last_of k L <> None -> k < engine_groups en) /\ (last_of (groups e) L <> None -> engine_groups en = S (groups e)).
Proof.
  intros s en e T i j L H Hs Hg Hc Hone HT Hm.
  assert (A : forall k, last_of k L <> None -> k < engine_groups en).
  { intros k Hk. destruct (compiled_answer s e en T H Hs HT Hg Hc) as (o & Eo & Ho). destruct o as [cs|]; [|exfalso; apply Ho; now exists i, j, L].
    destruct (exec_room s e en T cs H Hs HT Hg Hc Eo) as (i' & j' & L' & H1 & _ & H3). apply H3. intros E. assert (X := Hone T i j L i' j' L' k HT Hm H1). unfold capture in X. rewrite E in X.
    destruct (last_of k L) as [[x y]|]; [discriminate X|now apply Hk]. }
  split; [exact A|]. intros Hk. apply A in Hk. destruct (C32_groups_partial s en e H Hs Hg) as [B _]. lia.
Qed.
Print Assumptions C32_exact_one.
(** The patterns for fields of C70 are of this kind ([C70_one_answer]). *)
Example C32_case_exact_one : with_ere (s2l "^([^,]*),([^,]*)$") (fun e => do en <- compile_dfa (s2l "^([^,]*),([^,]*)$"); do x <- engine_exec en (s2l "ab,"); Ok (caret_ok e, groups e, engine_groups en, x)) =
  Ok (true, 2, 3, Some [Some (0, 3); Some (0, 2); Some (3, 3)]).
Proof. vm_compute. reflexivity. Qed.
(** Without anchors and empty bracket lists the number is one more than that of the last group that can take part in a match at all. *)
Theorem C32_used : forall s en e, compiled s en -> Forall scalar s -> G_ere e s -> ~ is_dfa en -> anchor_free e = true -> inhabited_atoms e ->
  forall k, k < engine_groups en <-> exists T i j L l, Forall scalar T /\ matches T e i j L /\ k <= l /\ last_of l L <> None.
Proof.
  intros s en e H Hs Hg Hd Hf Hi k. split.
  - intros Hk. destruct (groups_used s en e H Hs Hg Hd Hf Hi) as (T & i & j & L & H1 & H2 & H3). exists T, i, j, L, (engine_groups en - 1). split; [assumption|]. split; [assumption|]. split; [lia|assumption].
  - intros (T & i & j & L & l & HT & Hm & Hl & Hk). destruct (C32_groups_partial s en e H Hs Hg) as [_ H2]. specialize (H2 Hd T i j L l HT Hm Hk). lia.
Qed.
Print Assumptions C32_used.
(** Of the three groups of [(a(b){0})(c{2,1})?] only the first is of use. *)
Example C32_used_case : with_ere (s2l "(a(b){0})(c{2,1})?") (fun e => do en <- compile_flat_u8 (s2l "(a(b){0})(c{2,1})?"); do en' <- compile_flat (s2l "(a(b){0})(c{2,1})?"); do x <- engine_exec en (s2l "ba"); Ok (anchor_free e, groups e, engine_groups en, engine_groups en', x)) =
  Ok (true, 3, 2, 2, Some [Some (1, 2); Some (1, 2)]).
Proof. vm_compute. reflexivity. Qed.
(** The full statement is false: [a(b){0}] with any engine, [(|())] with the DFA. *)
Theorem C32_refuted : exists s e en, compile_regex s = Ok en /\ Forall scalar s /\ G_ere e s /\ groups e = 1 /\ engine_groups en = 1.
Proof.
  assert (H : with_ere (s2l "a(b){0}") (fun e => do en <- compile_regex (s2l "a(b){0}"); Ok (groups e, engine_groups en)) = Ok (1, 1)) by (vm_compute; reflexivity).
  apply with_ere_ok in H as (e & He & H). apply bind_ok in H as (en & H1 & H2). injection H2 as H2 H3. apply parse_iff in He.
  exists (s2l "a(b){0}"), e, en. split; [assumption|]. split; [repeat constructor|]. auto.
Qed.
Print Assumptions C32_refuted.
Theorem C32_dfa_refuted : exists s e en en', compile_dfa s = Ok en /\ compile_flat_u8 s = Ok en' /\ Forall scalar s /\ G_ere e s /\ groups e = 2 /\ engine_groups en = 2 /\ engine_groups en' = 3.
Proof.
  assert (H : with_ere (s2l "(|())") (fun e => do en <- compile_dfa (s2l "(|())"); do en' <- compile_flat_u8 (s2l "(|())"); Ok (groups e, engine_groups en, engine_groups en')) = Ok (2, 2, 3)) by (vm_compute; reflexivity).
  apply with_ere_ok in H as (e & He & H). apply bind_ok in H as (en & H1 & H2). apply bind_ok in H2 as (en' & H2 & H3). injection H3 as H3 H4 H5. apply parse_iff in He.
  exists (s2l "(|())"), e, en, en'. split; [assumption|]. split; [assumption|]. split; [repeat constructor|]. auto.
Qed.
Print Assumptions C32_dfa_refuted.

(** C33.  The code the default macro generates compiles, for every pattern that can match, if only nothing, after the beginning
    and before the end of a text and does not name the classes [[:graph:]] and [[:xdigit:]]. *)
Theorem C33_default_partial : forall s e T i j L, G_ere e s -> Forall scalar s -> (forall a, In a (atoms e) -> named_well a) ->
  Forall scalar T -> matches T e i j L -> 0 < i < length T -> exists en, compile_regex s = Ok en.
Proof. intros s e T i j L Hg Hs Ha HT Hm Hij. apply parse_iff in Hg. eapply default_compiles; eauto. Qed.
Print Assumptions C33_default_partial.
(** It also compiles for every pattern with the same number of anchors on all ways through it, if there is no [^] on them, or else if
    the pattern does not match the empty text and its matches of one text all give the same captures, unless there is no [$].  The
    named classes that only the character engine gets wrong matter only if a text may continue before or after the match. *)
Theorem C33_anchors_partial : forall s e T k, G_ere e s -> Forall scalar s -> carets e = Some k ->
  (forall a, In a (atoms e) -> named_well a) \/ (0 < k /\ (exists l, dollars e = Some l /\ 0 < l) /\ forall a, In a (atoms e) -> ascii_atom a) ->
  Forall scalar T -> occurs e T -> k = 0 \/ (~ occurs e [] /\ (dollars e = Some 0 \/ exists l, dollars e = Some l /\ one_answer e)) ->
  exists en, compile_regex s = Ok en.
Proof. intros s e T k Hg. apply parse_iff in Hg. now apply anchors_compile. Qed.
Print Assumptions C33_anchors_partial.
Example C33_case_anchors : exists e, G_ere e (s2l "^#([[:xdigit:]]{2})$") /\ carets e = Some 1 /\ dollars e = Some 1 /\ (forall a, In a (atoms e) -> ascii_atom a) /\
  occurs e (s2l "#fA") /\ ~ occurs e [] /\ one_answer e.
Proof.
  set (s := s2l "^#([[:xdigit:]]{2})$"). assert (Hs : Forall scalar s) by (repeat constructor).
  assert (H : with_ere s (fun e => do en <- compile_flat_u8 s; do x <- engine_test en (s2l "#fA"); do y <- engine_test en []; Ok (carets e, dollars e, atoms e, x, y)) =
    Ok (Some 1, Some 1, [NormalChar 35%N; MatchingList [Class HexDigit]], true, false)) by (vm_compute; reflexivity).
  apply with_ere_ok in H as (e & He & H). apply bind_ok in H as (en & H1 & H). apply bind_ok in H as (x & H2 & H). apply bind_ok in H as (y & H3 & H). injection H as E1 E2 E3 -> ->.
  assert (Ho : occurs e (s2l "#fA") /\ ~ occurs e []).
  { destruct (compile_flat_u8_right _ _ H1 Hs) as (e' & He' & Hr & _). apply parse_iff in He'. rewrite He in He'. injection He' as <-.
    destruct (Hr (s2l "#fA") ltac:(repeat constructor)) as [Ht _], (Hr [] ltac:(constructor)) as [Ht' _]. rewrite H2 in Ht. rewrite H3 in Ht'. split; [now apply Ht|]. intros Q. apply Ht' in Q. discriminate. }
  destruct Ho as [Ho Hno]. exists e. split; [now apply parse_iff|]. split; [assumption|]. split; [assumption|]. split; [rewrite E3; intros a [<-|[<-|[]]]; [reflexivity|constructor; [exact I|constructor]]|].
  split; [assumption|]. split; [assumption|]. intros T i j L i' j' L' k HT Hm Hm'.
  destruct (parsed_automata s e He Hs (s2l "#fA") ltac:(repeat constructor) Ho) as (n & m & En & _ & _ & Em & Hb).
  assert (H : with_ere s (fun e => do n <- working_new (tree_of e); do m <- u8_new n; do op <- op_make m; Ok (match op with Some op => one_accept op | None => false end)) = Ok true) by (vm_compute; reflexivity).
  rewrite (parsed_with_ere s e _ He), En in H. cbn [bind] in H. rewrite Em in H. cbn [bind] in H. apply bind_ok in H as (o & Eo & H). destruct o as [op|]; [|discriminate]. injection H as H.
  assert (X := op_single e m op T Hb Eo H HT (S k) _ _ _ _ _ _ Hm Hm'). apply (f_equal (fun l => nth_error l k)) in X. rewrite !nth_capture in X by lia. congruence.
Qed.
Example C33_case_unanchored : exists e, G_ere e (s2l "a*(b|)$") /\ carets e = Some 0 /\ (forall a, In a (atoms e) -> named_well a) /\ occurs e [].
Proof.
  assert (H : with_ere (s2l "a*(b|)$") (fun e => do en <- compile_flat_u8 (s2l "a*(b|)$"); do x <- engine_test en []; Ok (carets e, atoms e, x)) =
    Ok (Some 0, [NormalChar 97%N; NormalChar 98%N], true)) by (vm_compute; reflexivity).
  apply with_ere_ok in H as (e & He & H). apply bind_ok in H as (en & H1 & H). apply bind_ok in H as (x & H2 & H). injection H as E1 E2 ->.
  destruct (compile_flat_u8_right _ _ H1 ltac:(repeat constructor)) as (e' & He' & Hr & _). apply parse_iff in He'. rewrite He in He'. injection He' as <-.
  exists e. split; [now apply parse_iff|]. split; [assumption|]. split; [rewrite E2; intros a [<-|[<-|[]]]; exact I|].
  destruct (Hr [] ltac:(constructor)) as [Ht _]. rewrite H2 in Ht. now apply Ht.
Qed.
(** So does that of the byte engine, for every pattern that can match at all, whatever classes it names... *)
Theorem C33_flat_u8 : forall s e T, G_ere e s -> Forall scalar s -> Forall scalar T -> occurs e T -> exists en, compile_flat_u8 s = Ok en.
Proof. intros s e T Hg Hs HT Ho. apply parse_iff in Hg. eapply flat_u8_compiles; eauto. Qed.
Print Assumptions C33_flat_u8.
(** ... and that of the character engine if it does not name those two. *)
Theorem C33_flat : forall s e T, G_ere e s -> Forall scalar s -> (forall a, In a (atoms e) -> named_well a) -> Forall scalar T -> occurs e T -> exists en, compile_flat s = Ok en.
Proof. intros s e T Hg Hs Ha HT Ho. apply parse_iff in Hg. eapply flat_compiles; eauto. Qed.
Print Assumptions C33_flat.
Example C33_case : exists e L, G_ere e (s2l "[^x]b*") /\ (forall a, In a (atoms e) -> named_well a) /\ matches (s2l "xab") e 1 3 L.
Proof.
  exists [[PSingle (XAtom (NonmatchingList [Single 120%N])); PQuant (XAtom (NormalChar 98%N)) {| q_type := QStar; q_alt := false |}]], [(0, (1, 3))].
  split; [apply parse_iff; vm_compute; reflexivity|]. split.
  - intros a [<-|[<-|[]]]; cbn; [|exact I]. split; intros [H|[]]; discriminate.
  - exists []. split; [|reflexivity]. apply ma_here. apply mb_cons with (j := 2) (L1 := []) (L2 := []).
    + apply mp_single. apply me_atom with (c := 97%N); [reflexivity|]. intros (t & [<-|[]] & Ht). discriminate.
    + apply mb_cons with (j := 3) (L1 := []) (L2 := []); [|apply mb_nil; cbn; auto].
      apply mp_quant with (n := 1); [exact I|]. apply mi_more with (j := 3) (L1 := []) (L2 := []); [|apply mi_none; cbn; auto].
      apply me_atom with (c := 98%N); reflexivity.
Qed.
(** The full statement is false.  [^a*$]: the guard of a final arm names a variable that is not in scope; [^(a?)?$]: two ways to
    accept in one state are answered with [compile_error!]; [[[:graph:]]]: the character engine names a variant that does not exist. *)
Theorem C33_refuted : exists s e T, Forall scalar s /\ G_ere e s /\ Forall scalar T /\ occurs e T /\ compile_regex s = NoCompile.
Proof.
  assert (He : exists e, parse_str (s2l "^a*$") = ROk e) by (eexists; vm_compute; reflexivity). destruct He as (e & He). apply parse_iff in He.
  exists (s2l "^a*$"), e, (s2l "aa"). split; [repeat constructor|]. split; [assumption|]. split; [repeat constructor|]. split; [|vm_compute; reflexivity].
  assert (H : (do en <- compile_flat (s2l "^a*$"); engine_test en (s2l "aa")) = Ok true) by (vm_compute; reflexivity). apply bind_ok in H as (en & H1 & H2).
  destruct (compile_flat_right _ _ H1 ltac:(repeat constructor)) as (e' & He' & Hr & _). apply parse_iff in He, He'. rewrite He in He'. injection He' as <-.
  destruct (Hr (s2l "aa") ltac:(repeat constructor)) as [Ht _]. rewrite H2 in Ht. now apply Ht.
Qed.
Print Assumptions C33_refuted.
Theorem C33_twice_refuted : compile_regex (s2l "^(a?)?$") = NoCompile /\ (do en <- compile_flat (s2l "^(a?)?$"); engine_test en (s2l "a")) = Ok true.
Proof. split; vm_compute; reflexivity. Qed.
Print Assumptions C33_twice_refuted.
Theorem C33_class_refuted : compile_flat (s2l "[[:graph:]]") = NoCompile /\ (do en <- compile_flat_u8 (s2l "[[:graph:]]"); engine_test en (s2l "a")) = Ok true.
Proof. split; vm_compute; reflexivity. Qed.
Print Assumptions C33_class_refuted.
