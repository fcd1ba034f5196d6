(** Properties of every engine, whichever macro made it: C17, C18, C19, C20, C21, C36. *)
From Coq Require Import String.
From Verif Require Import PStrip.
From Coq Require Import ZifyBool ZifyNat ZifyN.
Open Scope nat_scope.
Open Scope list_scope.

(** C17.  [test] of the DFA engine is true exactly when some part of the text matches, when [caret_ok] (SpecCaret.v): every
    way through the pattern passes the same number of [^], or a character is read after each of them. *)
Theorem C17_dfa_test_partial : forall s en e T, compile_dfa s = Ok en -> Forall scalar s -> Forall scalar T -> G_ere e s -> caret_ok e = true ->
  exists b, engine_test en T = Ok b /\ (b = true <-> occurs e T).
Proof.
  intros s en e T H Hs HT Hg Hc. destruct (compiled_unique s en e (or_intror (or_introl H)) Hs Hg) as (_ & Hr & _). apply right_test; auto.
Qed.
Print Assumptions C17_dfa_test_partial.
Example C17_case : with_ere (s2l "^(a|b)*c|^d$") (fun e => do en <- compile_dfa (s2l "^(a|b)*c|^d$"); do x <- engine_test en (s2l "abacz"); do y <- engine_test en (s2l "dabac"); Ok (caret_ok e, x, y)) = Ok (true, true, false).
Proof. vm_compute. reflexivity. Qed.
Example C17_case_led : with_ere (s2l "(a|^b)+c") (fun e => do en <- compile_dfa (s2l "(a|^b)+c"); do x <- engine_test en (s2l "bac"); do y <- engine_test en (s2l "abc"); Ok (caret_ok e, x, y)) = Ok (true, true, false).
Proof. vm_compute. reflexivity. Qed.
(** Without that condition it misses no match, and what it takes for a match is one of the pattern without its [^]. *)
Theorem C17_dfa_complete : forall s en e T, compile_dfa s = Ok en -> Forall scalar s -> Forall scalar T -> G_ere e s ->
  exists b, engine_test en T = Ok b /\ (occurs e T -> b = true) /\ (b = true -> occurs (uncaret e) T).
Proof.
  intros s en e T H Hs HT Hg. destruct (compiled_unique s en e (or_intror (or_introl H)) Hs Hg) as (_ & _ & n & _ & _ & Hr). destruct (Hr T HT) as (b & o & Eb & _ & H1 & H2 & _).
  exists b. split; [assumption|]. split; [intros Ho; now apply H1|]. intros E. destruct (H2 E) as (i & j & L & Hm). exists i, j, L. now apply late_uncaret in Hm.
Qed.
Print Assumptions C17_dfa_complete.
(** More closely, it is a match in which every [^] is passed at the beginning of the text or where the match ends ([late_match], SpecCaret.v). *)
Theorem C17_dfa_late : forall s en e T, compile_dfa s = Ok en -> Forall scalar s -> Forall scalar T -> G_ere e s ->
  exists b, engine_test en T = Ok b /\ (occurs e T -> b = true) /\ (b = true -> exists i j L, late_match false T e i j L).
Proof.
  intros s en e T H Hs HT Hg. destruct (compiled_unique s en e (or_intror (or_introl H)) Hs Hg) as (_ & _ & n & _ & _ & Hr). destruct (Hr T HT) as (b & o & Eb & _ & H1 & H2 & _).
  exists b. split; [assumption|]. split; [intros Ho; now apply H1|assumption].
Qed.
Print Assumptions C17_dfa_late.
(** The branch [^$] of the first pattern is taken at the end of any text; the branch [^b] of the second only at the beginning. *)
Example C17_case_late : (do en <- compile_dfa (s2l "^$|b|^a"); do x <- engine_test en (s2l "xa"); do y <- engine_test en (s2l "a"); do z <- engine_test en []; Ok (x, y, z)) = Ok (true, true, true) /\
  (do en <- compile_dfa (s2l "^b|a"); do x <- engine_test en (s2l "xb"); do y <- engine_test en (s2l "bx"); do z <- engine_test en (s2l "xa"); Ok (x, y, z)) = Ok (false, true, true).
Proof. split; vm_compute; reflexivity. Qed.
(** The full statement is false: [^$|b] on "xyz". *)
Theorem C17_refuted : exists s e en T, compile_dfa s = Ok en /\ Forall scalar s /\ Forall scalar T /\ G_ere e s /\ engine_test en T = Ok true /\ ~ occurs e T.
Proof.
  assert (He : exists e, parse_str (s2l "^$|b") = ROk e) by (eexists; vm_compute; reflexivity). destruct He as (e & He). apply parse_iff in He.
  assert (H : (do en <- compile_dfa (s2l "^$|b"); engine_test en (s2l "xyz")) = Ok true) by (vm_compute; reflexivity). apply bind_ok in H as (en & H1 & H2).
  exists (s2l "^$|b"), e, en, (s2l "xyz"). do 2 (split; [solve [assumption | repeat constructor]|]). split; [repeat constructor|]. do 2 (split; [assumption|]).
  apply (not_occurs_flat (s2l "^$|b")); [assumption|repeat constructor|repeat constructor|]. vm_compute. reflexivity.
Qed.
Print Assumptions C17_refuted.

(** C18.  [exec] gives captures exactly when [test] is true, for every engine that is not a DFA, and for a DFA when [caret_ok]. *)
Theorem C18_agree_partial : forall s en e T, compiled s en -> Forall scalar s -> Forall scalar T -> G_ere e s -> not_dfa en \/ caret_ok e = true ->
  (engine_test en T = Ok true <-> exists cs, engine_exec en T = Ok (Some cs)).
Proof. intros s en e T H Hs HT Hg Hn. apply (right_agree e); auto. now apply (compiled_unique s en e H Hs Hg). Qed.
Print Assumptions C18_agree_partial.
(** Captures are never given where [test] is false, and both are always defined. *)
Theorem C18_exec_test : forall s en T, compiled s en -> Forall scalar s -> Forall scalar T ->
  exists b o, engine_test en T = Ok b /\ engine_exec en T = Ok o /\ (forall cs, o = Some cs -> b = true).
Proof. intros s en T H Hs HT. destruct (compiled_sound s en H Hs) as (e & n & _ & _ & _ & Hr). destruct (Hr T HT) as (b & o & H1 & H2 & _ & _ & H5). exists b, o. do 2 (split; [assumption|]). intros cs E. now apply (H5 cs). Qed.
Print Assumptions C18_exec_test.
Example C18_case : (do en <- compile_regex (s2l "(ab|c)+$"); do x <- engine_test en (s2l "zabc"); do y <- engine_exec en (s2l "zabc"); do z <- engine_exec en (s2l "abz"); Ok (x, y, z)) =
  Ok (true, Some [Some (1, 4); Some (3, 4)], None).
Proof. vm_compute. reflexivity. Qed.
(** The full statement is false: [^($|x)(^|y)] on "xz", DFA engine. *)
Theorem C18_refuted : exists s en T, compiled s en /\ Forall scalar s /\ Forall scalar T /\ engine_test en T = Ok true /\ engine_exec en T = Ok None.
Proof.
  assert (H : (do en <- compile_dfa (s2l "^($|x)(^|y)"); do x <- engine_test en (s2l "xz"); do y <- engine_exec en (s2l "xz"); Ok (x, y)) = Ok (true, None)) by (vm_compute; reflexivity).
  apply bind_ok in H as (en & H1 & H2). apply bind_ok in H2 as (x & H2 & H3). apply bind_ok in H3 as (y & H3 & H4). injection H4 as -> ->.
  exists (s2l "^($|x)(^|y)"), en, (s2l "xz"). split; [right; left; assumption|]. split; [repeat constructor|]. split; [repeat constructor|]. auto.
Qed.
Print Assumptions C18_refuted.

(** C19.  [exec] of every engine returns normally; each capture is a range of the text on character boundaries. *)
Theorem C19_no_panic : forall s en T, compiled s en -> Forall scalar s -> Forall scalar T ->
  exists o, engine_exec en T = Ok o /\
    forall cs, o = Some cs -> List.length cs = engine_groups en /\
      forall k a b, nth_error cs k = Some (Some (a, b)) -> a <= b /\ exists i j, i <= j <= List.length T /\ a = byte_pos T i /\ b = byte_pos T j.
Proof.
  intros s en T H Hs HT. destruct (compiled_sound s en H Hs) as (e & n & _ & _ & _ & Hr). assert (Hr' := Hr). destruct (Hr' T HT) as (b & o & _ & Eo & _).
  exists o. split; [assumption|]. intros cs ->. exact (sound_spans e n en T cs Hr HT Eo).
Qed.
Print Assumptions C19_no_panic.
Example C19_case : (do en <- compile_regex (s2l "(.)(b|())(^|c)"); engine_exec en ([0x1F600%N] ++ s2l "bd")) = Ok None /\
  (do en <- compile_dfa (s2l "(.)(b|())"); engine_exec en ([0x1F600%N] ++ s2l "bd")) = Ok (Some [Some (0, 5); Some (0, 4); Some (4, 5); None]).
Proof. split; vm_compute; reflexivity. Qed.

(** The check of [str::get] in the model is that of ranges on character boundaries. *)
Theorem C19_slices : forall T a b, Forall scalar T -> str_get_ok T a b = true <-> exists i j, i <= j <= List.length T /\ a = byte_pos T i /\ b = byte_pos T j.
Proof.
  intros T a b HT. unfold str_get_ok. rewrite !andb_true_iff, !(boundary_iff T HT), Nat.leb_le. split.
  - intros [[H (i & Hi & ->)] (j & Hj & ->)]. destruct (Nat.le_gt_cases i j); [exists i, j; auto|]. exists i, i. split; [lia|]. split; [reflexivity|]. apply Nat.le_antisymm; [|assumption]. apply byte_pos_mono; lia.
  - intros (i & j & H & -> & ->). split; [split; [apply byte_pos_mono; lia|exists i; split; [lia|reflexivity]]|exists j; split; [lia|reflexivity]].
Qed.
Print Assumptions C19_slices.
Example C19_case_slices : map (fun p => str_get_ok [0x61; 0xE9; 0x1F600]%N (fst p) (snd p)) [(1, 3); (1, 2); (3, 7); (7, 7); (7, 8); (3, 1); (8, 8)] = [true; false; true; true; false; false; false].
Proof. vm_compute. reflexivity. Qed.

(** C20.  Captures are those of a match: in full, except for a DFA without [caret_ok]. *)
Theorem C20_captures_partial : forall s en e T, compiled s en -> Forall scalar s -> Forall scalar T -> G_ere e s -> not_dfa en \/ caret_ok e = true ->
  exists o, engine_exec en T = Ok o /\ match o with Some cs => captures_of e T cs /\ List.length cs = engine_groups en | None => ~ occurs e T end.
Proof. intros s en e T H Hs HT Hg Hn. apply right_exec; auto. now apply (compiled_unique s en e H Hs Hg). Qed.
Print Assumptions C20_captures_partial.
(** Then they are those of a match of the pattern without its [^], and a match is still never missed. *)
Theorem C20_captures_uncaret : forall s en e T, compiled s en -> Forall scalar s -> Forall scalar T -> G_ere e s ->
  exists o, engine_exec en T = Ok o /\ match o with Some cs => captures_of (uncaret e) T cs | None => ~ occurs e T end.
Proof.
  intros s en e T H Hs HT Hg. destruct (compiled_unique s en e H Hs Hg) as (_ & _ & n & _ & _ & Hr). destruct (Hr T HT) as (b & o & _ & Eo & H1 & _ & H2). exists o. split; [assumption|].
  destruct o as [cs|]; [|intros Ho; now apply H1 in Ho]. destruct (H2 cs eq_refl) as (_ & _ & i & j & L & Hm & Hc & _). exists i, j, L. split; [now apply late_uncaret in Hm|assumption].
Qed.
Print Assumptions C20_captures_uncaret.
(** More closely, they are those of a match in which every [^] is passed at the beginning of the text or where the match ends, and
    with the DFA engine itself, the latter only if the match ends where the text ends. *)
Theorem C20_captures_late : forall s en e T, compiled s en -> Forall scalar s -> Forall scalar T -> G_ere e s ->
  exists o, engine_exec en T = Ok o /\
    match o with
    | Some cs => List.length cs = engine_groups en /\ exists i j L, late_match (match en with EDfa _ => true | _ => false end) T e i j L /\ cs = map (capture T L) (seq 0 (List.length cs))
    | None => ~ occurs e T
    end.
Proof.
  intros s en e T H Hs HT Hg. destruct (compiled_unique s en e H Hs Hg) as (_ & _ & n & _ & _ & Hr). destruct (Hr T HT) as (b & o & _ & Eo & H1 & _ & H2). exists o. split; [assumption|].
  destruct o as [cs|]; [|intros Ho; now apply H1 in Ho]. destruct (H2 cs eq_refl) as (_ & Hl & i & j & L & Hm & Hc & _). split; [assumption|]. exists i, j, L. auto.
Qed.
Print Assumptions C20_captures_late.
(** A late [^] is taken at the end of the text, not before it. *)
Example C20_case_late : (do en <- compile_dfa (s2l "^($|x)(^|y)"); do x <- engine_exec en (s2l "x"); do y <- engine_exec en (s2l "xz"); do z <- engine_exec en (s2l "xyz"); Ok (x, y, z)) =
  Ok (Some [Some (0, 1); Some (0, 1); Some (1, 1)], None, Some [Some (0, 2); Some (0, 1); Some (1, 2)]).
Proof. vm_compute. reflexivity. Qed.
Example C20_case : (do en <- compile_regex (s2l "((a)|b)*c"); engine_exec en (s2l "xabc")) = Ok (Some [Some (1, 4); Some (2, 3); Some (1, 2)]).
Proof. vm_compute. reflexivity. Qed.
(** The full statement is false: [^$|b] on "xyz", DFA engine. *)
Theorem C20_refuted : exists s en e T cs, compiled s en /\ Forall scalar s /\ Forall scalar T /\ G_ere e s /\ engine_exec en T = Ok (Some cs) /\ ~ captures_of e T cs.
Proof.
  assert (He : exists e, parse_str (s2l "^$|b") = ROk e) by (eexists; vm_compute; reflexivity). destruct He as (e & He). apply parse_iff in He.
  assert (H : (do en <- compile_dfa (s2l "^$|b"); engine_exec en (s2l "xyz")) = Ok (Some [Some (3, 3)])) by (vm_compute; reflexivity). apply bind_ok in H as (en & H1 & H2).
  exists (s2l "^$|b"), en, e, (s2l "xyz"), [Some (3, 3)]. split; [right; left; assumption|]. split; [repeat constructor|]. split; [repeat constructor|]. do 2 (split; [assumption|]).
  intros (i & j & L & Hm & _). apply (not_occurs_flat (s2l "^$|b") e (s2l "xyz")); [assumption|repeat constructor|repeat constructor|vm_compute; reflexivity|]. now exists i, j, L.
Qed.
Print Assumptions C20_refuted.

(** C21.  Group 0 and the groups classified as not optional are always reported. *)
Theorem C21_mandatory : forall s en e T cs, compiled s en -> Forall scalar s -> Forall scalar T -> G_ere e s -> engine_exec en T = Ok (Some cs) ->
  (exists sp, nth_error cs 0 = Some (Some sp)) /\
  forall n k, working_new (tree_of e) = Ok n -> k < List.length cs -> capture_group_is_optional n k = Ok false -> exists sp, nth_error cs k = Some (Some sp).
Proof.
  intros s en e T cs H Hs HT Hg E. destruct (compiled_unique s en e H Hs Hg) as (H1 & _ & n & En & Ha & Hr). destruct (sound_groups e n en T cs Hr Ha H1 HT E) as [G0 G1].
  split; [assumption|]. intros n' k En' Hk Ho. rewrite En in En'. injection En' as <-. auto.
Qed.
Print Assumptions C21_mandatory.
(** So [exec] of the attribute macro never panics, whatever the engine. *)
Theorem C21_attr : forall s en opts T, attr_compile s = Ok (en, opts) -> Forall scalar s -> Forall scalar T -> exists o, attr_exec en opts T = Ok o.
Proof. exact attr_total. Qed.
Print Assumptions C21_attr.
Example C21_case : (do r <- attr_compile (s2l "(a)(b|(c))?"); do x <- attr_exec (fst r) (snd r) (s2l "zac"); Ok (snd r, x)) =
  Ok ([false; false; true; true], Some [Some (1, 3); Some (1, 2); Some (2, 3); Some (2, 3)]).
Proof. vm_compute. reflexivity. Qed.

(** C36.  The engine chosen by default answers [test] as the character engine does, unless it is a DFA and not [caret_ok]. *)
Theorem C36_default_partial : forall s d c e T, compile_regex s = Ok d -> compile_flat s = Ok c -> Forall scalar s -> Forall scalar T -> G_ere e s -> not_dfa d \/ caret_ok e = true ->
  engine_test d T = engine_test c T.
Proof.
  intros s d c e T Hd Hc Hs HT Hg Hn. destruct (compiled_unique s d e (or_introl Hd) Hs Hg) as (_ & R1 & _). destruct (compiled_unique s c e (or_intror (or_intror (or_introl Hc))) Hs Hg) as (_ & R2 & _).
  apply (right_same e); auto. apply R2. left. now apply (flat_not_dfa s).
Qed.
Print Assumptions C36_default_partial.
(** A text the character engine accepts is always accepted. *)
Theorem C36_default_complete : forall s d c T, compile_regex s = Ok d -> compile_flat s = Ok c -> Forall scalar s -> Forall scalar T -> engine_test c T = Ok true -> engine_test d T = Ok true.
Proof.
  intros s d c T Hd Hc Hs HT E. destruct (compile_flat_right s c Hc Hs) as (e & Hg & Hr & _). destruct (right_test e c Hr T HT) as (b & Eb & Hb). rewrite E in Eb. injection Eb as <-.
  destruct (compiled_unique s d e (or_introl Hd) Hs Hg) as (_ & _ & n & _ & _ & R). destruct (R T HT) as (b & o & E1 & _ & H1 & _). rewrite E1. f_equal. apply H1, Hb. reflexivity.
Qed.
Print Assumptions C36_default_complete.
Example C36_case : (do d <- compile_regex (s2l "(a|bc)+d"); do c <- compile_flat (s2l "(a|bc)+d"); do x <- engine_test d (s2l "zabcd"); do y <- engine_test c (s2l "zabcd");
   Ok (match d with EDfa _ => true | _ => false end, x, y)) = Ok (true, true, true).
Proof. vm_compute. reflexivity. Qed.
Theorem C36_refuted : exists s d c T, compile_regex s = Ok d /\ compile_flat s = Ok c /\ Forall scalar s /\ Forall scalar T /\ engine_test d T = Ok true /\ engine_test c T = Ok false.
Proof.
  assert (H : (do d <- compile_regex (s2l "^$|b"); do c <- compile_flat (s2l "^$|b"); do x <- engine_test d (s2l "xyz"); do y <- engine_test c (s2l "xyz"); Ok (x, y)) = Ok (true, false)) by (vm_compute; reflexivity).
  apply bind_ok in H as (d & H1 & H). apply bind_ok in H as (c & H2 & H). apply bind_ok in H as (x & H3 & H). apply bind_ok in H as (y & H4 & H). injection H as -> ->.
  exists (s2l "^$|b"), d, c, (s2l "xyz"). do 2 (split; [assumption|]). split; [repeat constructor|]. split; [repeat constructor|]. auto.
Qed.
Print Assumptions C36_refuted.
