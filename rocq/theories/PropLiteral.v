(** Patterns that stand for strings: C61. *)
From Coq Require Import String.
From Verif Require Import PStrip PAll PLiteral SpecLiteral.
Open Scope nat_scope.
Open Scope list_scope.

(** C61.  A string written so that its characters stand for themselves, with or without [^] before and [$] after it: however it is
    compiled, [exec] reports the first place where the string stands in the text (at the beginning, at the end or both, if anchored) and
    [test] tells whether there is one. *)
Theorem C61_literal : forall a z w en T, compiled (word_text a z w) en -> Forall scalar w -> Forall scalar T ->
  exists o, engine_exec en T = Ok o /\ engine_test en T = Ok (match o with Some _ => true | None => false end) /\
    match o with
    | Some cs => exists U, stands_first a z w T U /\ cs = [Some (bytes_of U, bytes_of U + bytes_of w)]
    | None => forall U, ~ stands a z w T U
    end.
Proof. exact word_finds. Qed.
Print Assumptions C61_literal.
(** Compiling it succeeds with the default macro and those of the lockstep engines, except that the default macro does not take [^] alone. *)
Theorem C61_compiles : forall a z w, Forall scalar w ->
  (a = false \/ z = true \/ w <> [] -> exists en, compile_regex (word_text a z w) = Ok en) /\ (exists en, compile_flat (word_text a z w) = Ok en) /\ exists en, compile_flat_u8 (word_text a z w) = Ok en.
Proof. exact word_compiles. Qed.
Print Assumptions C61_compiles.
(** Several strings as alternatives: one of them that stands in the text, and none stands before it. *)
Theorem C61_alternatives : forall w ws en T, compiled (quote_any (w :: ws)) en -> Forall (Forall scalar) (w :: ws) -> Forall scalar T ->
  exists o, engine_exec en T = Ok o /\ engine_test en T = Ok (match o with Some _ => true | None => false end) /\
    match o with
    | Some cs => exists v U, In v (w :: ws) /\ stands false false v T U /\ cs = [Some (bytes_of U, bytes_of U + bytes_of v)] /\
                   forall v' U', In v' (w :: ws) -> stands false false v' T U' -> List.length U <= List.length U'
    | None => forall v U, In v (w :: ws) -> ~ stands false false v T U
    end.
Proof. exact words_find. Qed.
Print Assumptions C61_alternatives.
Theorem C61_alternatives_compile : forall w ws, Forall (Forall scalar) (w :: ws) ->
  (exists en, compile_regex (quote_any (w :: ws)) = Ok en) /\ (exists en, compile_flat (quote_any (w :: ws)) = Ok en) /\ exists en, compile_flat_u8 (quote_any (w :: ws)) = Ok en.
Proof. exact words_compile. Qed.
Print Assumptions C61_alternatives_compile.
(** So [test] of the default macro is [contains], [starts_with], [ends_with] and equality. *)
Theorem C61_test : forall a z w, Forall scalar w -> a = false \/ z = true \/ w <> [] -> exists en, compile_regex (word_text a z w) = Ok en /\
  forall T, Forall scalar T -> engine_test en T = Ok true <-> match a, z with
    | false, false => exists U V, T = U ++ w ++ V
    | true, false => exists V, T = w ++ V
    | false, true => exists U, T = U ++ w
    | true, true => T = w
    end.
Proof.
  intros a z w Hw Hn. destruct (proj1 (word_compiles a z w Hw) Hn) as (en & E). exists en. split; [exact E|]. intros T HT.
  destruct (word_finds a z w en T (or_introl E) Hw HT) as (o & _ & -> & Ho).
  transitivity (exists U, stands a z w T U).
  - destruct o as [cs|]; [destruct Ho as (U & [H _] & _); split; [eauto|reflexivity]|]. split; [discriminate|]. intros (U & H). destruct (Ho U H).
  - unfold stands. destruct a, z; split.
    + intros (U & V & -> & H1 & H2). now rewrite (H1 eq_refl), (H2 eq_refl), app_nil_r.
    + intros ->. exists [], []. now rewrite app_nil_r.
    + intros (U & V & -> & H1 & _). exists V. now rewrite (H1 eq_refl).
    + intros (V & ->). exists [], V. split; [reflexivity|]. split; [reflexivity|discriminate].
    + intros (U & V & -> & _ & H2). exists U. now rewrite (H2 eq_refl), app_nil_r.
    + intros (U & ->). exists U, []. rewrite app_nil_r. split; [reflexivity|]. split; [discriminate|reflexivity].
    + intros (U & V & -> & _). now exists U, V.
    + intros (U & V & ->). exists U, V. split; [reflexivity|]. split; discriminate.
Qed.
Print Assumptions C61_test.
Example C61_case : word_text true true (s2l "a.b") = s2l "^a\.b$" /\ quote_any [s2l "(x)"; []; [0x20AC%N]] = s2l "\(x\)||" ++ [0x20AC%N] /\
  (do en <- compile_regex (word_text false false [0x20AC%N; 46%N]); mapM (engine_exec en) [s2l "ab" ++ [0x20AC%N; 46%N; 0x20AC%N; 46%N]; s2l "x"]) = Ok [Some [Some (2, 6)]; None] /\
  (do en <- compile_regex (quote_any [s2l "b)"; s2l "ab"; [0x20AC%N]]); mapM (engine_exec en) [s2l "xab)" ; s2l "x" ++ [0x20AC%N]; s2l "b"]) = Ok [Some [Some (1, 3)]; Some [Some (1, 4)]; None].
Proof. split; [|split; [|split]]; vm_compute; reflexivity. Qed.
(** [^] alone the default macro does not compile; [^$] it does. *)
Example C61_case_empty : compile_regex (word_text true false []) = NoCompile /\ match compile_regex (word_text true true []) with Ok en => mapM (engine_test en) [[]; s2l "a"] | _ => NoCompile end = Ok [true; false].
Proof. split; vm_compute; reflexivity. Qed.
