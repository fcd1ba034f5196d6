(** Where the patterns of the one-pass engine match (C64). *)
From Coq Require Import String.
From Verif Require Import SpecLaws SpecLiteral POnePlace PFree PAll PStrip.
Open Scope nat_scope.
Open Scope list_scope.

(** C64.  A pattern that is given the one-pass engine matches at one end of the text only: if it can match anywhere after the beginning
    of some text, all its matches in all texts are of nothing, at the very end. *)
Theorem C64_one_place : forall s e en T i j L T' i' j' L', compiled s en -> one_pass_based en -> Forall scalar s -> G_ere e s -> Forall scalar T -> Forall scalar T' ->
  matches T e i j L -> 0 < i -> matches T' e i' j' L' -> i' = List.length T' /\ j' = List.length T'.
Proof. exact one_place. Qed.
Print Assumptions C64_one_place.
(** So is the match that [exec] reports. *)
Theorem C64_exec : forall s e en T cs a b, compiled s en -> one_pass_based en -> Forall scalar s -> G_ere e s -> Forall scalar T ->
  engine_exec en T = Ok (Some cs) -> nth_error cs 0 = Some (Some (a, b)) -> a = 0 \/ (a = b /\ b = bytes_of T).
Proof. exact one_place_exec. Qed.
Print Assumptions C64_exec.
(** At the beginning, and at the end. *)
Example C64_case : (do en <- compile_one_pass (s2l "^x(a|b)"); do x <- engine_exec en (s2l "xab"); do y <- engine_exec en (s2l "axab"); Ok (x, y)) = Ok (Some [Some (0, 2); Some (1, 2)], None) /\
  (do en <- compile_one_pass (s2l "()$"); do x <- engine_exec en (s2l "xa"); Ok x) = Ok (Some [Some (2, 2); Some (2, 2)]).
Proof. split; vm_compute; reflexivity. Qed.
(** A pattern without anchors is never given the one-pass engine, by any macro. *)
Theorem C64_free : forall s e en, compiled s en -> Forall scalar s -> G_ere e s -> anchor_free e = true -> ~ one_pass_based en.
Proof. exact free_engine. Qed.
Print Assumptions C64_free.
(** Nor one that can match, if only nothing, after the beginning and before the end of a text. *)
Theorem C64_inside : forall s e en T i j L, compiled s en -> Forall scalar s -> G_ere e s -> Forall scalar T -> matches T e i j L -> 0 < i < List.length T -> ~ one_pass_based en.
Proof. exact inside_not_one_pass. Qed.
Print Assumptions C64_inside.
Example C64_free_case : compile_one_pass (s2l "abc") = NoCompile /\ with_ere (s2l "abc") (fun e => do en <- compile_regex (s2l "abc"); Ok (anchor_free e, match en with EFixed (EOnePass _) _ | EOnePass _ => true | _ => false end)) = Ok (true, false).
Proof. split; vm_compute; reflexivity. Qed.
