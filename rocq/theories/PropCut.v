(** Cutting off the text around a match (C63). *)
From Coq Require Import String.
From Verif Require Import SpecLaws SpecCut PCut PPrioOne PAll PStrip.
From Coq Require Import ZifyBool ZifyNat ZifyN.
Open Scope nat_scope.
Open Scope list_scope.

(** C63.  Cut text off before and after what [exec] found in it: [exec] finds the same in what is left, capture by capture, only that
    the positions are counted from where the cut was made. *)
Theorem C63_cut : forall s e en U M V cs a b, compiled s en -> Forall scalar s -> Forall scalar (U ++ M ++ V) -> G_ere e s -> anchor_free e = true -> loops_read e = true ->
  engine_exec en (U ++ M ++ V) = Ok (Some cs) -> nth_error cs 0 = Some (Some (a, b)) -> bytes_of U <= a -> b <= bytes_of (U ++ M) ->
  exists cs', engine_exec en M = Ok (Some cs') /\ cs = moved (bytes_of U) cs'.
Proof. exact exec_cut. Qed.
Print Assumptions C63_cut.
(** Whatever the engine and the repetitions, it finds a match there, and one that starts at the same place. *)
Theorem C63_start : forall s e en U M V cs a b, compiled s en -> Forall scalar s -> Forall scalar (U ++ M ++ V) -> G_ere e s -> anchor_free e = true ->
  engine_exec en (U ++ M ++ V) = Ok (Some cs) -> nth_error cs 0 = Some (Some (a, b)) -> bytes_of U <= a -> b <= bytes_of (U ++ M) ->
  engine_test en M = Ok true /\ exists cs' a' b', engine_exec en M = Ok (Some cs') /\ nth_error cs' 0 = Some (Some (a', b')) /\ a = bytes_of U + a'.
Proof. exact start_cut. Qed.
Print Assumptions C63_start.
(** An é and what follows it, in a text cut at the front and then on both sides. *)
Definition cut_text : list N := s2l "xya" ++ [233%N] ++ s2l "bbz".
Definition cut_pattern : list N := s2l "(c|" ++ [233%N] ++ s2l ")(b*)".
Example C63_case : with_ere cut_pattern (fun e => do en <- compile_regex cut_pattern; do x <- engine_exec en cut_text; do y <- engine_exec en (s2l "a" ++ [233%N] ++ s2l "bbz");
    do z <- engine_exec en ([233%N] ++ s2l "bb"); Ok (anchor_free e, loops_read e, x, y, z)) =
  Ok (true, true, Some [Some (3, 7); Some (3, 5); Some (5, 7)], Some [Some (1, 5); Some (1, 3); Some (3, 5)], Some [Some (0, 4); Some (0, 2); Some (2, 4)]) /\
  bytes_of (s2l "xya") = 3.
Proof. split; vm_compute; reflexivity. Qed.
(** With anchors it does not hold: where the text ends matters to [b$|(b)]. *)
Theorem C63_anchor_refuted : exists s e en U M V cs a b cs', compile_regex s = Ok en /\ Forall scalar s /\ Forall scalar (U ++ M ++ V) /\ G_ere e s /\ loops_read e = true /\
  engine_exec en (U ++ M ++ V) = Ok (Some cs) /\ nth_error cs 0 = Some (Some (a, b)) /\ bytes_of U <= a /\ b <= bytes_of (U ++ M) /\ engine_exec en M = Ok (Some cs') /\ cs <> moved (bytes_of U) cs'.
Proof.
  assert (H : with_ere (s2l "b$|(b)") (fun e => do en <- compile_regex (s2l "b$|(b)"); do x <- engine_exec en (s2l "bx"); do y <- engine_exec en (s2l "b"); Ok (loops_read e, x, y)) =
    Ok (true, Some [Some (0, 1); Some (0, 1)], Some [Some (0, 1); None])) by (vm_compute; reflexivity).
  apply with_ere_ok in H as (e & He & H). apply bind_ok in H as (en & H1 & H). apply bind_ok in H as (x & H2 & H). apply bind_ok in H as (y & H3 & H). injection H as H4 -> ->. apply parse_iff in He.
  exists (s2l "b$|(b)"), e, en, [], (s2l "b"), (s2l "x"), [Some (0, 1); Some (0, 1)], 0, 1, [Some (0, 1); None]. split; [assumption|]. split; [repeat constructor|]. split; [repeat constructor|]. split; [assumption|]. split; [assumption|]. split; [exact H2|].
  split; [reflexivity|]. split; [apply Nat.le_refl|]. split; [apply Nat.le_refl|]. split; [exact H3|]. discriminate.
Qed.
Print Assumptions C63_anchor_refuted.
