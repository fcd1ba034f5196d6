(** Patterns that are two ways to write the same thing down to the captures (C78). *)
From Coq Require Import String.
From Verif Require Import PSame PEquiv PropPriority PLazyAll PRoom PAll PAgree PFree SpecLaws.
From Coq Require Import ZifyBool ZifyNat ZifyN.
Open Scope nat_scope.
Open Scope list_scope.

(** C78.  Patterns that follow from each other by the rules of SpecSame.v have the same matches with the same captures, the same one
    first, ... *)
Theorem C78_order : forall has T d e, decides has -> same_ere d e -> groups d = groups e /\ hd_error (all_matches has T d) = hd_error (all_matches has T e).
Proof. intros has T d e Hh H. split; [now apply (same_order has T Hh)|]. apply choice_hd. now apply same_matches. Qed.
Print Assumptions C78_order.
Theorem C78_matches : forall T d e i j L, same_ere d e -> loops_read d = true -> loops_read e = true -> Forall scalar T -> matches T d i j L <-> matches T e i j L.
Proof.
  assert (Q : forall (x : nat * nat * log) l m, same_choice l m -> In x l -> In x m).
  { intros x l m H Hx. assert (D : {P : nat * nat * log -> bool | forall y, P y = true <-> y = x}).
    { assert (E : forall a b : nat * nat * log, {a = b} + {a <> b}) by (repeat decide equality). exists (fun y => if E y x then true else false). intros y. destruct (E y x); intuition (congruence || discriminate). }
    destruct D as [P HP]. specialize (H P). destruct (find P l) as [y|] eqn:F; [|exfalso; generalize (find_none P l F x Hx); rewrite (proj2 (HP x) eq_refl); discriminate].
    symmetry in H. apply find_some in H as [H1 H2]. apply HP in H2 as ->. assumption. }
  intros T d e i j L H Hd He HT. rewrite <- !(C25_order atom_check T) by (assumption || exact atom_check_iff). assert (S := same_matches atom_check T atom_check_iff d e H).
  split; [now apply Q|]. apply Q. now apply choice_sym.
Qed.
Print Assumptions C78_matches.
(** ... so two engines made from them, by whatever macros, report the same captures, under the conditions of C25. *)
Theorem C78_engines : forall s s' d e en en' T, compiled s en -> compiled s' en' -> Forall scalar s -> Forall scalar s' -> Forall scalar T -> G_ere d s -> G_ere e s' -> same_ere d e ->
  loops_read d = true -> loops_read e = true -> orderly d en = true -> orderly e en' = true ->
  (exists o o', engine_exec en T = Ok o /\ engine_exec en' T = Ok o' /\
    match o, o' with
    | Some cs, Some cs' => forall k x x', nth_error cs k = Some x -> nth_error cs' k = Some x' -> x = x'
    | None, None => True
    | _, _ => False
    end) /\
  (engine_groups en = engine_groups en' -> engine_exec en T = engine_exec en' T).
Proof.
  intros s s' d e en en' T H H' Hs Hs' HT Hg Hg' Q Hl Hl' Ho Ho'.
  rewrite (exec_best s d en T atom_check H Hs HT Hg atom_check_iff Hl Ho), (exec_best s' e en' T atom_check H' Hs' HT Hg' atom_check_iff Hl' Ho').
  rewrite (proj2 (C78_order atom_check T d e atom_check_iff Q)). split; [|now intros ->].
  eexists. eexists. split; [reflexivity|]. split; [reflexivity|]. destruct (hd_error _) as [[[i j] L]|]; [|exact I]. apply same_word_agreed.
Qed.
Print Assumptions C78_engines.
(** Without anchors, any two engines will do. *)
Theorem C78_free : forall s s' d e en en' T, compiled s en -> compiled s' en' -> Forall scalar s -> Forall scalar s' -> Forall scalar T -> G_ere d s -> G_ere e s' -> same_ere d e ->
  loops_read d = true -> loops_read e = true -> anchor_free d = true -> anchor_free e = true ->
  (exists o o', engine_exec en T = Ok o /\ engine_exec en' T = Ok o' /\
    match o, o' with
    | Some cs, Some cs' => forall k x x', nth_error cs k = Some x -> nth_error cs' k = Some x' -> x = x'
    | None, None => True
    | _, _ => False
    end) /\
  (engine_groups en = engine_groups en' -> engine_exec en T = engine_exec en' T).
Proof. intros s s' d e en en' T H H' Hs Hs' HT Hg Hg' Q Hl Hl' Hf Hf'. apply (C78_engines s s' d e); auto; [now apply (free_orderly s)|now apply (free_orderly s')]. Qed.
Print Assumptions C78_free.
(** [a{2,}(b|cb)??(d+)] and [aa*a(b|cb|b){0,1}?(d*d)]. *)
Definition p1 : string := "a{2,}(b|cb)??(d+)".
Definition p2 : string := "aa*a(b|cb|b){0,1}?(d*d)".
Example C78_case : exists d e, G_ere d (s2l p1) /\ G_ere e (s2l p2) /\ same_ere d e /\ loops_read d = true /\ loops_read e = true /\ anchor_free d = true /\ anchor_free e = true.
Proof.
  set (A := XAtom (NormalChar 97%N)). set (b := [PSingle (XAtom (NormalChar 98%N))]). set (cb := PSingle (XAtom (NormalChar 99%N)) :: b). set (D := XAtom (NormalChar 100%N)).
  set (Q := fun t l => {| q_type := t; q_alt := l |}).
  exists [[PQuant A (Q (QRange 2 None) false); PQuant (XSub [b; cb]) (Q QQuestion true); PSingle (XSub [[PQuant D (Q QPlus false)]])]],
    [[PSingle A; PQuant A (Q QStar false); PSingle A; PQuant (XSub [b; cb; b]) (Q (QRange 0 (Some 1%N)) true); PSingle (XSub [[PQuant D (Q QStar false); PSingle D]])]].
  split; [apply parse_iff; vm_compute; reflexivity|]. split; [apply parse_iff; vm_compute; reflexivity|]. split; [|repeat (split; [reflexivity|]); reflexivity].
  apply se_cons; [|apply se_refl]. set (R := Q (QMultiple 1) false).
  assert (O : one_count R 1) by (intros n; unfold allows, R, Q; cbn [q_type quant_allows]; lia).
  apply sbr_trans with (PQuant A R :: PQuant A R :: PQuant A (Q QStar false) :: [PQuant (XSub [b; cb; b]) (Q (QRange 0 (Some 1%N)) true); PSingle (XSub [[PQuant D (Q QStar false); PSingle D]])]).
  - apply sbr_trans with (PQuant A R :: PQuant A (Q QPlus false) :: [PQuant (XSub [b; cb; b]) (Q (QRange 0 (Some 1%N)) true); PSingle (XSub [[PQuant D (Q QStar false); PSingle D]])]).
    + eapply sbr_trans; [apply sbr_unroll with (r := R) (t := Q QPlus false) (k := 1); [exact O|now left|]|].
      { intros n. unfold allows, Q. cbn [q_type quant_allows]. split; [intros Hn; exists (n - 1); lia|intros (l & -> & Hl); lia]. }
      apply sbr_cons; [apply sp_refl|]. apply sbr_cons; [apply sp_refl|]. apply sbr_cons; [apply sp_quant; [apply sx_sub|]|apply sbr_cons; [apply sp_single, sx_sub, se_cons; [|apply se_refl]|apply sbr_refl]].
      * apply se_sym. apply (se_again b [cb] []). reflexivity.
      * split; [|now left]. intros n. unfold allows, Q. cbn [q_type quant_allows]. lia.
      * eapply sbr_trans; [apply sbr_unroll with (r := R) (t := Q QStar false) (k := 1); [exact O|now left|]|].
        { intros n. unfold allows, Q. cbn [q_type quant_allows]. split; [intros Hn; exists (n - 1); lia|intros (l & -> & _); lia]. }
        eapply sbr_trans; [apply sbr_swap with (k := 1); exact O|]. apply sbr_cons; [apply sp_refl|]. now apply sbr_once.
    + apply sbr_cons; [apply sp_refl|]. apply sbr_unroll with (k := 1); [exact O|now left|]. intros n. unfold allows, Q. cbn [q_type quant_allows]. split; [intros Hn; exists (n - 1); lia|intros (l & -> & _); lia].
  - eapply sbr_trans; [now apply sbr_once|]. apply sbr_cons; [apply sp_refl|]. eapply sbr_trans; [apply sbr_swap with (k := 1); exact O|]. apply sbr_cons; [apply sp_refl|]. now apply sbr_once.
Qed.
Example C78_case_engines : (do x <- compile_regex (s2l p1); do y <- compile_flat (s2l p2); do r <- engine_exec x (s2l "xaaacbddd"); do r' <- engine_exec y (s2l "xaaacbddd"); Ok (engine_groups x, engine_groups y, r, r')) =
  Ok (3, 3, Some [Some (1, 9); Some (4, 6); Some (6, 9)], Some [Some (1, 9); Some (4, 6); Some (6, 9)]).
Proof. vm_compute. reflexivity. Qed.
(** An optional character as two alternatives, alternatives in another order, one that cannot match left out: [(a??x|y)] and [(y|z{2,1}|x|ax)]. *)
Example C78_case_alternatives : exists d e, G_ere d (s2l "(a??x|y)") /\ G_ere e (s2l "(z{2,1}|x|y|ax|x)") /\ same_ere d e /\
  (do u <- compile_regex (s2l "(a??x|y)"); do v <- compile_flat_u8 (s2l "(z{2,1}|x|y|ax|x)"); do r <- engine_exec u (s2l "bax"); do r' <- engine_exec v (s2l "bax"); Ok (r, r')) = Ok (Some [Some (1, 3); Some (1, 3)], Some [Some (1, 3); Some (1, 3)]).
Proof.
  set (C := fun c => XAtom (NormalChar c)). set (S := fun c => PSingle (C c)). set (Q := fun t l => {| q_type := t; q_alt := l |}).
  exists [[PSingle (XSub [[PQuant (C 97%N) (Q QQuestion true); S 120%N]; [S 121%N]])]], [[PSingle (XSub [[PQuant (C 122%N) (Q (QRange 2 (Some 1%N)) false)]; [S 120%N]; [S 121%N]; [S 97%N; S 120%N]; [S 120%N]])]].
  split; [apply parse_iff; vm_compute; reflexivity|]. split; [apply parse_iff; vm_compute; reflexivity|]. split; [|vm_compute; reflexivity].
  apply se_cons; [|apply se_refl]. apply sbr_cons; [|apply sbr_refl]. apply sp_single, sx_sub. apply se_trans with [[S 120%N]; [S 97%N; S 120%N]; [S 121%N]].
  - apply (se_optional (NormalChar 97%N) (Q QQuestion true) [S 120%N]); [reflexivity|]. intros n. reflexivity.
  - apply se_trans with [[S 120%N]; [S 121%N]; [S 97%N; S 120%N]].
    + apply se_cons; [apply sbr_refl|]. apply se_apart; [reflexivity|reflexivity|]. intros x H1 H2. unfold C in *. cbn in H1, H2. congruence.
    + apply se_sym. eapply se_trans; [apply (se_never [] (C 122%N) (Q (QRange 2 (Some 1%N)) false) []); [reflexivity|]|].
      * intros n. unfold allows, Q. cbn [q_type quant_allows]. lia.
      * apply (se_again [S 120%N] [[S 121%N]; [S 97%N; S 120%N]] []). reflexivity.
Qed.
(** Alternatives in any order, a rule of C58, is not such a rule: [a|ab] and [ab|a]. *)
Theorem C78_order_matters : exists d e en en', eq_ere d e /\ compile_regex (s2l "(a|ab)") = Ok en /\ compile_regex (s2l "(ab|a)") = Ok en' /\ G_ere d (s2l "(a|ab)") /\ G_ere e (s2l "(ab|a)") /\ ~ same_ere d e /\
  engine_exec en (s2l "ab") = Ok (Some [Some (0, 1); Some (0, 1)]) /\ engine_exec en' (s2l "ab") = Ok (Some [Some (0, 2); Some (0, 2)]).
Proof.
  assert (H : (do x <- compile_regex (s2l "(a|ab)"); do y <- compile_regex (s2l "(ab|a)"); do r <- engine_exec x (s2l "ab"); do r' <- engine_exec y (s2l "ab"); Ok (r, r')) = Ok (Some [Some (0, 1); Some (0, 1)], Some [Some (0, 2); Some (0, 2)])) by (vm_compute; reflexivity).
  apply bind_ok in H as (x & H1 & H). apply bind_ok in H as (y & H2 & H). apply bind_ok in H as (r & H3 & H). apply bind_ok in H as (r' & H4 & H). injection H as -> ->.
  set (a := PSingle (XAtom (NormalChar 97%N))). set (b := PSingle (XAtom (NormalChar 98%N))).
  exists [[PSingle (XSub [[a]; [a; b]])]], [[PSingle (XSub [[a; b]; [a]])]], x, y. split; [apply ee_cons; [apply be_cons; [apply pe_single, xe_sub, ee_perm, perm_swap|apply be_refl]|apply ee_refl]|].
  do 2 (split; [assumption|]). split; [apply parse_iff; vm_compute; reflexivity|]. split; [apply parse_iff; vm_compute; reflexivity|]. split; [|auto].
  intros Q. destruct (C78_order atom_check (s2l "ab") _ _ atom_check_iff Q) as [_ E]. revert E. vm_compute. discriminate.
Qed.
Print Assumptions C78_order_matters.
