(** Patterns of a fixed width: dates, numbers of a given length, colours (C75). *)
From Coq Require Import String.
From Verif Require Import PAll PStrip PCount PLiteral PTemplate SpecTemplate SpecGroups.
From Coq Require Import ZifyBool ZifyNat ZifyN.
Open Scope nat_scope.
Open Scope list_scope.

(** C75.  A pattern of characters, dots, bracket expressions, groups and exact numbers of repetitions, with or without [^] in front and [$] behind:
    however it is compiled, [exec] reports the first place in the text (or the beginning, the end, the whole of it) where a string of that shape stands,
    and every group at its own distance from there. *)
Theorem C75_template : forall a z b s en T, compiled s en -> Forall scalar s -> G_ere (template a z b) s -> steady_branch b = true -> used_branch b -> Forall scalar T ->
  exists o, engine_exec en T = Ok o /\ engine_test en T = Ok (match o with Some _ => true | None => false end) /\
    match o with
    | Some cs => exists U R, fits_at a z b T U R /\ (forall U' R', fits_at a z b T U' R' -> List.length U <= List.length U') /\ cs = in_bytes T (moved (List.length U) (all_places b))
    | None => forall U R, ~ fits_at a z b T U R
    end.
Proof.
  intros a z b s en T H Hs Hg Hb Hu HT. destruct (template_finds a z b s en T H Hs Hg Hb HT) as (o & E1 & E2 & Ho). exists o. split; [assumption|]. split; [assumption|]. destruct o as [cs|]; [|assumption].
  destruct Ho as (U & R & H1 & H2 & H3 & H4). exists U, R. split; [assumption|]. split; [assumption|]. now apply used_full.
Qed.
Print Assumptions C75_template.
(** Also when some group is repeated zero times; then the last groups may be missing from the list, which is as if they were there and had not taken part. *)
Theorem C75_unused : forall a z b s en T, compiled s en -> Forall scalar s -> G_ere (template a z b) s -> steady_branch b = true -> Forall scalar T ->
  exists o, engine_exec en T = Ok o /\ engine_test en T = Ok (match o with Some _ => true | None => false end) /\
    match o with
    | Some cs => exists U R, fits_at a z b T U R /\ (forall U' R', fits_at a z b T U' R' -> List.length U <= List.length U') /\
        List.length cs <= S (groups_branch b) /\ forall k, nth k cs None = nth k (in_bytes T (moved (List.length U) (all_places b))) None
    | None => forall U R, ~ fits_at a z b T U R
    end.
Proof. exact template_finds. Qed.
Print Assumptions C75_unused.
(** Between both anchors the test is whether the text has the shape. *)
Theorem C75_whole : forall b s en T, compiled s en -> Forall scalar s -> G_ere (template true true b) s -> steady_branch b = true -> Forall scalar T ->
  exists x, engine_test en T = Ok x /\ (x = true <-> shaped b T).
Proof.
  intros b s en T H Hs Hg Hb HT. destruct (template_finds true true b s en T H Hs Hg Hb HT) as (o & _ & E2 & Ho). rewrite E2. eexists. split; [reflexivity|]. destruct o as [cs|].
  - split; [intros _|reflexivity]. destruct Ho as (U & R & ((V & E & HU & HV) & HR) & _). rewrite (HU eq_refl), (HV eq_refl), app_nil_r in E. cbn in E. now subst R.
  - split; [discriminate|]. intros HR. exfalso. apply (Ho [] T). split; [|assumption]. exists []. rewrite app_nil_r. auto.
Qed.
Print Assumptions C75_whole.
(** The macros compile such a pattern when there is a string of that shape; the default one also asks, after [^], that it is not empty. *)
Theorem C75_compiles : forall a z b s R, Forall scalar s -> G_ere (template a z b) s -> steady_branch b = true -> Forall scalar R -> shaped b R ->
  (exists en, compile_flat_u8 s = Ok en) /\
  ((forall x, In x (atoms_branch b) -> named_well x) -> (exists en, compile_flat s = Ok en) /\ (a = false \/ 0 < width_branch b -> exists en, compile_regex s = Ok en)) /\
  (a = true -> z = true -> 0 < width_branch b -> (forall x, In x (atoms_branch b) -> ascii_atom x) -> exists en, compile_regex s = Ok en).
Proof. exact template_compiles. Qed.
Print Assumptions C75_compiles.
(** Between both anchors and with ASCII characters only, the default macro takes the engine with fixed offsets. *)
Theorem C75_fixed : forall b s en, compile_regex s = Ok en -> Forall scalar s -> G_ere (template true true b) s -> steady_branch b = true -> (forall x, In x (atoms_branch b) -> ascii_atom x) ->
  (exists en' offs, en = EFixed en' offs) /\ compile_fixed s = Ok en.
Proof. exact template_chosen. Qed.
Print Assumptions C75_fixed.
(** A date; the groups and their bytes; a text with something before it. *)
Definition digits (n : N) : part := PQuant (XAtom (MatchingList [Class Digit])) {| q_type := QMultiple n; q_alt := false |}.
Definition date : branch := [PSingle (XSub [[digits 4]]); PSingle (XAtom (NormalChar 45%N)); PSingle (XSub [[digits 2]]); PSingle (XAtom (NormalChar 45%N)); PSingle (XSub [[digits 2]])].
Example C75_case : parse_str (s2l "^([[:digit:]]{4})-([[:digit:]]{2})-([[:digit:]]{2})$") = ROk (template true true date) /\ steady_branch date = true /\ width_branch date = 10 /\
  all_places date = [Some (0, 10); Some (0, 4); Some (5, 7); Some (8, 10)] /\
  (do en <- compile_regex (s2l "^([[:digit:]]{4})-([[:digit:]]{2})-([[:digit:]]{2})$"); mapM (engine_exec en) [s2l "2024-02-30"; s2l "2024-2-30"]) = Ok [Some [Some (0, 10); Some (0, 4); Some (5, 7); Some (8, 10)]; None] /\
  (do en <- compile_regex (s2l "([[:digit:]]{4})-([[:digit:]]{2})-([[:digit:]]{2})"); engine_exec en ([0x20AC%N] ++ s2l "2024-02-30Z")) = Ok (Some [Some (3, 13); Some (3, 7); Some (8, 10); Some (11, 13)]).
Proof. split; [|split; [|split; [|split; [|split]]]]; vm_compute; reflexivity. Qed.
Example C75_case_shape : used_branch date /\ (forall x, In x (atoms_branch date) -> ascii_atom x) /\ shaped date (s2l "2024-02-30").
Proof.
  assert (Q : forall n : N, (1 <= n)%N -> exists m, 1 <= m /\ quant_allows (QMultiple n) m) by (intros n Hn; exists (N.to_nat n); cbn; lia).
  split; [|split].
  - cbn. repeat (split || exact I); apply Q; discriminate.
  - intros x Hx. cbn in Hx. repeat destruct Hx as [<-|Hx]; try destruct Hx; cbn; repeat constructor.
  - exists (repeat (MatchingList [Class Digit]) 4 ++ [NormalChar 45%N] ++ repeat (MatchingList [Class Digit]) 2 ++ [NormalChar 45%N] ++ repeat (MatchingList [Class Digit]) 2). split; [left; reflexivity|].
    cbn. repeat (constructor; [first [reflexivity|exists (Class Digit); split; [now left|split; discriminate]]|]). constructor.
Qed.
(** Alternatives of one width; a group that is repeated; one that is not used at all. *)
Example C75_case_more : with_ere (s2l "^(ab|cd)(.(x)){3}$") (fun e => match e with [PStart :: b] => let b := removelast b in Ok (steady_branch b, all_places b, List.length (shapes_branch b)) | _ => Panic end) =
    Ok (true, [Some (0, 8); Some (0, 2); Some (6, 8); Some (7, 8)], 2) /\
  (do en <- compile_regex (s2l "^(ab|cd)(.(x)){3}$"); mapM (engine_exec en) [s2l "cd1x" ++ [0x20AC%N] ++ s2l "x3x"; s2l "cd1x2x3y"]) = Ok [Some [Some (0, 10); Some (0, 2); Some (8, 10); Some (9, 10)]; None] /\
  with_ere (s2l "a(b){0}c") (fun e => match e with [b] => Ok (steady_branch b, all_places b) | _ => Panic end) = Ok (true, [Some (0, 2); None]) /\
  (do en <- compile_regex (s2l "a(b){0}c"); engine_exec en (s2l "xac")) = Ok (Some [Some (1, 3)]).
Proof. split; [|split; [|split]]; vm_compute; reflexivity. Qed.
(** Not of this kind: alternatives of different widths, a group in one of several alternatives, [a?]. *)
Example C75_case_not : map (fun p => with_ere (s2l p) (fun e => match e with [b] => Ok (steady_branch b) | _ => Panic end)) ["(a|bc)"; "(a|(b))"; "a?"; "a{1,2}"; "^a"]%string = repeat (Ok false) 5.
Proof. vm_compute. reflexivity. Qed.
