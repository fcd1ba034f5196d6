(** Sequences of repetitions of pieces of fixed width; the patterns of the README (C76). *)
From Coq Require Import String.
From Verif Require Import PAll PStrip PCount PLiteral PTemplate PLoose PReadme PPrioOne SpecTemplate SpecGroups SpecReadme.
From Coq Require Import ZifyBool ZifyNat ZifyN.
Open Scope nat_scope.
Open Scope list_scope.

(** C76.  The pieces have a fixed width, the number of their repetitions is open.  However the pattern is compiled, [exec] finds the first place where
    the text fits for some numbers, and the groups stand where those numbers put them. *)
Theorem C76_counts : forall a z b s en T, compiled s en -> Forall scalar s -> G_ere (template a z b) s -> loose_branch b = true -> Forall scalar T ->
  exists o, engine_exec en T = Ok o /\ engine_test en T = Ok (match o with Some _ => true | None => false end) /\
    match o with
    | Some cs => exists ks b' U R, counted_as b ks b' /\ fits_at a z b' T U R /\
        (forall ks' b'' U' R', counted_as b ks' b'' -> fits_at a z b'' T U' R' -> List.length U <= List.length U') /\
        List.length cs <= S (groups_branch b) /\ forall k, nth k cs None = nth k (in_bytes T (moved (List.length U) (all_places b'))) None
    | None => forall ks b' U R, counted_as b ks b' -> ~ fits_at a z b' T U R
    end.
Proof.
  intros a z b s en T H Hs Hg Hb HT. destruct (loose_finds a z b s en T H Hs Hg Hb HT) as (o & E1 & E2 & Ho). exists o. split; [assumption|]. split; [assumption|]. destruct o as [cs|]; [|assumption].
  destruct Ho as (ks & b' & U & R & H1 & H2 & H3 & H4 & _ & H5). exists ks, b', U, R. auto.
Qed.
Print Assumptions C76_counts.
(** The numbers are the preferred ones: of the numbers that fit at that place, the first number in which two choices differ is the greater one, or the
    lesser one when the quantifier is followed by a question mark.  The one-pass engine must have no state with two ways of accepting. *)
Theorem C76_preferred : forall a z b s en T cs, compiled s en -> Forall scalar s -> G_ere (template a z b) s -> loose_branch b = true -> wide_branch b = true ->
  match en with EOnePass op => one_accept op = true | _ => True end -> Forall scalar T -> engine_exec en T = Ok (Some cs) ->
  exists ks b' U R, counted_as b ks b' /\ fits_at a z b' T U R /\
    (forall ks' b'' U' R', counted_as b ks' b'' -> fits_at a z b'' T U' R' -> List.length U < List.length U' \/ List.length U = List.length U' /\ prefers b ks ks') /\
    (forall k, k < List.length cs -> nth k cs None = nth k (in_bytes T (moved (List.length U) (all_places b'))) None).
Proof. intros a z b s en T cs H Hs Hg Hb Hw Ho HT E. destruct (loose_preferred a z b s en T cs H Hs Hg Hb Hw Ho HT E) as (ks & b' & U & R & H1 & H2 & H3 & H4 & _). exists ks, b', U, R. auto. Qed.
Print Assumptions C76_preferred.
(** The telephone numbers of the README: which texts match, and the groups, for all texts and all macros. *)
Theorem C76_phone : forall en T, compiled phone en -> Forall scalar T ->
  (forall P, phone_number P T -> engine_test en T = Ok true /\ engine_exec en T = Ok (Some [Some (0, List.length T); if List.length P =? 0 then None else Some (0, 3)])) /\
  ((forall P, ~ phone_number P T) -> engine_test en T = Ok false /\ engine_exec en T = Ok None).
Proof. exact phone_answer. Qed.
Print Assumptions C76_phone.
(** The colours of the README. *)
Theorem C76_colour : forall en T, compiled colour en -> Forall scalar T ->
  (forall P A, colour_code P A T -> engine_test en T = Ok true /\
     engine_exec en T = Ok (Some (let p := List.length P in [Some (0, List.length T); Some (p, p + 2); Some (p + 2, p + 4); Some (p + 4, p + 6); if List.length A =? 0 then None else Some (p + 6, p + 8)]))) /\
  ((forall P A, ~ colour_code P A T) -> engine_test en T = Ok false /\ engine_exec en T = Ok None).
Proof. exact colour_answer. Qed.
Print Assumptions C76_colour.
(** The macros that take these patterns; some telephone numbers and colours (README, lines 14 to 40) and texts that are none. *)
Definition taken (s : list N) : list bool := map (fun r : res engine => match r with Ok _ => true | _ => false end) [compile_regex s; compile_dfa s; compile_flat s; compile_flat_u8 s; compile_one_pass s; compile_fixed s].
Example C76_case_taken : taken phone = [true; true; true; true; true; false] /\ taken colour = [true; true; false; true; true; false].
Proof. split; vm_compute; reflexivity. Qed.
Example C76_case_phone : phone_number (s2l "+1 ") (s2l "+1 012-345-6789") /\ phone_number [] (s2l "987-654-3210") /\
  (do en <- compile_regex phone; mapM (engine_exec en) [s2l "+1 012-345-6789"; s2l "987-654-3210"; s2l "+1 12-345-6789"]) = Ok [Some [Some (0, 15); Some (0, 3)]; Some [Some (0, 12); None]; None].
Proof.
  split; [|split; [|vm_compute; reflexivity]].
  - exists (s2l "012"), (s2l "345"), (s2l "6789"). split; [reflexivity|]. split; [now right|]. split; [|split]; (split; [reflexivity|]); cbn; repeat (constructor; [split; discriminate|]); constructor.
  - exists (s2l "987"), (s2l "654"), (s2l "3210"). split; [reflexivity|]. split; [now left|]. split; [|split]; (split; [reflexivity|]); cbn; repeat (constructor; [split; discriminate|]); constructor.
Qed.
Example C76_case_colour : colour_code (s2l "#") [] (s2l "#000000") /\
  (do en <- compile_regex colour; mapM (engine_exec en) [s2l "#000000"; s2l "1F2e3D4c"; s2l "ff"; s2l "1234567"]) =
    Ok [Some [Some (0, 7); Some (1, 3); Some (3, 5); Some (5, 7); None]; Some [Some (0, 8); Some (0, 2); Some (2, 4); Some (4, 6); Some (6, 8)]; None; None].
Proof.
  split; [|vm_compute; reflexivity]. exists (s2l "00"), (s2l "00"), (s2l "00"). split; [reflexivity|]. split; [now right|].
  assert (Z : some_of hex_digit 2 (s2l "00")) by (split; [reflexivity|]; cbn; repeat (constructor; [left; split; discriminate|]); constructor). auto.
Qed.
(** Several numbers fit; the first ones decide. *)
Definition runs : branch := [PQuant (XSub [[PSingle (XAtom (NormalChar 97%N))]]) {| q_type := QStar; q_alt := false |}; PQuant (XAtom (NormalChar 97%N)) {| q_type := QQuestion; q_alt := true |}; PQuant (XSub [[PSingle (XAtom Dot); PSingle (XAtom Dot)]]) {| q_type := QRange 1%N (Some 2%N); q_alt := false |}].
Example C76_case_runs : parse_str (s2l "^(a)*a??(..){1,2}$") = ROk (template true true runs) /\ loose_branch runs = true /\ wide_branch runs = true /\
  counted_as runs [4; 1; 1] [PQuant (XSub [[PSingle (XAtom (NormalChar 97%N))]]) {| q_type := QMultiple 4%N; q_alt := false |}; PQuant (XAtom (NormalChar 97%N)) {| q_type := QMultiple 1%N; q_alt := true |}; PQuant (XSub [[PSingle (XAtom Dot); PSingle (XAtom Dot)]]) {| q_type := QMultiple 1%N; q_alt := false |}] /\
  prefers runs [5; 0; 1] [4; 1; 1] /\ prefers runs [4; 0; 1] [4; 1; 1] /\
  (do en <- compile_regex (s2l "^(a)*a??(..){1,2}$"); engine_exec en (s2l "aaaaabb")) = Ok (Some [Some (0, 7); Some (4, 5); Some (5, 7)]) /\
  match compile_regex (s2l "^(a)*a??(..){1,2}$") with Ok (EOnePass _) => false | Ok _ => true | _ => false end = true.
Proof.
  split; [vm_compute; reflexivity|]. split; [reflexivity|]. split; [reflexivity|]. split; [|split; [|split; [|split; vm_compute; reflexivity]]].
  - unfold runs. apply (ca_quant _ {| q_type := QStar; q_alt := false |} 4); [exact I|]. apply (ca_quant _ {| q_type := QQuestion; q_alt := true |} 1); [cbn; lia|]. apply (ca_quant _ {| q_type := QRange 1%N (Some 2%N); q_alt := false |} 1); [cbn; lia|]. apply ca_nil.
  - cbn. lia.
  - cbn. lia.
Qed.
