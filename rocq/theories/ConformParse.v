(** The unit tests of [parse_tree.rs] (851-1105) and the automata written by hand in those of [working_nfa.rs] and
    [working_u8_nfa.rs], replayed on the model.  As in [Conform.v] these check the translation. *)
From Coq Require Import String.
From Verif Require Import Pick Display.
Open Scope N_scope.
Open Scope list_scope.

(** [reconstruction], 857-888: [ERE::take] uses up the text, and [Display] gives it back. *)
Definition reconstructs (s : string) : bool :=
  match ere_take (parse_fuel (s2l s)) (s2l s) with POk [] e => list_eqb N.eqb (show_ere e) (s2l s) | _ => false end.
Example reconstruction : forallb reconstructs
  ["asdf"; "as+df123$"; "asd?f*123"; "^asdf123.*"; "a[|]"; "[^]a-z1-4A-X-]asdf"; "cd[X-]er"; "my word is [[:alnum:]_]"; "my word is [[:lower:][:digit:]_]";
   "a|b"; "a|b|c"; "a(a(b|c)|d)|(g|f)b"; "(a|b)|(c|d){3}"; "a[y-z]{1,3}"; "a{3,}"; "a(efg){1,}"]%string = true.
Proof. vm_compute. reflexivity. Qed.
(** [parse_quantifiers], 890-922; [into] is [alternative_matching] false, 254-259 *)
Definition plainly (q : qtype) : quant := {| q_type := q; q_alt := false |}.
Example parse_quantifiers : map (fun s => quant_take (s2l s)) [""; "+asdf"; "*"; "e?"; "{"; "{}"; "{1}"; "{9}ee"; "{10,}ee"; "{0,11}ef"; "{0,e11}ef"; "{0;11}ef"]%string =
  [None; Some (s2l "asdf", plainly QPlus); Some ([], plainly QStar); None; None; None; Some ([], plainly (QMultiple 1)); Some (s2l "ee", plainly (QMultiple 9));
   Some (s2l "ee", plainly (QRange 10 None)); Some (s2l "ef", plainly (QRange 0 (Some 11))); None; None].
Proof. vm_compute. reflexivity. Qed.
(** [parse_atom_simple], 924-939 *)
Example parse_atom_simple : map (fun s => atom_take (s2l s)) ["a"; "abcd"; "\\"; "\[asdf\]"; "\."; " "; "\"; "."; ".."]%string =
  [POk [] (NormalChar (ch "a")); POk (s2l "bcd") (NormalChar (ch "a")); POk [] (NormalChar (ch "\")); POk (s2l "asdf\]") (NormalChar (ch "[")); POk [] (NormalChar (ch "."));
   POk [] (NormalChar (ch " ")); PErr (InvalidAtom (ch "\")); POk [] Dot; POk (s2l ".") Dot].
Proof. vm_compute. reflexivity. Qed.
(** [parse_atom_brackets], 941-1018 *)
Definition one (s : string) : term := match s2l s with c :: _ => Single c | [] => Single 0 end.
Definition span_of (a b : string) : term := match s2l a, s2l b with c :: _, d :: _ => Range c d | _, _ => Single 0 end.
Example parse_atom_brackets : map (fun s => atom_take (s2l s)) ["[ab]"; "[]ab]"; "[]ab-]"; "[]a-y]"; "[]+--]"; "[^]a-y]"; "[^]+--]"]%string =
  [POk [] (MatchingList [one "a"; one "b"]); POk [] (MatchingList [one "]"; one "a"; one "b"]); POk [] (MatchingList [one "]"; one "a"; one "b"; one "-"]);
   POk [] (MatchingList [one "]"; span_of "a" "y"]); POk [] (MatchingList [one "]"; span_of "+" "-"]); POk [] (NonmatchingList [one "]"; span_of "a" "y"]);
   POk [] (NonmatchingList [one "]"; span_of "+" "-"])].
Proof. vm_compute. reflexivity. Qed.
(** [parse_atom_err], 1020-1027 *)
Example parse_atom_err : map (fun s => atom_take (s2l s)) [")"; "\"; "\a"]%string = [PErr (InvalidAtom (ch ")")); PErr (InvalidAtom (ch "\")); PErr (InvalidEscapedChar (ch "a"))].
Proof. vm_compute. reflexivity. Qed.
(** [atom_to_ranges_normal_char], [atom_to_ranges_matching_list], [atom_to_ranges_nonmatching_list], 1029-1075 *)
Definition ranges_of (s : string) : option (list range) := match atom_take (s2l s) with POk _ a => Some (to_ranges a) | _ => None end.
Example atom_to_ranges : map ranges_of ["a"; "[a-z]"; "[0-45-9]"; "[5-90-4]"; "[0-46-89]"; "[96-80-4]"; "[^b-y]"; "[^1-45-8]"; "[^5-81-4]"; "[^1-486-7]"; "[^86-71-4]"]%string =
  [Some [(97, 97)]; Some [(97, 122)]; Some [(48, 57)]; Some [(48, 57)]; Some [(48, 52); (54, 57)]; Some [(48, 52); (54, 57)];
   Some [(0, 97); (122, 1114111)]; Some [(0, 48); (57, 1114111)]; Some [(0, 48); (57, 1114111)]; Some [(0, 48); (53, 53); (57, 1114111)]; Some [(0, 48); (53, 53); (57, 1114111)]].
Proof. vm_compute. reflexivity. Qed.
(** [atom_eq], 1077-1105 *)
Definition same_atom (s t : list N) : option bool := match atom_take s, atom_take t with POk _ a, POk _ b => Some (atom_eqb a b) | _, _ => None end.
Example atom_eq : map (fun p => same_atom (fst p) (snd p)) [(s2l "[a-z]", s2l "[a-kl-z]"); (s2l "[a-z]", s2l "[l-za-k]"); (s2l "a", s2l "[a]");
  (s2l "[1-8]", s2l "[^" ++ [0] ++ s2l "-09-" ++ [0x10ffff] ++ s2l "]"); (s2l "[[:upper:]]", s2l "[A-Z]"); (s2l "[a-z]", s2l "[A-Z]")] = [Some true; Some true; Some true; Some true; Some true; Some false].
Proof. vm_compute. reflexivity. Qed.
(** [abbc_raw], working_nfa.rs:1008-1031 and working_u8_nfa.rs:998-1020 *)
Definition abbc {A} (f : N -> A) : nfa A :=
  [mkState [(1%nat, f (ch "a"))] []; mkState [(2%nat, f (ch "b"))] []; mkState [(3%nat, f (ch "c"))] [(1%nat, ENone)]; mkState [] []].
Definition abbc_good : list (list N) := map s2l ["abc"; "abbc"; "abbbc"; "abbbbc"]%string.
Definition abbc_bad : list (list N) := map s2l ["ac"; "abcc"; "bac"; "acb"]%string.
Example abbc_raw : (map (working_test (abbc NormalChar)) abbc_good, map (working_test (abbc NormalChar)) abbc_bad) = (repeat (Ok true) 4, repeat (Ok false) 4).
Proof. vm_compute. reflexivity. Qed.
Example abbc_raw_u8 : (map (u8_test (abbc (fun c => (c, c)))) abbc_good, map (u8_test (abbc (fun c => (c, c)))) abbc_bad) = (repeat (Ok true) 4, repeat (Ok false) 4).
Proof. vm_compute. reflexivity. Qed.
(** [phone_number], working_u8_dfa.rs:838-847: [from_nfa(&nfa, 100).unwrap()], 447-450 *)
Example phone_number_dfa : match parse_str (s2l "^(\+1 )?[0-9]{3}-[0-9]{3}-[0-9]{4}$") with
  | ROk e => do n <- working_new (tree_of e); do m <- u8_new n; do t <- tdfa_from_nfa m 100; match t with Some t => do d <- dfa_from_tagged t; Ok true | None => Ok false end
  | _ => Panic end = Ok true.
Proof. vm_compute. reflexivity. Qed.
(** The documentation tests at parse_tree.rs:359-370 and 492-499; [from_str] (395-403) wants the whole string *)
Definition atom_of (s : string) : option atom := match atom_take (s2l s) with POk [] a => Some a | _ => None end.
Example atom_doc : match atom_of "[abcd]", atom_of "[a-d]", atom_of "[a-z]", atom_of "[[:lower:]]" with Some a, Some b, Some c, Some d => (atom_eqb a b, atom_eqb c d) | _, _, _, _ => (false, false) end = (true, true).
Proof. vm_compute. reflexivity. Qed.
Example to_ranges_doc : option_map to_ranges (atom_of "[a-z2-9A-X0-1YZ[:xdigit:]]") = Some [(48, 57); (65, 90); (97, 122)].
Proof. vm_compute. reflexivity. Qed.
