(** The tests of the repository, replayed on the model.  These are no theorems about the code: they check the
    translation, and were written from the expectations in [tests/pure_regex.rs], [tests/struct_attr_regex.rs] and the unit
    tests of the automata.  Loops over random or all texts are replaced by some of the texts, as said at each.
    The results of the four largest are computed when this file is compiled and only compared with [true], as the
    independent checker takes long to evaluate them again. *)
From Coq Require Import String.
From Verif Require Import Pick.
Open Scope nat_scope.
Open Scope list_scope.

(** The bytes [i .. j) of the text. *)
Definition piece (T : list N) (sp : span) : list N := firstn (snd sp - fst sp) (skipn (fst sp) (utf8 T)).
Definition opt_text_eqb (T : list N) (a : option span) (b : option (list N)) : bool :=
  match a, b with Some sp, Some t => list_eqb N.eqb (piece T sp) (utf8 t) | None, None => true | _, _ => false end.
(** [assert_match!], pure_regex.rs:10-18 *)
Definition is_match (en : engine) (T : list N) (cs : list (option (list N))) : bool :=
  match engine_exec en T, engine_test en T with
  | Ok (Some r), Ok true => (List.length r =? List.length cs) && forallb (fun p => opt_text_eqb T (fst p) (snd p)) (combine r cs)
  | _, _ => false
  end.
(** [assert_nomatch!], pure_regex.rs:20-31 *)
Definition no_match (en : engine) (T : list N) : bool :=
  match engine_exec en T, engine_test en T with Ok None, Ok false => true | _, _ => false end.
Definition conforms (ms : list (list N -> res engine)) (p : list N) (groups : nat) (good : list (list N * list (option (list N)))) (bad : list (list N)) : bool :=
  forallb (fun m : list N -> res engine => match m p with
    | Ok en => (engine_groups en =? groups) && forallb (fun x => is_match en (fst x) (snd x)) good && forallb (no_match en) bad
    | _ => false
    end) ms.
(** The [test] functions of the two automata. *)
Definition automata (p : list N) (good bad : list (list N)) : bool :=
  match parse_str p with
  | ROk e =>
      match working_new (tree_of e) with
      | Ok n =>
          match u8_new n with
          | Ok m =>
              let is (b : bool) T := match working_test n T, u8_test m (utf8 T) with Ok x, Ok y => Bool.eqb x b && Bool.eqb y b | _, _ => false end in
              forallb (is true) good && forallb (is false) bad
          | _ => false
          end
      | _ => false
      end
  | _ => false
  end.

(** pure_regex.rs:33-63 *)
Example phone_number : conforms [compile_dfa; compile_flat; compile_flat_u8; compile_one_pass] (s2l "^(\+1 )?[0-9]{3}-[0-9]{3}-[0-9]{4}$") 2
   [((s2l "012-345-6789"), [Some (s2l "012-345-6789"); None]);
    ((s2l "987-654-3210"), [Some (s2l "987-654-3210"); None]);
    ((s2l "+1 555-555-5555"), [Some (s2l "+1 555-555-5555"); Some (s2l "+1 ")]);
    ((s2l "123-555-9876"), [Some (s2l "123-555-9876"); None])]
   [(s2l "abcd"); (s2l "0123456789"); (s2l "012--345-6789"); (s2l "(555) 555-5555"); (s2l "1 555-555-5555")] = true.
Proof. vm_compute. reflexivity. Qed.

(** pure_regex.rs:66-81, all 256 texts *)
Example byte_value_exec : conforms [compile_dfa; compile_flat; compile_flat_u8] (s2l "^(25[0-5]|2[0-4][0-9]|1[0-9]{2}|[1-9][0-9]|[0-9])$") 2
   [((s2l "0"), [Some (s2l "0"); Some (s2l "0")]);
    ((s2l "1"), [Some (s2l "1"); Some (s2l "1")]);
    ((s2l "2"), [Some (s2l "2"); Some (s2l "2")]);
    ((s2l "3"), [Some (s2l "3"); Some (s2l "3")]);
    ((s2l "4"), [Some (s2l "4"); Some (s2l "4")]);
    ((s2l "5"), [Some (s2l "5"); Some (s2l "5")]);
    ((s2l "6"), [Some (s2l "6"); Some (s2l "6")]);
    ((s2l "7"), [Some (s2l "7"); Some (s2l "7")]);
    ((s2l "8"), [Some (s2l "8"); Some (s2l "8")]);
    ((s2l "9"), [Some (s2l "9"); Some (s2l "9")]);
    ((s2l "10"), [Some (s2l "10"); Some (s2l "10")]);
    ((s2l "11"), [Some (s2l "11"); Some (s2l "11")]);
    ((s2l "12"), [Some (s2l "12"); Some (s2l "12")]);
    ((s2l "13"), [Some (s2l "13"); Some (s2l "13")]);
    ((s2l "14"), [Some (s2l "14"); Some (s2l "14")]);
    ((s2l "15"), [Some (s2l "15"); Some (s2l "15")]);
    ((s2l "16"), [Some (s2l "16"); Some (s2l "16")]);
    ((s2l "17"), [Some (s2l "17"); Some (s2l "17")]);
    ((s2l "18"), [Some (s2l "18"); Some (s2l "18")]);
    ((s2l "19"), [Some (s2l "19"); Some (s2l "19")]);
    ((s2l "20"), [Some (s2l "20"); Some (s2l "20")]);
    ((s2l "21"), [Some (s2l "21"); Some (s2l "21")]);
    ((s2l "22"), [Some (s2l "22"); Some (s2l "22")]);
    ((s2l "23"), [Some (s2l "23"); Some (s2l "23")]);
    ((s2l "24"), [Some (s2l "24"); Some (s2l "24")]);
    ((s2l "25"), [Some (s2l "25"); Some (s2l "25")]);
    ((s2l "26"), [Some (s2l "26"); Some (s2l "26")]);
    ((s2l "27"), [Some (s2l "27"); Some (s2l "27")]);
    ((s2l "28"), [Some (s2l "28"); Some (s2l "28")]);
    ((s2l "29"), [Some (s2l "29"); Some (s2l "29")]);
    ((s2l "30"), [Some (s2l "30"); Some (s2l "30")]);
    ((s2l "31"), [Some (s2l "31"); Some (s2l "31")]);
    ((s2l "32"), [Some (s2l "32"); Some (s2l "32")]);
    ((s2l "33"), [Some (s2l "33"); Some (s2l "33")]);
    ((s2l "34"), [Some (s2l "34"); Some (s2l "34")]);
    ((s2l "35"), [Some (s2l "35"); Some (s2l "35")]);
    ((s2l "36"), [Some (s2l "36"); Some (s2l "36")]);
    ((s2l "37"), [Some (s2l "37"); Some (s2l "37")]);
    ((s2l "38"), [Some (s2l "38"); Some (s2l "38")]);
    ((s2l "39"), [Some (s2l "39"); Some (s2l "39")]);
    ((s2l "40"), [Some (s2l "40"); Some (s2l "40")]);
    ((s2l "41"), [Some (s2l "41"); Some (s2l "41")]);
    ((s2l "42"), [Some (s2l "42"); Some (s2l "42")]);
    ((s2l "43"), [Some (s2l "43"); Some (s2l "43")]);
    ((s2l "44"), [Some (s2l "44"); Some (s2l "44")]);
    ((s2l "45"), [Some (s2l "45"); Some (s2l "45")]);
    ((s2l "46"), [Some (s2l "46"); Some (s2l "46")]);
    ((s2l "47"), [Some (s2l "47"); Some (s2l "47")]);
    ((s2l "48"), [Some (s2l "48"); Some (s2l "48")]);
    ((s2l "49"), [Some (s2l "49"); Some (s2l "49")]);
    ((s2l "50"), [Some (s2l "50"); Some (s2l "50")]);
    ((s2l "51"), [Some (s2l "51"); Some (s2l "51")]);
    ((s2l "52"), [Some (s2l "52"); Some (s2l "52")]);
    ((s2l "53"), [Some (s2l "53"); Some (s2l "53")]);
    ((s2l "54"), [Some (s2l "54"); Some (s2l "54")]);
    ((s2l "55"), [Some (s2l "55"); Some (s2l "55")]);
    ((s2l "56"), [Some (s2l "56"); Some (s2l "56")]);
    ((s2l "57"), [Some (s2l "57"); Some (s2l "57")]);
    ((s2l "58"), [Some (s2l "58"); Some (s2l "58")]);
    ((s2l "59"), [Some (s2l "59"); Some (s2l "59")]);
    ((s2l "60"), [Some (s2l "60"); Some (s2l "60")]);
    ((s2l "61"), [Some (s2l "61"); Some (s2l "61")]);
    ((s2l "62"), [Some (s2l "62"); Some (s2l "62")]);
    ((s2l "63"), [Some (s2l "63"); Some (s2l "63")]);
    ((s2l "64"), [Some (s2l "64"); Some (s2l "64")]);
    ((s2l "65"), [Some (s2l "65"); Some (s2l "65")]);
    ((s2l "66"), [Some (s2l "66"); Some (s2l "66")]);
    ((s2l "67"), [Some (s2l "67"); Some (s2l "67")]);
    ((s2l "68"), [Some (s2l "68"); Some (s2l "68")]);
    ((s2l "69"), [Some (s2l "69"); Some (s2l "69")]);
    ((s2l "70"), [Some (s2l "70"); Some (s2l "70")]);
    ((s2l "71"), [Some (s2l "71"); Some (s2l "71")]);
    ((s2l "72"), [Some (s2l "72"); Some (s2l "72")]);
    ((s2l "73"), [Some (s2l "73"); Some (s2l "73")]);
    ((s2l "74"), [Some (s2l "74"); Some (s2l "74")]);
    ((s2l "75"), [Some (s2l "75"); Some (s2l "75")]);
    ((s2l "76"), [Some (s2l "76"); Some (s2l "76")]);
    ((s2l "77"), [Some (s2l "77"); Some (s2l "77")]);
    ((s2l "78"), [Some (s2l "78"); Some (s2l "78")]);
    ((s2l "79"), [Some (s2l "79"); Some (s2l "79")]);
    ((s2l "80"), [Some (s2l "80"); Some (s2l "80")]);
    ((s2l "81"), [Some (s2l "81"); Some (s2l "81")]);
    ((s2l "82"), [Some (s2l "82"); Some (s2l "82")]);
    ((s2l "83"), [Some (s2l "83"); Some (s2l "83")]);
    ((s2l "84"), [Some (s2l "84"); Some (s2l "84")]);
    ((s2l "85"), [Some (s2l "85"); Some (s2l "85")]);
    ((s2l "86"), [Some (s2l "86"); Some (s2l "86")]);
    ((s2l "87"), [Some (s2l "87"); Some (s2l "87")]);
    ((s2l "88"), [Some (s2l "88"); Some (s2l "88")]);
    ((s2l "89"), [Some (s2l "89"); Some (s2l "89")]);
    ((s2l "90"), [Some (s2l "90"); Some (s2l "90")]);
    ((s2l "91"), [Some (s2l "91"); Some (s2l "91")]);
    ((s2l "92"), [Some (s2l "92"); Some (s2l "92")]);
    ((s2l "93"), [Some (s2l "93"); Some (s2l "93")]);
    ((s2l "94"), [Some (s2l "94"); Some (s2l "94")]);
    ((s2l "95"), [Some (s2l "95"); Some (s2l "95")]);
    ((s2l "96"), [Some (s2l "96"); Some (s2l "96")]);
    ((s2l "97"), [Some (s2l "97"); Some (s2l "97")]);
    ((s2l "98"), [Some (s2l "98"); Some (s2l "98")]);
    ((s2l "99"), [Some (s2l "99"); Some (s2l "99")]);
    ((s2l "100"), [Some (s2l "100"); Some (s2l "100")]);
    ((s2l "101"), [Some (s2l "101"); Some (s2l "101")]);
    ((s2l "102"), [Some (s2l "102"); Some (s2l "102")]);
    ((s2l "103"), [Some (s2l "103"); Some (s2l "103")]);
    ((s2l "104"), [Some (s2l "104"); Some (s2l "104")]);
    ((s2l "105"), [Some (s2l "105"); Some (s2l "105")]);
    ((s2l "106"), [Some (s2l "106"); Some (s2l "106")]);
    ((s2l "107"), [Some (s2l "107"); Some (s2l "107")]);
    ((s2l "108"), [Some (s2l "108"); Some (s2l "108")]);
    ((s2l "109"), [Some (s2l "109"); Some (s2l "109")]);
    ((s2l "110"), [Some (s2l "110"); Some (s2l "110")]);
    ((s2l "111"), [Some (s2l "111"); Some (s2l "111")]);
    ((s2l "112"), [Some (s2l "112"); Some (s2l "112")]);
    ((s2l "113"), [Some (s2l "113"); Some (s2l "113")]);
    ((s2l "114"), [Some (s2l "114"); Some (s2l "114")]);
    ((s2l "115"), [Some (s2l "115"); Some (s2l "115")]);
    ((s2l "116"), [Some (s2l "116"); Some (s2l "116")]);
    ((s2l "117"), [Some (s2l "117"); Some (s2l "117")]);
    ((s2l "118"), [Some (s2l "118"); Some (s2l "118")]);
    ((s2l "119"), [Some (s2l "119"); Some (s2l "119")]);
    ((s2l "120"), [Some (s2l "120"); Some (s2l "120")]);
    ((s2l "121"), [Some (s2l "121"); Some (s2l "121")]);
    ((s2l "122"), [Some (s2l "122"); Some (s2l "122")]);
    ((s2l "123"), [Some (s2l "123"); Some (s2l "123")]);
    ((s2l "124"), [Some (s2l "124"); Some (s2l "124")]);
    ((s2l "125"), [Some (s2l "125"); Some (s2l "125")]);
    ((s2l "126"), [Some (s2l "126"); Some (s2l "126")]);
    ((s2l "127"), [Some (s2l "127"); Some (s2l "127")]);
    ((s2l "128"), [Some (s2l "128"); Some (s2l "128")]);
    ((s2l "129"), [Some (s2l "129"); Some (s2l "129")]);
    ((s2l "130"), [Some (s2l "130"); Some (s2l "130")]);
    ((s2l "131"), [Some (s2l "131"); Some (s2l "131")]);
    ((s2l "132"), [Some (s2l "132"); Some (s2l "132")]);
    ((s2l "133"), [Some (s2l "133"); Some (s2l "133")]);
    ((s2l "134"), [Some (s2l "134"); Some (s2l "134")]);
    ((s2l "135"), [Some (s2l "135"); Some (s2l "135")]);
    ((s2l "136"), [Some (s2l "136"); Some (s2l "136")]);
    ((s2l "137"), [Some (s2l "137"); Some (s2l "137")]);
    ((s2l "138"), [Some (s2l "138"); Some (s2l "138")]);
    ((s2l "139"), [Some (s2l "139"); Some (s2l "139")]);
    ((s2l "140"), [Some (s2l "140"); Some (s2l "140")]);
    ((s2l "141"), [Some (s2l "141"); Some (s2l "141")]);
    ((s2l "142"), [Some (s2l "142"); Some (s2l "142")]);
    ((s2l "143"), [Some (s2l "143"); Some (s2l "143")]);
    ((s2l "144"), [Some (s2l "144"); Some (s2l "144")]);
    ((s2l "145"), [Some (s2l "145"); Some (s2l "145")]);
    ((s2l "146"), [Some (s2l "146"); Some (s2l "146")]);
    ((s2l "147"), [Some (s2l "147"); Some (s2l "147")]);
    ((s2l "148"), [Some (s2l "148"); Some (s2l "148")]);
    ((s2l "149"), [Some (s2l "149"); Some (s2l "149")]);
    ((s2l "150"), [Some (s2l "150"); Some (s2l "150")]);
    ((s2l "151"), [Some (s2l "151"); Some (s2l "151")]);
    ((s2l "152"), [Some (s2l "152"); Some (s2l "152")]);
    ((s2l "153"), [Some (s2l "153"); Some (s2l "153")]);
    ((s2l "154"), [Some (s2l "154"); Some (s2l "154")]);
    ((s2l "155"), [Some (s2l "155"); Some (s2l "155")]);
    ((s2l "156"), [Some (s2l "156"); Some (s2l "156")]);
    ((s2l "157"), [Some (s2l "157"); Some (s2l "157")]);
    ((s2l "158"), [Some (s2l "158"); Some (s2l "158")]);
    ((s2l "159"), [Some (s2l "159"); Some (s2l "159")]);
    ((s2l "160"), [Some (s2l "160"); Some (s2l "160")]);
    ((s2l "161"), [Some (s2l "161"); Some (s2l "161")]);
    ((s2l "162"), [Some (s2l "162"); Some (s2l "162")]);
    ((s2l "163"), [Some (s2l "163"); Some (s2l "163")]);
    ((s2l "164"), [Some (s2l "164"); Some (s2l "164")]);
    ((s2l "165"), [Some (s2l "165"); Some (s2l "165")]);
    ((s2l "166"), [Some (s2l "166"); Some (s2l "166")]);
    ((s2l "167"), [Some (s2l "167"); Some (s2l "167")]);
    ((s2l "168"), [Some (s2l "168"); Some (s2l "168")]);
    ((s2l "169"), [Some (s2l "169"); Some (s2l "169")]);
    ((s2l "170"), [Some (s2l "170"); Some (s2l "170")]);
    ((s2l "171"), [Some (s2l "171"); Some (s2l "171")]);
    ((s2l "172"), [Some (s2l "172"); Some (s2l "172")]);
    ((s2l "173"), [Some (s2l "173"); Some (s2l "173")]);
    ((s2l "174"), [Some (s2l "174"); Some (s2l "174")]);
    ((s2l "175"), [Some (s2l "175"); Some (s2l "175")]);
    ((s2l "176"), [Some (s2l "176"); Some (s2l "176")]);
    ((s2l "177"), [Some (s2l "177"); Some (s2l "177")]);
    ((s2l "178"), [Some (s2l "178"); Some (s2l "178")]);
    ((s2l "179"), [Some (s2l "179"); Some (s2l "179")]);
    ((s2l "180"), [Some (s2l "180"); Some (s2l "180")]);
    ((s2l "181"), [Some (s2l "181"); Some (s2l "181")]);
    ((s2l "182"), [Some (s2l "182"); Some (s2l "182")]);
    ((s2l "183"), [Some (s2l "183"); Some (s2l "183")]);
    ((s2l "184"), [Some (s2l "184"); Some (s2l "184")]);
    ((s2l "185"), [Some (s2l "185"); Some (s2l "185")]);
    ((s2l "186"), [Some (s2l "186"); Some (s2l "186")]);
    ((s2l "187"), [Some (s2l "187"); Some (s2l "187")]);
    ((s2l "188"), [Some (s2l "188"); Some (s2l "188")]);
    ((s2l "189"), [Some (s2l "189"); Some (s2l "189")]);
    ((s2l "190"), [Some (s2l "190"); Some (s2l "190")]);
    ((s2l "191"), [Some (s2l "191"); Some (s2l "191")]);
    ((s2l "192"), [Some (s2l "192"); Some (s2l "192")]);
    ((s2l "193"), [Some (s2l "193"); Some (s2l "193")]);
    ((s2l "194"), [Some (s2l "194"); Some (s2l "194")]);
    ((s2l "195"), [Some (s2l "195"); Some (s2l "195")]);
    ((s2l "196"), [Some (s2l "196"); Some (s2l "196")]);
    ((s2l "197"), [Some (s2l "197"); Some (s2l "197")]);
    ((s2l "198"), [Some (s2l "198"); Some (s2l "198")]);
    ((s2l "199"), [Some (s2l "199"); Some (s2l "199")]);
    ((s2l "200"), [Some (s2l "200"); Some (s2l "200")]);
    ((s2l "201"), [Some (s2l "201"); Some (s2l "201")]);
    ((s2l "202"), [Some (s2l "202"); Some (s2l "202")]);
    ((s2l "203"), [Some (s2l "203"); Some (s2l "203")]);
    ((s2l "204"), [Some (s2l "204"); Some (s2l "204")]);
    ((s2l "205"), [Some (s2l "205"); Some (s2l "205")]);
    ((s2l "206"), [Some (s2l "206"); Some (s2l "206")]);
    ((s2l "207"), [Some (s2l "207"); Some (s2l "207")]);
    ((s2l "208"), [Some (s2l "208"); Some (s2l "208")]);
    ((s2l "209"), [Some (s2l "209"); Some (s2l "209")]);
    ((s2l "210"), [Some (s2l "210"); Some (s2l "210")]);
    ((s2l "211"), [Some (s2l "211"); Some (s2l "211")]);
    ((s2l "212"), [Some (s2l "212"); Some (s2l "212")]);
    ((s2l "213"), [Some (s2l "213"); Some (s2l "213")]);
    ((s2l "214"), [Some (s2l "214"); Some (s2l "214")]);
    ((s2l "215"), [Some (s2l "215"); Some (s2l "215")]);
    ((s2l "216"), [Some (s2l "216"); Some (s2l "216")]);
    ((s2l "217"), [Some (s2l "217"); Some (s2l "217")]);
    ((s2l "218"), [Some (s2l "218"); Some (s2l "218")]);
    ((s2l "219"), [Some (s2l "219"); Some (s2l "219")]);
    ((s2l "220"), [Some (s2l "220"); Some (s2l "220")]);
    ((s2l "221"), [Some (s2l "221"); Some (s2l "221")]);
    ((s2l "222"), [Some (s2l "222"); Some (s2l "222")]);
    ((s2l "223"), [Some (s2l "223"); Some (s2l "223")]);
    ((s2l "224"), [Some (s2l "224"); Some (s2l "224")]);
    ((s2l "225"), [Some (s2l "225"); Some (s2l "225")]);
    ((s2l "226"), [Some (s2l "226"); Some (s2l "226")]);
    ((s2l "227"), [Some (s2l "227"); Some (s2l "227")]);
    ((s2l "228"), [Some (s2l "228"); Some (s2l "228")]);
    ((s2l "229"), [Some (s2l "229"); Some (s2l "229")]);
    ((s2l "230"), [Some (s2l "230"); Some (s2l "230")]);
    ((s2l "231"), [Some (s2l "231"); Some (s2l "231")]);
    ((s2l "232"), [Some (s2l "232"); Some (s2l "232")]);
    ((s2l "233"), [Some (s2l "233"); Some (s2l "233")]);
    ((s2l "234"), [Some (s2l "234"); Some (s2l "234")]);
    ((s2l "235"), [Some (s2l "235"); Some (s2l "235")]);
    ((s2l "236"), [Some (s2l "236"); Some (s2l "236")]);
    ((s2l "237"), [Some (s2l "237"); Some (s2l "237")]);
    ((s2l "238"), [Some (s2l "238"); Some (s2l "238")]);
    ((s2l "239"), [Some (s2l "239"); Some (s2l "239")]);
    ((s2l "240"), [Some (s2l "240"); Some (s2l "240")]);
    ((s2l "241"), [Some (s2l "241"); Some (s2l "241")]);
    ((s2l "242"), [Some (s2l "242"); Some (s2l "242")]);
    ((s2l "243"), [Some (s2l "243"); Some (s2l "243")]);
    ((s2l "244"), [Some (s2l "244"); Some (s2l "244")]);
    ((s2l "245"), [Some (s2l "245"); Some (s2l "245")]);
    ((s2l "246"), [Some (s2l "246"); Some (s2l "246")]);
    ((s2l "247"), [Some (s2l "247"); Some (s2l "247")]);
    ((s2l "248"), [Some (s2l "248"); Some (s2l "248")]);
    ((s2l "249"), [Some (s2l "249"); Some (s2l "249")]);
    ((s2l "250"), [Some (s2l "250"); Some (s2l "250")]);
    ((s2l "251"), [Some (s2l "251"); Some (s2l "251")]);
    ((s2l "252"), [Some (s2l "252"); Some (s2l "252")]);
    ((s2l "253"), [Some (s2l "253"); Some (s2l "253")]);
    ((s2l "254"), [Some (s2l "254"); Some (s2l "254")]);
    ((s2l "255"), [Some (s2l "255"); Some (s2l "255")])]
   [(s2l "abcd"); (s2l "00"); (s2l "256")] = true.
Proof. vm_compute. reflexivity. Qed.

(** pure_regex.rs:84-121, with 12 of the texts *)
Definition ipv4_exec_result := Eval vm_compute in conforms [compile_dfa; compile_flat; compile_flat_u8] (s2l "^(25[0-5]|2[0-4][0-9]|1[0-9]{2}|[1-9][0-9]|[0-9])\.(25[0-5]|2[0-4][0-9]|1[0-9]{2}|[1-9][0-9]|[0-9])\.(25[0-5]|2[0-4][0-9]|1[0-9]{2}|[1-9][0-9]|[0-9])\.(25[0-5]|2[0-4][0-9]|1[0-9]{2}|[1-9][0-9]|[0-9])$") 5
   [((s2l "165.77.202.24"), [Some (s2l "165.77.202.24"); Some (s2l "165"); Some (s2l "77"); Some (s2l "202"); Some (s2l "24")]);
    ((s2l "37.48.187.29"), [Some (s2l "37.48.187.29"); Some (s2l "37"); Some (s2l "48"); Some (s2l "187"); Some (s2l "29")]);
    ((s2l "109.19.44.222"), [Some (s2l "109.19.44.222"); Some (s2l "109"); Some (s2l "19"); Some (s2l "44"); Some (s2l "222")]);
    ((s2l "214.35.123.46"), [Some (s2l "214.35.123.46"); Some (s2l "214"); Some (s2l "35"); Some (s2l "123"); Some (s2l "46")]);
    ((s2l "217.30.63.114"), [Some (s2l "217.30.63.114"); Some (s2l "217"); Some (s2l "30"); Some (s2l "63"); Some (s2l "114")]);
    ((s2l "31.203.25.113"), [Some (s2l "31.203.25.113"); Some (s2l "31"); Some (s2l "203"); Some (s2l "25"); Some (s2l "113")]);
    ((s2l "23.68.148.214"), [Some (s2l "23.68.148.214"); Some (s2l "23"); Some (s2l "68"); Some (s2l "148"); Some (s2l "214")]);
    ((s2l "73.60.157.92"), [Some (s2l "73.60.157.92"); Some (s2l "73"); Some (s2l "60"); Some (s2l "157"); Some (s2l "92")]);
    ((s2l "52.96.190.49"), [Some (s2l "52.96.190.49"); Some (s2l "52"); Some (s2l "96"); Some (s2l "190"); Some (s2l "49")]);
    ((s2l "32.30.105.254"), [Some (s2l "32.30.105.254"); Some (s2l "32"); Some (s2l "30"); Some (s2l "105"); Some (s2l "254")]);
    ((s2l "218.160.238.232"), [Some (s2l "218.160.238.232"); Some (s2l "218"); Some (s2l "160"); Some (s2l "238"); Some (s2l "232")]);
    ((s2l "185.153.127.92"), [Some (s2l "185.153.127.92"); Some (s2l "185"); Some (s2l "153"); Some (s2l "127"); Some (s2l "92")])]
   [(s2l "abcd"); (s2l "1.1.1"); (s2l "..."); (s2l "1::"); (s2l "256.0.0.0")].
Example ipv4_exec : ipv4_exec_result = true.
Proof. reflexivity. Qed.

(** pure_regex.rs:124-152 *)
Example needle : conforms [compile_dfa; compile_flat; compile_flat_u8] (s2l "nee+dle") 1
   [((s2l "needle"), [Some (s2l "needle")]);
    ((s2l "haystackhaysneedletackhaystack"), [Some (s2l "needle")]);
    ((s2l "haystackneeeeeeeeedlehaystack"), [Some (s2l "neeeeeeeeedle")]);
    ((s2l "needneedlele"), [Some (s2l "needle")])]
   [(s2l "haystackhaystack"); (s2l "0123456789"); (s2l "nothinghere"); (s2l "npuowahpeoifjap098uq09p3ior"); (s2l "nedle")] = true.
Proof. vm_compute. reflexivity. Qed.

(** pure_regex.rs:155-171, with 14 of the texts *)
Example dot : conforms [compile_dfa; compile_flat; compile_flat_u8; compile_one_pass] (s2l "^.$") 1
   [([1]%N, [Some [1]%N]);
    ([2]%N, [Some [2]%N]);
    ((s2l "A"), [Some (s2l "A")]);
    ([127]%N, [Some [127]%N]);
    ([128]%N, [Some [128]%N]);
    ([2047]%N, [Some [2047]%N]);
    ([2048]%N, [Some [2048]%N]);
    ([4095]%N, [Some [4095]%N]);
    ([4096]%N, [Some [4096]%N]);
    ([55295]%N, [Some [55295]%N]);
    ([57344]%N, [Some [57344]%N]);
    ([65535]%N, [Some [65535]%N]);
    ([65536]%N, [Some [65536]%N]);
    ([1114111]%N, [Some [1114111]%N])]
   [[0]%N; (s2l "12"); [229; 169]%N; []] = true.
Proof. vm_compute. reflexivity. Qed.

(** pure_regex.rs:174-193 *)
Example duplicate_paths : conforms [compile_dfa; compile_flat; compile_flat_u8; compile_one_pass; compile_fixed] (s2l "^(ab|bc|ab|bc)(xy|yz|yz|xy)$") 3
   [((s2l "abxy"), [Some (s2l "abxy"); Some (s2l "ab"); Some (s2l "xy")]);
    ((s2l "abyz"), [Some (s2l "abyz"); Some (s2l "ab"); Some (s2l "yz")]);
    ((s2l "bcxy"), [Some (s2l "bcxy"); Some (s2l "bc"); Some (s2l "xy")]);
    ((s2l "bcyz"), [Some (s2l "bcyz"); Some (s2l "bc"); Some (s2l "yz")])]
   [(s2l "acxy"); (s2l "abxz"); (s2l "bc"); (s2l "yz")] = true.
Proof. vm_compute. reflexivity. Qed.

(** pure_regex.rs:196-223 *)
Example hex_color : conforms [compile_dfa; compile_flat; compile_flat_u8; compile_one_pass; compile_fixed] (s2l "^#([0-9a-fA-F]{2})([0-9a-fA-F]{2})([0-9a-fA-F]{2})$") 4
   [((s2l "#abcdef"), [Some (s2l "#abcdef"); Some (s2l "ab"); Some (s2l "cd"); Some (s2l "ef")]);
    ((s2l "#FfFfFf"), [Some (s2l "#FfFfFf"); Some (s2l "Ff"); Some (s2l "Ff"); Some (s2l "Ff")]);
    ((s2l "#000000"), [Some (s2l "#000000"); Some (s2l "00"); Some (s2l "00"); Some (s2l "00")])]
   [(s2l "#qaaaaa"); (s2l "#12345"); (s2l "#1234567")] = true.
Proof. vm_compute. reflexivity. Qed.

(** pure_regex.rs:226-246 *)
Example iso8601_date_extended : conforms [compile_dfa; compile_flat; compile_flat_u8; compile_one_pass; compile_fixed] (s2l "^([0-9]{4})-(0[1-9]|1[0-2])-(0[1-9]|[12][0-9]|3[01])$") 4
   [((s2l "2000-01-01"), [Some (s2l "2000-01-01"); Some (s2l "2000"); Some (s2l "01"); Some (s2l "01")])]
   [(s2l "a"); (s2l "1999-1-1"); (s2l "2000-00-00")] = true.
Proof. vm_compute. reflexivity. Qed.

(** pure_regex.rs:249-281 *)
Example iso8601_time_extended : conforms [compile_dfa; compile_flat; compile_flat_u8; compile_one_pass] (s2l "^T?([01][0-9]|2[0-3]):([0-5][0-9]):([0-5][0-9]([.,][0-9]+)?)$") 5
   [((s2l "T00:00:00"), [Some (s2l "T00:00:00"); Some (s2l "00"); Some (s2l "00"); Some (s2l "00"); None]);
    ((s2l "23:59:59.9999"), [Some (s2l "23:59:59.9999"); Some (s2l "23"); Some (s2l "59"); Some (s2l "59.9999"); Some (s2l ".9999")])]
   [(s2l "24:00:00"); (s2l "212345"); (s2l "00:60:00"); (s2l "00:00:60")] = true.
Proof. vm_compute. reflexivity. Qed.

(** pure_regex.rs:284-301 *)
Example line_abc : conforms [compile_dfa; compile_flat; compile_flat_u8] (s2l "(^|" ++ [10]%N ++ s2l ")abc(" ++ [10]%N ++ s2l "|$)") 3
   [((s2l "abc"), [Some (s2l "abc"); Some []; Some []]);
    (([10]%N ++ s2l "abc"), [Some ([10]%N ++ s2l "abc"); Some [10]%N; Some []]);
    ((s2l "abc" ++ [10]%N), [Some (s2l "abc" ++ [10]%N); Some []; Some [10]%N]);
    (([10; 10]%N ++ s2l "abc" ++ [10]%N), [Some ([10]%N ++ s2l "abc" ++ [10]%N); Some [10]%N; Some [10]%N])]
   [(s2l "ac"); [10; 10]%N; ([10]%N ++ s2l "ab"); (s2l "bc" ++ [10]%N)] = true.
Proof. vm_compute. reflexivity. Qed.

(** pure_regex.rs:304-335, with the pairs beginning with A *)
Definition us_state_abbreviations_result := Eval vm_compute in conforms [compile_dfa; compile_flat; compile_flat_u8] (s2l "AL|AK|AZ|AR|CA|CO|CT|DE|FL|GA|HI|ID|IL|IN|IA|KS|KY|LA|ME|MD|MA|MI|MN|MS|MO|MT|NE|NV|NH|NJ|NM|NY|NC|ND|OH|OK|OR|PA|RI|SC|SD|TN|TX|UT|VT|VA|WA|WV|WI|WY") 1
   [((s2l "AK"), [Some (s2l "AK")]);
    ((s2l "AL"), [Some (s2l "AL")]);
    ((s2l "AR"), [Some (s2l "AR")]);
    ((s2l "AZ"), [Some (s2l "AZ")]);
    ((s2l "ALABAMA"), [Some (s2l "AL")]);
    ((s2l "REAL"), [Some (s2l "AL")]);
    ((s2l "TACO"), [Some (s2l "CO")]);
    ((s2l "TXT"), [Some (s2l "TX")]);
    ((s2l "MEME"), [Some (s2l "ME")]);
    ((s2l "ORCA"), [Some (s2l "OR")]);
    ((s2l "WYVERN"), [Some (s2l "WY")]);
    ((s2l "WHINE"), [Some (s2l "HI")])]
   [(s2l "AA"); (s2l "AB"); (s2l "AC"); (s2l "AD"); (s2l "AE"); (s2l "AF"); (s2l "AG"); (s2l "AH"); (s2l "AI"); (s2l "AJ"); (s2l "AM"); (s2l "AN"); (s2l "AO"); (s2l "AP"); (s2l "AQ"); (s2l "AS"); (s2l "AT"); (s2l "AU"); (s2l "AV"); (s2l "AW"); (s2l "AX"); (s2l "AY"); (s2l "Alabama"); (s2l "ct")].
Example us_state_abbreviations : us_state_abbreviations_result = true.
Proof. reflexivity. Qed.

(** pure_regex.rs:338-378 *)
Example find_quoted : conforms [compile_dfa; compile_flat; compile_flat_u8] (s2l """((\\""|[^""])*)""") 3
   [((s2l """"""), [Some (s2l """"""); Some []; None]);
    ((s2l """a\"""""), [Some (s2l """a\"""""); Some (s2l "a\"""); Some (s2l "\""")]);
    ((s2l """a\""c"""), [Some (s2l """a\""c"""); Some (s2l "a\""c"); Some (s2l "c")]);
    ((s2l "before""a\""c"""), [Some (s2l """a\""c"""); Some (s2l "a\""c"); Some (s2l "c")]);
    ((s2l """a\"" e""after"), [Some (s2l """a\"" e"""); Some (s2l "a\"" e"); Some (s2l "e")])]
   [(s2l "unquoted"); (s2l """unended"); (s2l "unstarted"""); (s2l "'single quotes'")] = true.
Proof. vm_compute. reflexivity. Qed.

(** pure_regex.rs:381-409 *)
Example find_discord_emoji : conforms [compile_dfa; compile_flat; compile_flat_u8] (s2l ":[[:alnum:]_]{2,}:") 1
   [((s2l ":crab:"), [Some (s2l ":crab:")]);
    ((s2l "this crate is fire :fire:"), [Some (s2l ":fire:")]);
    ((s2l ":regional_indicator_e::regional_indicator_r::regional_indicator_e:"), [Some (s2l ":regional_indicator_e:")]);
    ((s2l "writing :pencil2:"), [Some (s2l ":pencil2:")])]
   [(s2l "without emojis"); (s2l "unended :emoji"); (s2l "emoji is unstarted:"); (s2l "turbofish::<>"); (s2l "single char :a:"); (s2l ":with-dash:"); (s2l "this is a noun: apple" ++ [10]%N ++ s2l "this is a verb: jump")] = true.
Proof. vm_compute. reflexivity. Qed.

(** pure_regex.rs:412-441 *)
Example html_comment : conforms [compile_dfa; compile_flat; compile_flat_u8] (s2l "<!--.*?-->") 1
   [((s2l "<!---->"), [Some (s2l "<!---->")]);
    ((s2l "<!-- comment -->"), [Some (s2l "<!-- comment -->")]);
    ((s2l "<div><!-- comment --></div>"), [Some (s2l "<!-- comment -->")]);
    ((s2l "<div><!-- comment -->--></div>"), [Some (s2l "<!-- comment -->")]);
    ((s2l "<div><!--<!-- comment -->--></div>"), [Some (s2l "<!--<!-- comment -->")]);
    ((s2l "<!--<!-- comment -->-->"), [Some (s2l "<!--<!-- comment -->")])]
   [] = true.
Proof. vm_compute. reflexivity. Qed.

(** pure_regex.rs:444-556 *)
Definition html_link_extract_result := Eval vm_compute in conforms [compile_flat; compile_flat_u8] (s2l "<a([[:space:]]*[^[:space:][:cntrl:]""'>/=]+([[:space:]]*=[[:space:]]*([^[:space:]""'=<>`]+|""[^""]*""|'[^']*'))?)*?[[:space:]]*href[[:space:]]*=[[:space:]]*([^[:space:]""'=<>`]+|""[^""]*""|'[^']*')([[:space:]]*[^[:space:][:cntrl:]""'>/=]+([[:space:]]*=[[:space:]]*([^[:space:]""'=<>`]+|""[^""]*""|'[^']*'))?)*?[[:space:]]*>[^<]*</a[[:space:]]*>") 8
   [((s2l "<a href='my_url_here'></a>"), [Some (s2l "<a href='my_url_here'></a>"); None; None; None; Some (s2l "'my_url_here'"); None; None; None]);
    ((s2l "<div><a class= 'my_class' href='my_url_here'></a></div>"), [Some (s2l "<a class= 'my_class' href='my_url_here'></a>"); Some (s2l " class= 'my_class'"); Some (s2l "= 'my_class'"); Some (s2l "'my_class'"); Some (s2l "'my_url_here'"); None; None; None]);
    ((s2l "<a" ++ [10]%N ++ s2l "                class= 'my_class'" ++ [10]%N ++ s2l "                href='my_url_here'" ++ [10]%N ++ s2l "                disabled" ++ [10]%N ++ s2l "            >This is the label</a >"), [Some (s2l "<a" ++ [10]%N ++ s2l "                class= 'my_class'" ++ [10]%N ++ s2l "                href='my_url_here'" ++ [10]%N ++ s2l "                disabled" ++ [10]%N ++ s2l "            >This is the label</a >"); Some ([10]%N ++ s2l "                class= 'my_class'"); Some (s2l "= 'my_class'"); Some (s2l "'my_class'"); Some (s2l "'my_url_here'"); Some ([10]%N ++ s2l "                disabled"); None; None])]
   [].
Example html_link_extract : html_link_extract_result = true.
Proof. reflexivity. Qed.

(** pure_regex.rs:559-631 *)
Definition http_request_result := Eval vm_compute in conforms [compile_dfa; compile_flat; compile_flat_u8] (s2l "^([A-Z]+) ([^[:space:]]+) (HTTP/[0-9].[0-9])" ++ [13; 10]%N ++ s2l "(([!#$%&'*+-.^_`|~[:alnum:]]+:[ " ++ [9]%N ++ s2l "]*[^" ++ [13; 10]%N ++ s2l "]*?[ " ++ [9]%N ++ s2l "]*" ++ [13; 10]%N ++ s2l ")*)" ++ [13; 10]%N ++ s2l "([" ++ [0]%N ++ s2l "-" ++ [1114111]%N ++ s2l "]*)$") 7
   [((s2l "GET /index.html HTTP/1.1" ++ [13; 10]%N ++ s2l "header-one: header-text" ++ [13; 10]%N ++ s2l "header-two: header-text-two" ++ [13; 10; 13; 10]%N ++ s2l "HTTP body here"), [Some (s2l "GET /index.html HTTP/1.1" ++ [13; 10]%N ++ s2l "header-one: header-text" ++ [13; 10]%N ++ s2l "header-two: header-text-two" ++ [13; 10; 13; 10]%N ++ s2l "HTTP body here"); Some (s2l "GET"); Some (s2l "/index.html"); Some (s2l "HTTP/1.1"); Some (s2l "header-one: header-text" ++ [13; 10]%N ++ s2l "header-two: header-text-two" ++ [13; 10]%N); Some (s2l "header-two: header-text-two" ++ [13; 10]%N); Some (s2l "HTTP body here")]);
    ((s2l "GET / HTTP/1.1" ++ [13; 10; 13; 10]%N), [Some (s2l "GET / HTTP/1.1" ++ [13; 10; 13; 10]%N); Some (s2l "GET"); Some (s2l "/"); Some (s2l "HTTP/1.1"); Some []; None; Some []])]
   [(s2l "obviously not http"); []; (s2l "GET / HTTP/1.1" ++ [10; 10]%N ++ s2l "without carriage return"); (s2l "first GET / HTTP/1.1" ++ [13; 10; 13; 10]%N ++ s2l "preceded"); (s2l "OPTION /invalid url HTTP/1.1" ++ [13; 10; 13; 10]%N ++ s2l "body")].
Example http_request : http_request_result = true.
Proof. reflexivity. Qed.

(** pure_regex.rs:634-690 *)
Example uri_with_authority : conforms [compile_dfa; compile_flat; compile_flat_u8; compile_one_pass] (s2l "^([[:alpha:]][[:alnum:]-+.]+)://([^?#]+)([?][^#]*)?(#[^#]*)?$") 5
   [((s2l "https://example.com"), [Some (s2l "https://example.com"); Some (s2l "https"); Some (s2l "example.com"); None; None]);
    ((s2l "https://subdomain.example.com/category/page2"), [Some (s2l "https://subdomain.example.com/category/page2"); Some (s2l "https"); Some (s2l "subdomain.example.com/category/page2"); None; None]);
    ((s2l "https://subdomain.example.com/category/page2?query=1234"), [Some (s2l "https://subdomain.example.com/category/page2?query=1234"); Some (s2l "https"); Some (s2l "subdomain.example.com/category/page2"); Some (s2l "?query=1234"); None]);
    ((s2l "https://subdomain.example.com/category/page2?query=1234#fragment"), [Some (s2l "https://subdomain.example.com/category/page2?query=1234#fragment"); Some (s2l "https"); Some (s2l "subdomain.example.com/category/page2"); Some (s2l "?query=1234"); Some (s2l "#fragment")])]
   [] = true.
Proof. vm_compute. reflexivity. Qed.

(** pure_regex.rs:697-709 *)
Example greedy_anchor_priority_alternation : conforms [compile_dfa; compile_flat; compile_flat_u8] (s2l "(^a$)|(^a)|(a$)|(a)") 5
   [((s2l "a"), [Some (s2l "a"); Some (s2l "a"); None; None; None]);
    ((s2l "ax"), [Some (s2l "a"); None; Some (s2l "a"); None; None]);
    ((s2l "xa"), [Some (s2l "a"); None; None; Some (s2l "a"); None]);
    ((s2l "xax"), [Some (s2l "a"); None; None; None; Some (s2l "a")])]
   [] = true.
Proof. vm_compute. reflexivity. Qed.

(** pure_regex.rs:712-740 *)
Example greedy1 : conforms [compile_regex] (s2l "^(a|ab)b?cd$") 2
   [((s2l "abcd"), [Some (s2l "abcd"); Some (s2l "a")])]
   [] = true.
Proof. vm_compute. reflexivity. Qed.

(** pure_regex.rs:712-740 *)
Example greedy2 : conforms [compile_regex] (s2l "^(ab|a)b?cd$") 2
   [((s2l "abcd"), [Some (s2l "abcd"); Some (s2l "ab")])]
   [] = true.
Proof. vm_compute. reflexivity. Qed.

(** pure_regex.rs:712-740 *)
Example greedy3 : conforms [compile_regex] (s2l "^(a*)(a*)$") 3
   [((s2l "aaaaaaaa"), [Some (s2l "aaaaaaaa"); Some (s2l "aaaaaaaa"); Some []])]
   [] = true.
Proof. vm_compute. reflexivity. Qed.

(** pure_regex.rs:712-740 *)
Example greedy4 : conforms [compile_regex] (s2l "a*") 1
   [((s2l "aaaaaaaa"), [Some (s2l "aaaaaaaa")]);
    ((s2l "aabaaaaaa"), [Some (s2l "aa")])]
   [] = true.
Proof. vm_compute. reflexivity. Qed.

(** pure_regex.rs:712-740 *)
Example greedy5 : conforms [compile_regex] (s2l "a*?") 1
   [((s2l "aaaaaaaa"), [Some []])]
   [] = true.
Proof. vm_compute. reflexivity. Qed.

(** pure_regex.rs:712-740 *)
Example greedy6 : conforms [compile_regex] (s2l "a*?|a*") 1
   [((s2l "aaaaaaaa"), [Some []]);
    ((s2l "aaaabaaaa"), [Some []])]
   [] = true.
Proof. vm_compute. reflexivity. Qed.

(** pure_regex.rs:712-740 *)
Example greedy7 : conforms [compile_regex] (s2l "ba*?b|a*") 1
   [((s2l "abaaabaaaa"), [Some (s2l "a")])]
   [] = true.
Proof. vm_compute. reflexivity. Qed.

(** pure_regex.rs:712-740 *)
Example greedy8 : conforms [compile_regex] (s2l "a??") 1
   [((s2l "abaaabaaaa"), [Some []])]
   [] = true.
Proof. vm_compute. reflexivity. Qed.

(** pure_regex.rs:712-740 *)
Example greedy9 : conforms [compile_regex] (s2l "()^a|()c") 3
   [((s2l "a"), [Some (s2l "a"); Some []; None]);
    ((s2l "c"), [Some (s2l "c"); None; Some []]);
    ((s2l "bc"), [Some (s2l "c"); None; Some []])]
   [] = true.
Proof. vm_compute. reflexivity. Qed.

(** working_nfa.rs:1030-1050, working_u8_nfa.rs:1023-1041 *)
Example unit_phone : automata (s2l "^(\+1 )?[0-9]{3}-[0-9]{3}-[0-9]{4}$")
   [(s2l "012-345-6789"); (s2l "987-654-3210"); (s2l "+1 555-555-5555"); (s2l "123-555-9876")]
   [(s2l "abcd"); (s2l "0123456789"); (s2l "012--345-6789"); (s2l "(555) 555-5555"); (s2l "1 555-555-5555")] = true.
Proof. vm_compute. reflexivity. Qed.

(** working_nfa.rs:1052-1066, working_u8_nfa.rs:1044-1058 *)
Example unit_double_loop : automata (s2l "^.*(.*)*$")
   [[]; (s2l "asdf"); (s2l "1234567"); (s2l "0")]
   [[0]%N] = true.
Proof. vm_compute. reflexivity. Qed.

(** working_nfa.rs:1068-1088, working_u8_nfa.rs:1061-1081 *)
Example unit_anchored_start : automata (s2l "^a|b*^c|d^|n")
   [(s2l "a"); (s2l "c"); (s2l "cq"); (s2l "wwwnwww")]
   [[]; (s2l "qb"); (s2l "qc"); (s2l "b"); (s2l "bc"); (s2l "bbbbbbc"); (s2l "d")] = true.
Proof. vm_compute. reflexivity. Qed.

(** working_nfa.rs:1090-1110, working_u8_nfa.rs:1084-1104 *)
Example unit_anchored_end : automata (s2l "a$|b$c*|$d|n")
   [(s2l "a"); (s2l "b"); (s2l "qb"); (s2l "wwwnwww")]
   [[]; (s2l "bq"); (s2l "qc"); (s2l "c"); (s2l "bc"); (s2l "bcccccc"); (s2l "d")] = true.
Proof. vm_compute. reflexivity. Qed.

(** working_nfa.rs:1112-1132, working_u8_nfa.rs:1107-1127 *)
Example unit_range_digit : automata (s2l "^[[:digit:].]$")
   [(s2l "0"); (s2l "1"); (s2l "9"); (s2l ".")]
   [[]; (s2l "a"); (s2l "11"); (s2l "1."); (s2l ".2"); (s2l "09"); (s2l "d")] = true.
Proof. vm_compute. reflexivity. Qed.

(** working_u8_nfa.rs:1143-1166 *)
Example unit_dot : automata (s2l "^.$")
   [(s2l "0"); (s2l "1"); (s2l "a"); [1]%N; (s2l "9"); (s2l "."); [4660]%N]
   [[]; [0]%N; (s2l "ab"); (s2l "11"); (s2l "1."); (s2l ".2"); (s2l "09"); [4660; 17185]%N] = true.
Proof. vm_compute. reflexivity. Qed.

(** pure_regex.rs:72 and 97: not one-pass. *)
Example not_one_pass : map (fun p => match compile_one_pass p with NoCompile => true | _ => false end)
  [(s2l "^(25[0-5]|2[0-4][0-9]|1[0-9]{2}|[1-9][0-9]|[0-9])$"); s2l "nee+dle"] = [true; true].
Proof. vm_compute. reflexivity. Qed.
(** struct_attr_regex.rs:6-44 *)
Example phone_number_struct : (do r <- attr_compile (s2l "^(\+1 )?[0-9]{3}-[0-9]{3}-[0-9]{4}$"); do xs <- mapM (attr_exec (fst r) (snd r)) [s2l "012-345-6789"; s2l "+1 555-555-5555"; s2l "abcd"; s2l "0123456789"; s2l "1 555-555-5555"]; Ok (snd r, xs)) =
  Ok ([false; true], [Some [Some (0, 12); None]; Some [Some (0, 15); Some (0, 3)]; None; None; None]).
Proof. vm_compute. reflexivity. Qed.

(** README.md:26-64 (the example there expects [Some("1F2E3D")] for the text 1F2e3D; what comes back is a part of the text, with its [e]). *)
Example readme_color : conforms [compile_regex] (s2l "^#?([[:xdigit:]]{2})([[:xdigit:]]{2})([[:xdigit:]]{2})([[:xdigit:]]{2})?$") 5
   [((s2l "#000000"), [Some (s2l "#000000"); Some (s2l "00"); Some (s2l "00"); Some (s2l "00"); None]);
    ((s2l "1F2e3D"), [Some (s2l "1F2e3D"); Some (s2l "1F"); Some (s2l "2e"); Some (s2l "3D"); None]);
    ((s2l "ffffff80"), [Some (s2l "ffffff80"); Some (s2l "ff"); Some (s2l "ff"); Some (s2l "ff"); Some (s2l "80")])]
   [(s2l "green"); (s2l "%FFFFFF"); (s2l "#2")] = true.
Proof. vm_compute. reflexivity. Qed.
Example readme_color_upper : conforms [compile_regex] (s2l "^#?([[:xdigit:]]{2})([[:xdigit:]]{2})([[:xdigit:]]{2})([[:xdigit:]]{2})?$") 5
   [((s2l "1F2e3D"), [Some (s2l "1F2E3D"); Some (s2l "1F"); Some (s2l "2e"); Some (s2l "3D"); None])] [] = false.
Proof. vm_compute. reflexivity. Qed.
(** ere-macros/src/lib.rs:144: three groups, so [Regex<4>] where the comment says [Regex<2>]. *)
Example macros_color : conforms [compile_fixed] (s2l "^#([0-9a-fA-F]{2})([0-9a-fA-F]{2})([0-9a-fA-F]{2})$") 4
   [((s2l "#1F2e3D"), [Some (s2l "#1F2e3D"); Some (s2l "1F"); Some (s2l "2e"); Some (s2l "3D")])] [s2l "#1F2e3"] = true.
Proof. vm_compute. reflexivity. Qed.
