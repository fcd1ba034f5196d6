(** The pattern parser.  Models the [take] functions of [ere-core/src/parse_tree.rs]. *)
From Verif Require Export Ast.
From Coq Require Import String.
Open Scope N_scope.
Open Scope list_scope.

(** [RegexParseError], parse_tree.rs:43-58. *)
Inductive perr :=
| UnterminatedCaptureGroup | UnterminatedCharSet
| InvalidEscapedChar (c : N) | InvalidAtom (c : N) | UnexpectedEOF.

(** [Result<(&str, A), RegexParseError>]; [PFuel] is the model's out-of-fuel marker. *)
Inductive pres (A : Type) :=
| POk (rest : list N) (a : A)
| PErr (e : perr)
| PFuel.
Arguments POk {A}. Arguments PErr {A}. Arguments PFuel {A}.

(** [BracketCharClass]'s Display text, parse_tree.rs:709-726. *)
Definition class_text (k : cclass) : list N :=
  match k with
  | Alphanumeric => s2l "[:alnum:]" | Control => s2l "[:cntrl:]" | Lower => s2l "[:lower:]"
  | Space => s2l "[:space:]" | Alphabet => s2l "[:alpha:]" | Digit => s2l "[:digit:]"
  | Print_ => s2l "[:print:]" | Upper => s2l "[:upper:]" | Blank => s2l "[:blank:]"
  | Graphic => s2l "[:graph:]" | Punctuation => s2l "[:punct:]" | HexDigit => s2l "[:xdigit:]"
  end.

(** The literal table of [BracketCharClass::take], parse_tree.rs:691-707 (tried in this order). *)
Definition class_table : list (list N * cclass) :=
  [ (s2l "alnum:]", Alphanumeric); (s2l "cntrl:]", Control); (s2l "lower:]", Lower);
    (s2l "space:]", Space); (s2l "alpha:]", Alphabet); (s2l "digit:]", Digit);
    (s2l "print:]", Print_); (s2l "upper:]", Upper); (s2l "blank:]", Blank);
    (s2l "graph:]", Graphic); (s2l "punct:]", Punctuation); (s2l "xdigit:]", HexDigit) ].

(** [match_prefix!], parse_tree.rs:26-40. *)
Fixpoint match_prefix {A} (s : list N) (tbl : list (list N * A)) : option (list N * A) :=
  match tbl with
  | [] => None
  | (p, a) :: tbl' => match strip_prefix p s with
                      | Some rest => Some (rest, a)
                      | None => match_prefix s tbl'
                      end
  end.

(** [BracketCharClass::take], parse_tree.rs:691-707. *)
Definition class_take (s : list N) : option (list N * cclass) :=
  match strip_prefix (s2l "[:") s with
  | Some rest => match_prefix rest class_table
  | None => None
  end.

(** The loop of the bracket branch of [Atom::take], parse_tree.rs:427-459. *)
Fixpoint bracket_loop (fuel : nat) (s : list N) (items : list term) : pres (list term) :=
  match fuel with
  | O => PFuel
  | S fuel =>
      match strip_prefix (s2l "]") s with
      | Some rest => POk rest items
      | None =>
          match class_take s with
          | Some (rest, k) => bracket_loop fuel rest (items ++ [Class k])
          | None =>
              match s with
              | [] => PErr UnterminatedCharSet
              | first :: s1 =>
                  match s1 with
                  | [] => PErr UnterminatedCharSet
                  | d :: s2 =>
                      if d =? ch "-" then
                        match s2 with
                        | [] => PErr UnterminatedCharSet
                        | second :: s3 =>
                            if second =? ch "]"
                            then POk s3 (items ++ [Single first; Single (ch "-")])
                            else bracket_loop fuel s3 (items ++ [Range first second])
                        end
                      else bracket_loop fuel s1 (items ++ [Single first])
                  end
              end
          end
      end
  end.

(** [Atom::take], parse_tree.rs:407-471. *)
Definition atom_take (s : list N) : pres atom :=
  match s with
  | [] => PErr UnexpectedEOF
  | c :: s1 =>
      if c =? ch "\" then
        match s1 with
        | [] => PErr (InvalidAtom (ch "\"))
        | d :: s2 => if is_escapable d then POk s2 (NormalChar d) else PErr (InvalidEscapedChar d)
        end
      else if c =? ch "." then POk s1 Dot
      else if c =? ch "[" then
        let '(none_of, s2) := match strip_prefix (s2l "^") s1 with
                              | Some r => (true, r) | None => (false, s1) end in
        let '(items, s3) := match strip_prefix (s2l "]") s2 with
                            | Some r => ([Single (ch "]")], r) | None => ([], s2) end in
        match bracket_loop (S (List.length s3)) s3 items with
        | POk rest ts => POk rest (if none_of then NonmatchingList ts else MatchingList ts)
        | PErr e => PErr e
        | PFuel => PFuel
        end
      else if negb (is_special c) then POk s1 (NormalChar c)
      else PErr (InvalidAtom c)
  end.

(** [u32::from_str] of the Rust standard library: optional leading [+], at least one digit, digits
    only, value below 2^32. *)
Fixpoint parse_digits (acc : N) (s : list N) : option N :=
  match s with
  | [] => Some acc
  | d :: s' => if is_ascii_digit d then parse_digits (acc * 10 + (d - ch "0")) s' else None
  end.
Definition u32_max : N := 0xFFFFFFFF.
Definition parse_u32 (s : list N) : option N :=
  let ds := match strip_prefix (s2l "+") s with Some r => r | None => s end in
  match ds with
  | [] => None
  | _ => match parse_digits 0 ds with
         | Some n => if n <=? u32_max then Some n else None
         | None => None
         end
  end.

(** The [match it.next()] of [Quantifier::take], parse_tree.rs:275-291. *)
Definition qtype_take (s : list N) : option (list N * qtype) :=
  match s with
  | [] => None
  | c :: s1 =>
      if c =? ch "*" then Some (s1, QStar)
      else if c =? ch "+" then Some (s1, QPlus)
      else if c =? ch "?" then Some (s1, QQuestion)
      else if c =? ch "{" then
        match split_once (ch "}") s1 with
        | None => None
        | Some (inside, rest) =>
            match split_once (ch ",") inside with
            | None => match parse_u32 inside with
                      | Some n => Some (rest, QMultiple n) | None => None end
            | Some (mn, []) => match parse_u32 mn with
                               | Some n => Some (rest, QRange n None) | None => None end
            | Some (mn, mx) => match parse_u32 mn with
                               | Some n => match parse_u32 mx with
                                           | Some m => Some (rest, QRange n (Some m)) | None => None end
                               | None => None end
            end
        end
      else None
  end.

(** [Quantifier::take], parse_tree.rs:273-309. *)
Definition quant_take (s : list N) : option (list N * quant) :=
  match qtype_take s with
  | None => None
  | Some (rest, q) =>
      match strip_prefix (s2l "?") rest with
      | Some rest' => Some (rest', {| q_type := q; q_alt := true |})
      | None => Some (rest, {| q_type := q; q_alt := false |})
      end
  end.

(** [starts_with(c)] *)
Definition starts_with (c : N) (s : list N) : bool :=
  match s with [] => false | x :: _ => x =? c end.

(** [ERE::take] (parse_tree.rs:69-85; the loop is [branches_take]), [EREBranch::take] (138-146) and
    [EREPart::take] (165-188).  Each Rust loop iteration or call consumes one unit of fuel. *)
Fixpoint ere_take (fuel : nat) (s : list N) {struct fuel} : pres ere :=
  match fuel with
  | O => PFuel
  | S fuel =>
      match branch_take fuel s [] with
      | POk rest b => branches_take fuel rest [b]
      | PErr e => PErr e
      | PFuel => PFuel
      end
  end
with branches_take (fuel : nat) (s : list N) (acc : list branch) {struct fuel} : pres ere :=
  match fuel with
  | O => PFuel
  | S fuel =>
      match s with
      | [] => POk s acc
      | _ =>
        if starts_with (ch ")") s then POk s acc
        else match strip_prefix (s2l "|") s with
             | None => POk s acc
             | Some s' =>
                 match branch_take fuel s' [] with
                 | POk rest b => branches_take fuel rest (acc ++ [b])
                 | PErr e => PErr e
                 | PFuel => PFuel
                 end
             end
      end
  end
with branch_take (fuel : nat) (s : list N) (acc : branch) {struct fuel} : pres branch :=
  match fuel with
  | O => PFuel
  | S fuel =>
      match s with
      | [] => POk s acc
      | _ => if starts_with (ch ")") s || starts_with (ch "|") s then POk s acc
             else match part_take fuel s with
                  | POk rest p => branch_take fuel rest (acc ++ [p])
                  | PErr e => PErr e
                  | PFuel => PFuel
                  end
      end
  end
with part_take (fuel : nat) (s : list N) {struct fuel} : pres part :=
  match fuel with
  | O => PFuel
  | S fuel =>
      match strip_prefix (s2l "^") s with
      | Some rest => POk rest PStart
      | None =>
      match strip_prefix (s2l "$") s with
      | Some rest => POk rest PEnd
      | None =>
        match
          match strip_prefix (s2l "(") s with
          | Some s' =>
              match ere_take fuel s' with
              | POk rest e =>
                  match strip_prefix (s2l ")") rest with
                  | Some rest' => POk rest' (XSub e)
                  | None => PErr UnterminatedCaptureGroup
                  end
              | PErr e => PErr e
              | PFuel => PFuel
              end
          | None =>
              match atom_take s with
              | POk rest a => POk rest (XAtom a)
              | PErr e => PErr e
              | PFuel => PFuel
              end
          end
        with
        | POk rest x =>
            match quant_take rest with
            | Some (rest', q) => POk rest' (PQuant x q)
            | None => POk rest (PSingle x)
            end
        | PErr e => PErr e
        | PFuel => PFuel
        end
      end
      end
  end.

(** [Result<ERE, RegexParseError>] of [ERE::parse_str]; [RFuel] is the model's out-of-fuel marker. *)
Inductive parse_result := ROk (e : ere) | RErr (e : perr) | RFuel.

(** Fuel given to the parser: linear in the input. *)
Definition parse_fuel (s : list N) : nat := (4 * S (List.length s))%nat.

(** [ERE::parse_str], parse_tree.rs:87-94: any failure, and any left-over input, becomes
    [InvalidAtom(')')]. *)
Definition parse_str (s : list N) : parse_result :=
  match ere_take (parse_fuel s) s with
  | POk [] e => ROk e
  | PFuel => RFuel
  | _ => RErr (InvalidAtom (ch ")"))
  end.
