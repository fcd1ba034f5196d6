(** Syntax trees of patterns and single-character atoms.  Models [ere-core/src/parse_tree.rs]. *)
From Verif Require Export Chars.
From Coq Require Import String.
Open Scope N_scope.
Open Scope list_scope.

(** [BracketCharClass], parse_tree.rs:626-651. *)
Inductive cclass :=
| Alphanumeric | Control | Lower | Space | Alphabet | Digit
| Print_ | Upper | Blank | Graphic | Punctuation | HexDigit.

Definition all_classes : list cclass :=
  [Alphanumeric; Control; Lower; Space; Alphabet; Digit; Print_; Upper; Blank; Graphic; Punctuation; HexDigit].

(** [BracketCharClass::to_ranges], parse_tree.rs:653-673. *)
Definition class_ranges (k : cclass) : list range :=
  match k with
  | Alphanumeric => [(ch "0", ch "9"); (ch "A", ch "Z"); (ch "a", ch "z")]
  | Control => [(0, 0x1f); (0x7f, 0x7f)]
  | Lower => [(ch "a", ch "z")]
  | Space => [(9, 9); (0x0a, 0x0d); (ch " ", ch " ")]
  | Alphabet => [(ch "A", ch "Z"); (ch "a", ch "z")]
  | Digit => [(ch "0", ch "9")]
  | Print_ => [(0x20, 0x7E)]
  | Upper => [(ch "A", ch "Z")]
  | Blank => [(9, 9); (ch " ", ch " ")]
  | Graphic => [(0x21, 0x7e)]
  | Punctuation => [(0x21, 0x2f); (0x3a, 0x40); (0x5b, 0x60); (0x7b, 0x7e)]
  | HexDigit => [(ch "0", ch "9"); (ch "A", ch "F"); (ch "a", ch "f")]
  end.

(** The [char::is_ascii_*] predicates of the Rust standard library. *)
Definition is_ascii_digit c := (ch "0" <=? c) && (c <=? ch "9").
Definition is_ascii_lowercase c := (ch "a" <=? c) && (c <=? ch "z").
Definition is_ascii_uppercase c := (ch "A" <=? c) && (c <=? ch "Z").
Definition is_ascii_alphabetic c := is_ascii_lowercase c || is_ascii_uppercase c.
Definition is_ascii_alphanumeric c := is_ascii_digit c || is_ascii_alphabetic c.
Definition is_ascii_control c := (c <=? 0x1f) || (c =? 0x7f).
Definition is_ascii_whitespace c := (c =? 9) || (c =? 10) || (c =? 12) || (c =? 13) || (c =? 32).
Definition is_ascii_graphic c := (0x21 <=? c) && (c <=? 0x7e).
Definition is_ascii_punctuation c :=
  ((ch "!" <=? c) && (c <=? ch "/")) || ((ch ":" <=? c) && (c <=? ch "@"))
  || ((ch "[" <=? c) && (c <=? ch "`")) || ((ch "{" <=? c) && (c <=? ch "~")).
Definition is_ascii_hexdigit c :=
  is_ascii_digit c || ((ch "a" <=? c) && (c <=? ch "f")) || ((ch "A" <=? c) && (c <=? ch "F")).

(** [BracketCharClass::check_ascii], parse_tree.rs:675-690. *)
Definition class_check (k : cclass) (c : N) : bool :=
  match k with
  | Alphanumeric => is_ascii_alphanumeric c
  | Control => is_ascii_control c
  | Lower => is_ascii_lowercase c
  | Space => is_ascii_whitespace c || (c =? 0x0b)
  | Alphabet => is_ascii_alphabetic c
  | Digit => is_ascii_digit c
  | Print_ => (0x20 <=? c) && (c <=? 0x7E)
  | Upper => is_ascii_uppercase c
  | Blank => (c =? ch " ") || (c =? 9)
  | Graphic => is_ascii_graphic c
  | Punctuation => is_ascii_punctuation c
  | HexDigit => is_ascii_hexdigit c
  end.

(** [BracketExpressionTerm], parse_tree.rs:771-775. *)
Inductive term := Single (c : N) | Range (a b : N) | Class (k : cclass).

(** [BracketExpressionTerm::check], parse_tree.rs:777-783. *)
Definition term_check (t : term) (c : N) : bool :=
  match t with
  | Single a => a =? c
  | Range a b => (a <=? c) && (c <=? b)
  | Class k => class_check k c
  end.

(** [BracketExpressionTerm::to_ranges], parse_tree.rs:784-792. *)
Definition term_ranges (t : term) : list range :=
  match t with
  | Single c => [(c, c)]
  | Range a b => [(a, b)]
  | Class k => class_ranges k
  end.

(** [Atom], parse_tree.rs:372-381; [CharClass::Dot] (parse_tree.rs:331-334) is the only char class. *)
Inductive atom :=
| NormalChar (c : N)
| Dot
| MatchingList (ts : list term)
| NonmatchingList (ts : list term).

(** [Atom::check], parse_tree.rs:472-479 and [CharClass::check], 335-341. *)
Definition atom_check (a : atom) (c : N) : bool :=
  match a with
  | NormalChar x => x =? c
  | Dot => negb (c =? 0)
  | MatchingList ts => existsb (fun t => term_check t c) ts
  | NonmatchingList ts => negb (existsb (fun t => term_check t c) ts)
  end.

(** The loop of [combine_ranges_chars], parse_tree.rs:513-528, with the accumulated output in order.
    [(current_end..=*term.start()).count() == 2] holds exactly when [term.start()] is the successor
    of [current_end]; it is modelled by that test. *)
Fixpoint combine_loop (cs ce : N) (terms : list range) : list range :=
  match terms with
  | [] => [(cs, ce)]
  | t :: ts =>
      if range_is_empty t then combine_loop cs ce ts
      else if (fst t <=? ce) || (fst t =? succ_char ce)
           then combine_loop cs (N.max ce (snd t)) ts
           else (cs, ce) :: combine_loop (fst t) (snd t) ts
  end.

(** [combine_ranges_chars], parse_tree.rs:502-530. *)
Definition combine_ranges (rs : list range) : list range :=
  match sort_by_key fst rs with
  | [] => []
  | f :: ts => combine_loop (fst f) (snd f) ts
  end.

(** One step of the subtraction loop for [NonmatchingList], parse_tree.rs:556-574. *)
Definition subtract_one (t r : range) : list range :=
  if (snd t <? fst r) || (snd r <? fst t) then [r]
  else (if fst r <? fst t then [(fst r, pred_char (fst t))] else [])
       ++ (if snd t <? snd r then [(succ_char (snd t), snd r)] else []).

Definition subtract (rs : list range) (t : range) : list range := flat_map (subtract_one t) rs.

(** [Atom::to_ranges], parse_tree.rs:500-580. *)
Definition to_ranges (a : atom) : list range :=
  match a with
  | NormalChar c => [(c, c)]
  | Dot => [(1, char_max)]
  | MatchingList ts => combine_ranges (flat_map term_ranges ts)
  | NonmatchingList ts =>
      sort_by_key fst (fold_left subtract (flat_map term_ranges ts) [(0, char_max)])
  end.

(** [impl PartialEq for Atom], parse_tree.rs:617-621.  ([RangeInclusive]'s private exhaustion flag is
    never set here: [next]/[next_back] are only called on ranges with distinct end points.) *)
Definition range_eqb (r s : range) : bool := (fst r =? fst s) && (snd r =? snd s).
Fixpoint ranges_eqb (l m : list range) : bool :=
  match l, m with
  | [], [] => true
  | x :: l', y :: m' => range_eqb x y && ranges_eqb l' m'
  | _, _ => false
  end.
Definition atom_eqb (a b : atom) : bool := ranges_eqb (to_ranges a) (to_ranges b).

(** [Atom::max_bytes], parse_tree.rs:581-586; [Atom::min_bytes], 587-592. *)
Definition atom_max_bytes (a : atom) : nat :=
  match rev (to_ranges a) with [] => O | r :: _ => len_utf8 (snd r) end.
Definition atom_min_bytes (a : atom) : nat :=
  match to_ranges a with [] => O | r :: _ => len_utf8 (fst r) end.

(** [QuantifierType] and [Quantifier], parse_tree.rs:215-224 and 264-271.  [u32] values are [N]. *)
Inductive qtype := QStar | QPlus | QQuestion | QMultiple (n : N) | QRange (n : N) (m : option N).
Record quant := { q_type : qtype; q_alt : bool }.

(** [QuantifierType::min] / [max], parse_tree.rs:226-249. *)
Definition q_min (q : qtype) : N :=
  match q with QStar => 0 | QPlus => 1 | QQuestion => 0 | QMultiple n => n | QRange n _ => n end.
Definition q_max (q : qtype) : option N :=
  match q with QStar => None | QPlus => None | QQuestion => Some 1 | QMultiple n => Some n | QRange _ m => m end.

(** [EREPart], [EREExpression], [EREBranch], [ERE]: parse_tree.rs:60-66, 126-130, 157-163, 201-205. *)
Inductive part :=
| PSingle (e : expr)
| PQuant (e : expr) (q : quant)
| PStart
| PEnd
with expr :=
| XAtom (a : atom)
| XSub (bs : list (list part)).
Definition branch := list part.
Definition ere := list branch.

(** Induction over the nested syntax. *)
Section EreInd.
  Variable Ppart : part -> Prop.
  Variable Pexpr : expr -> Prop.
  Variable Pbranch : branch -> Prop.
  Variable Pere : ere -> Prop.
  Hypothesis Hsingle : forall e, Pexpr e -> Ppart (PSingle e).
  Hypothesis Hquant : forall e q, Pexpr e -> Ppart (PQuant e q).
  Hypothesis Hstart : Ppart PStart.
  Hypothesis Hend : Ppart PEnd.
  Hypothesis Hatom : forall a, Pexpr (XAtom a).
  Hypothesis Hsub : forall bs, Pere bs -> Pexpr (XSub bs).
  Hypothesis Hbnil : Pbranch [].
  Hypothesis Hbcons : forall p b, Ppart p -> Pbranch b -> Pbranch (p :: b).
  Hypothesis Henil : Pere [].
  Hypothesis Hecons : forall b e, Pbranch b -> Pere e -> Pere (b :: e).
  Fixpoint part_ind' (p : part) : Ppart p :=
    match p with
    | PSingle e => Hsingle e (expr_ind' e)
    | PQuant e q => Hquant e q (expr_ind' e)
    | PStart => Hstart
    | PEnd => Hend
    end
  with expr_ind' (e : expr) : Pexpr e :=
    match e with
    | XAtom a => Hatom a
    | XSub bs => Hsub bs
        ((fix go (l : list (list part)) : Pere l :=
            match l with
            | [] => Henil
            | b :: l' => Hecons b l'
                ((fix gob (b : list part) : Pbranch b :=
                    match b with
                    | [] => Hbnil
                    | p :: b' => Hbcons p b' (part_ind' p) (gob b')
                    end) b) (go l')
            end) bs)
    end.
  Definition branch_ind' (b : branch) : Pbranch b :=
    (fix gob (b : list part) : Pbranch b :=
       match b with
       | [] => Hbnil
       | p :: b' => Hbcons p b' (part_ind' p) (gob b')
       end) b.
  Definition ere_ind' (e : ere) : Pere e :=
    (fix go (l : list (list part)) : Pere l :=
       match l with
       | [] => Henil
       | b :: l' => Hecons b l' (branch_ind' b) (go l')
       end) e.
  Lemma syntax_ind : (forall p, Ppart p) /\ (forall e, Pexpr e) /\ (forall b, Pbranch b) /\ (forall e, Pere e).
  Proof. repeat split; [apply part_ind' | apply expr_ind' | apply branch_ind' | apply ere_ind']. Qed.
End EreInd.

(** [is_special_character], parse_tree.rs:831-844. *)
Definition is_special (c : N) : bool :=
  existsb (N.eqb c) (s2l "^.[$()|*+?{\").
(** [is_escapable_character], parse_tree.rs:848-850. *)
Definition is_escapable (c : N) : bool := is_special c || (c =? ch "]") || (c =? ch "}").
