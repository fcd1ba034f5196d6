(** The automaton representation linked into the user's binary.  Models
    [ere-core/src/engines/nfa_static.rs]. *)
From Coq Require Import String.
From Coq Require Import List.
From Verif Require Export Nfa.
Open Scope nat_scope.
Open Scope list_scope.

(** [AtomStatic], nfa_static.rs:16-24.  [CharClass] has the single variant [Dot]. *)
Inductive atom_static :=
| SNormalChar (c : N)
| SCharClass
| SMatchingList (l : list term)
| SNonmatchingList (l : list term).
(** [CharClass::check] (parse_tree.rs), for [Dot] *)
Definition dot_check (c : N) : bool := negb (c =? 0)%N.
(** [AtomStatic::check], 26-33 *)
Definition static_check (a : atom_static) (c : N) : bool :=
  match a with
  | SNormalChar x => (x =? c)%N
  | SCharClass => dot_check c
  | SMatchingList l => existsb (fun t => term_check t c) l
  | SNonmatchingList l => negb (existsb (fun t => term_check t c) l)
  end.
(** [AtomStatic::serialize_as_token_stream], 35-56, read as the value the emitted expression denotes. *)
Definition static_atom (a : atom) : atom_static :=
  match a with
  | NormalChar c => SNormalChar c
  | Dot => SCharClass
  | MatchingList l => SMatchingList l
  | NonmatchingList l => SNonmatchingList l
  end.
(** The variant name emitted for a class by [impl ToTokens for BracketCharClass], parse_tree.rs:727-768,
    and the variant names that exist, parse_tree.rs:626-651. *)
Definition class_token (k : cclass) : string :=
  match k with
  | Alphanumeric => "Alphanumeric" | Control => "Control" | Lower => "Lower" | Space => "Space"
  | Alphabet => "Alphabet" | Digit => "Digit" | Print_ => "Print" | Upper => "Upper" | Blank => "Blank"
  | Graphic => "Graph" | Punctuation => "Punctuation" | HexDigit => "XDigit"
  end%string.
Definition class_variants : list string :=
  ["Alphanumeric"; "Control"; "Lower"; "Space"; "Alphabet"; "Digit"; "Print"; "Upper"; "Blank"; "Graphic";
   "Punctuation"; "HexDigit"]%string.
Definition term_compiles (t : term) : bool :=
  match t with Class k => existsb (String.eqb (class_token k)) class_variants | _ => true end.
Definition atom_compiles (a : atom) : bool :=
  match a with MatchingList l | NonmatchingList l => forallb term_compiles l | _ => true end.
Definition nfa_compiles (n : nfa atom) : bool :=
  forallb (fun s => forallb (fun t => atom_compiles (snd t)) (trans s)) n.
(** [NFAStateStatic::serialize_as_token_stream], 125-144 *)
Definition static_state (s : state atom) : state atom_static :=
  mkState (map (fun t => (fst t, static_atom (snd t))) (trans s)) (eps s).
Definition static_nfa (n : nfa atom) : nfa atom_static := map static_state n.

(** [NFAStatic::test], 157-203.  The epsilon propagation 163-187 keeps the work stack as a list whose
    head is the top; [list[from]] is always true for a state on the stack but is tested by the code. *)
Fixpoint sp_edges (es : list (nat * epsk)) (from idx len : nat) (l : list bool) (st : list nat) : list bool * list nat :=
  match es with
  | [] => (l, st)
  | (to, k) :: r =>
      let ok := match k with EStart => idx =? 0 | EEnd => idx =? len | _ => true end in
      if nth from l false && negb (nth to l true) && ok
      then sp_edges r from idx len (upd to true l) (to :: st)
      else sp_edges r from idx len l st
  end.
Fixpoint sp_loop (fuel : nat) (n : nfa atom_static) (idx len : nat) (l : list bool) (st : list nat) : res (list bool) :=
  match st with
  | [] => Ok l
  | from :: st =>
      match fuel with
      | O => Fuel
      | S f => let '(l, st) := sp_edges (eps (get n from)) from idx len l st in sp_loop f n idx len l st
      end
  end.
Definition sp_propagate (n : nfa atom_static) (idx len : nat) (l : list bool) : res (list bool) :=
  sp_loop (S (length n)) n idx len l (rev (map fst (filter snd (enumerate l)))).
(** 190-199 *)
Definition sp_symbols (n : nfa atom_static) (l : list bool) (c : N) : list bool :=
  fold_left (fun new x =>
               if nth (fst x) l false
               then fold_left (fun new t => if nth (fst x) l false && static_check (snd t) c then upd (fst t) true new else new)
                              (trans (snd x)) new
               else new) (enumerate n) (repeat false (length n)).
(** 189-202, over [text.char_indices()] *)
Fixpoint static_loop (n : nfa atom_static) (len : nat) (l : list bool) (cs : list (nat * N)) : res (list bool) :=
  match cs with
  | [] => Ok l
  | (i, c) :: r => do l <- sp_propagate n i len l; static_loop n len (sp_symbols n l c) r
  end.
Fixpoint char_indices (i : nat) (text : list N) : list (nat * N) :=
  match text with [] => [] | c :: r => (i, c) :: char_indices (i + len_utf8 c) r end.
Definition static_test (n : nfa atom_static) (text : list N) : res bool :=
  do _ <- guard (wfb n && (1 <=? length n));
  do l <- static_loop n (blen text) (upd 0 true (repeat false (length n))) (char_indices 0 text);
  do l <- sp_propagate n (blen text) (blen text) l;
  Ok (last l false).
