(** The order of preference between the matches of a pattern.  Stated over the syntax tree alone: the ways
    in which a piece of syntax can match from a position are listed, the preferred ones first.  An
    alternative is preferred to the ones after it; a repetition prefers one more iteration to stopping,
    the other way round if it is lazy; in a sequence what comes first decides. *)
From Verif Require Export SpecCaret.
Open Scope nat_scope.
Open Scope list_scope.

(** ** Ways to get from a position to a later one, with a record of what happened *)
Section Ways.
  Context {X : Type}.
  Definition ways := list (nat * list X).
  (** First one of [l], then one of what follows from there. *)
  Definition then_ (l : ways) (f : nat -> ways) : ways :=
    flat_map (fun p => map (fun q => (fst q, snd p ++ snd q)) (f (fst p))) l.
  (** Exactly [n] times. *)
  Fixpoint times (w : nat -> ways) (n : nat) (i : nat) : ways :=
    match n with
    | O => [(i, [])]
    | S n' => then_ (w i) (times w n')
    end.
  (** At most [n] times. *)
  Fixpoint up_to (w : nat -> ways) (lazy : bool) (n : nat) (i : nat) : ways :=
    match n with
    | O => [(i, [])]
    | S n' => let more := then_ (w i) (up_to w lazy n') in
              if lazy then (i, []) :: more else more ++ [(i, [])]
    end.
End Ways.
Arguments ways : clear implicits.

Section Order.
  (** Which characters an atom has, and the text. *)
  Variable has : atom -> N -> bool.
  Variable T : list N.

  (** A loop never takes more iterations than there are characters: its body reads at least one, see
      [loops_read]. *)
  Definition quant_ways {X} (w : nat -> ways X) (q : quant) (i : nat) : ways X :=
    let lazy := q_alt q in
    match q_type q with
    | QStar => up_to w lazy (length T) i
    | QPlus => then_ (w i) (up_to w lazy (length T))
    | QQuestion => up_to w lazy 1 i
    | QMultiple n => times w (N.to_nat n) i
    | QRange n None => then_ (times w (N.to_nat n) i) (up_to w lazy (length T))
    | QRange n (Some m) => if (m <? n)%N then [] else then_ (times w (N.to_nat n) i) (up_to w lazy (N.to_nat (m - n)))
    end.

  (** [w_part p g i]: the ways in which [p], whose first group is [g], matches from [i]. *)
  Fixpoint w_part (p : part) (g i : nat) : ways (nat * (nat * nat)) :=
    match p with
    | PSingle e => w_expr e g i
    | PQuant e q => quant_ways (w_expr e g) q i
    | PStart => if i =? 0 then [(i, [])] else []
    | PEnd => if i =? length T then [(i, [])] else []
    end
  with w_expr (e : expr) (g i : nat) : ways (nat * (nat * nat)) :=
    match e with
    | XAtom a => match nth_error T i with
                 | Some c => if has a c then [(S i, [])] else []
                 | None => []
                 end
    | XSub bs =>
        map (fun p => (fst p, snd p ++ [(g, (i, fst p))]))
          ((fix alts (bs : list (list part)) (g : nat) : ways (nat * (nat * nat)) :=
              match bs with
              | [] => []
              | b :: bs' =>
                  (fix branch (b : list part) (g i : nat) : ways (nat * (nat * nat)) :=
                     match b with
                     | [] => [(i, [])]
                     | p :: b' => then_ (w_part p g i) (branch b' (g + groups_part p))
                     end) b g i
                  ++ alts bs' (g + list_sum (map groups_part b))
              end) bs (S g))
    end.
  Fixpoint w_branch (b : branch) (g i : nat) : ways (nat * (nat * nat)) :=
    match b with
    | [] => [(i, [])]
    | p :: b' => then_ (w_part p g i) (w_branch b' (g + groups_part p))
    end.
  Fixpoint w_alts (bs : ere) (g i : nat) : ways (nat * (nat * nat)) :=
    match bs with
    | [] => []
    | b :: bs' => w_branch b g i ++ w_alts bs' (g + groups_branch b) i
    end.

  (** All matches in the text, the preferred one first: an earlier start is preferred to everything. *)
  Definition all_matches (e : ere) : list (nat * nat * log) :=
    flat_map (fun i => map (fun p => (i, fst p, snd p ++ [(0, (i, fst p))])) (w_alts e 1 i)) (seq 0 (S (length T))).
End Order.

(** ** Patterns in which the body of every unbounded repetition reads a character *)
Definition unbounded (q : qtype) : bool := match q with QStar | QPlus | QRange _ None => true | _ => false end.
Fixpoint loops_part (p : part) : bool :=
  match p with
  | PSingle e => loops_expr e
  | PQuant e q => (negb (unbounded (q_type q)) || consumes_expr e) && loops_expr e
  | PStart | PEnd => true
  end
with loops_expr (e : expr) : bool :=
  match e with
  | XAtom _ => true
  | XSub bs => forallb (fun b => forallb loops_part b) bs
  end.
Definition loops_read (e : ere) : bool := forallb (fun b => forallb loops_part b) e.

(** ** The number of [$] passed, when every way through passes the same number *)
Fixpoint dollars_part (p : part) : option nat :=
  match p with
  | PSingle e => dollars_expr e
  | PQuant e _ => match dollars_expr e with Some 0 => Some 0 | _ => None end
  | PStart => Some 0
  | PEnd => Some 1
  end
with dollars_expr (e : expr) : option nat :=
  match e with
  | XAtom _ => Some 0
  | XSub bs => common (map (fun b => total (map dollars_part b)) bs)
  end.
Definition dollars_branch (b : branch) : option nat := total (map dollars_part b).
Definition dollars (e : ere) : option nat := common (map dollars_branch e).
