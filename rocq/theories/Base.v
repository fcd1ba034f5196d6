(** Results of modelled code and small list utilities. *)
From Verif Require Export Chars.
Open Scope nat_scope.
Open Scope list_scope.

(** Outcome of a piece of modelled code.
    - [Ok a]       it returns [a];
    - [Panic]      it panics (index out of range, arithmetic underflow, failed assertion);
    - [NoCompile]  the code it generates is rejected by rustc;
    - [Fuel]       the model's recursion bound ran out (never a legitimate outcome; the proofs show
                   it does not happen). *)
Inductive res (A : Type) := Ok (a : A) | Panic | NoCompile | Fuel.
Arguments Ok {A} a.
Arguments Panic {A}.
Arguments NoCompile {A}.
Arguments Fuel {A}.

Definition bind {A B} (r : res A) (f : A -> res B) : res B :=
  match r with Ok a => f a | Panic => Panic | NoCompile => NoCompile | Fuel => Fuel end.
Notation "'do' x <- r ; k" := (bind r (fun x => k)) (at level 200, x name, r at level 100, k at level 200).

Definition guard (b : bool) : res unit := if b then Ok tt else Panic.

Fixpoint foldM {A B} (f : B -> A -> res B) (l : list A) (b : B) : res B :=
  match l with [] => Ok b | a :: r => do b' <- f b a; foldM f r b' end.
Fixpoint mapM {A B} (f : A -> res B) (l : list A) : res (list B) :=
  match l with [] => Ok [] | a :: r => do b <- f a; do bs <- mapM f r; Ok (b :: bs) end.

(** [v[i] = x] (no effect out of range; every use is guarded). *)
Fixpoint upd {A} (i : nat) (x : A) (l : list A) : list A :=
  match l, i with
  | [], _ => []
  | _ :: r, O => x :: r
  | y :: r, S i' => y :: upd i' x r
  end.
(** [f(&mut v[i])] *)
Fixpoint modify {A} (i : nat) (f : A -> A) (l : list A) : list A :=
  match l, i with
  | [], _ => []
  | y :: r, O => f y :: r
  | y :: r, S i' => y :: modify i' f r
  end.
(** [f(v.last_mut().unwrap())] *)
Fixpoint modify_last {A} (f : A -> A) (l : list A) : list A :=
  match l with
  | [] => []
  | [x] => [f x]
  | x :: r => x :: modify_last f r
  end.

Definition enumerate {A} (l : list A) : list (nat * A) := combine (seq 0 (length l)) l.

Fixpoint index_of {A} (p : A -> bool) (l : list A) : option nat :=
  match l with
  | [] => None
  | x :: r => if p x then Some O else option_map S (index_of p r)
  end.

Fixpoint list_eqb {A} (eqb : A -> A -> bool) (l m : list A) : bool :=
  match l, m with
  | [], [] => true
  | x :: l', y :: m' => eqb x y && list_eqb eqb l' m'
  | _, _ => false
  end.

(** Keeps the first element of each equivalence class. *)
Fixpoint dedup_by {A} (eqb : A -> A -> bool) (seen l : list A) : list A :=
  match l with
  | [] => []
  | x :: r => if existsb (eqb x) seen then dedup_by eqb seen r
              else x :: dedup_by eqb (x :: seen) r
  end.

(** A generic depth-first search with an explicit stack (head of the list = top), the loop
    [while let Some(s) = stack.pop() { for t in succ(s) { if !seen[t] { seen[t] = true; stack.push(t) } } }]
    which occurs many times in the source.  An out-of-range target is ignored; every caller guards
    that targets are in range. *)
Definition visit (acc : list bool * list nat) (t : nat) : list bool * list nat :=
  let '(seen, st) := acc in
  if nth t seen true then acc else (upd t true seen, t :: st).
Fixpoint dfs (fuel : nat) (succ : nat -> list nat) (seen : list bool) (stack : list nat) : res (list bool) :=
  match stack with
  | [] => Ok seen
  | s :: st =>
      match fuel with
      | O => Fuel
      | S fuel' => let '(seen', st') := fold_left visit (succ s) (seen, st) in dfs fuel' succ seen' st'
      end
  end.
(** Search from the single state [s] among [n] states. *)
Definition reach_from (n : nat) (succ : nat -> list nat) (s : nat) : res (list bool) :=
  dfs (S n) succ (upd s true (repeat false n)) [s].

(** Runs [step] at most [2^k] times, stopping as soon as it produces a result. *)
Fixpoint pow_iter {S R} (k : nat) (step : S -> S + R) (x : S + R) : S + R :=
  match x with
  | inr _ => x
  | inl s => match k with
             | O => step s
             | Datatypes.S k' => pow_iter k' step (pow_iter k' step x)
             end
  end.

(** Insertion sort w.r.t. a total preorder: [slice::sort]. *)
Fixpoint insert_le {A} (le : A -> A -> bool) (x : A) (l : list A) : list A :=
  match l with
  | [] => [x]
  | y :: r => if le x y then x :: l else y :: insert_le le x r
  end.
Definition sort_le {A} (le : A -> A -> bool) (l : list A) : list A := fold_right (insert_le le) [] l.

(** ** Text positions *)
(** [text.len()] in bytes. *)
Definition blen (s : list N) : nat := fold_right (fun c n => len_utf8 c + n) 0 s.
(** [str::is_char_boundary] *)
Fixpoint is_boundary (s : list N) (i : nat) : bool :=
  match i with
  | O => true
  | _ => match s with
         | [] => false
         | c :: r => (len_utf8 c <=? i) && is_boundary r (i - len_utf8 c)
         end
  end.
(** [text.get(s..e).is_some()] *)
Definition str_get_ok (text : list N) (s e : nat) : bool :=
  (s <=? e) && is_boundary text s && is_boundary text e.

(** A captured group is reported as the byte range of the returned [&str] inside [text]. *)
Definition span := (nat * nat)%type.
(** Capture bounds while running; [None] is [usize::MAX]. *)
Definition bounds := list (option nat * option nat).
Definition no_bounds (g : nat) : bounds := repeat (None, None) g.
Definition set_start (k i : nat) (b : bounds) : bounds := modify k (fun p => (Some i, snd p)) b.
Definition set_end (k i : nat) (b : bounds) : bounds := modify k (fun p => (fst p, Some i)) b.

(** The end of every [exec] (e.g. flat_lockstep_nfa_u8.rs:611-622): bounds to substrings, with the
    assertions.  [text.get(start..end)] returning [None] fails the [assert!]. *)
Definition finish_one (text : list N) (p : option nat * option nat) : res (option span) :=
  match p with
  | (None, None) => Ok None
  | (Some s, Some e) => if str_get_ok text s e then Ok (Some (s, e)) else Panic
  | _ => Panic
  end.
Definition finish (text : list N) (b : bounds) : res (list (option span)) := mapM (finish_one text) b.
