(** The length bounds of [simplified_tree.rs] in machine integers: [w] is one more than the largest [usize], and an operation that
    does not fit panics, as it does with overflow checks (the default for macros in a debug build).  [Tree.v] has the same functions
    over unbounded numbers. *)
From Verif Require Export Tree.
Open Scope N_scope.
Open Scope list_scope.

Definition fits (w n : N) : res N := if n <? w then Ok n else Panic.

Section Width.
  Variable w : N.
  (** [Iterator::sum] into [Option<usize>] and into [usize], as at simplified_tree.rs:124-126 and 152-154: from the left; the former
      stops at the first [None]. *)
  Section Sums.
    Context {A : Type}.
    Variable f : A -> res (option N).
    Fixpoint sum_opt (acc : N) (l : list A) : res (option N) :=
      match l with
      | [] => Ok (Some acc)
      | t :: r => do x <- f t; match x with None => Ok None | Some y => do a <- fits w (acc + y); sum_opt a r end
      end.
    Variable g : A -> res N.
    Fixpoint sum_all (acc : N) (l : list A) : res N :=
      match l with
      | [] => Ok acc
      | t :: r => do x <- g t; do a <- fits w (acc + x); sum_all a r
      end.
    (** The elements of an [Iterator::map] that is used up. *)
    Context {B : Type}.
    Variable h : A -> res B.
    Fixpoint each (l : list A) : res (list B) :=
      match l with [] => Ok [] | t :: r => do x <- h t; do xs <- each r; Ok (x :: xs) end.
  End Sums.
  (** The closure at simplified_tree.rs:121. *)
  Definition max_opt (a b : option N) : option N := match a, b with Some x, Some y => Some (N.max x y) | _, _ => None end.
  (** [max_bytes], simplified_tree.rs:110-134. *)
  Fixpoint max_bytes_w (t : tree) : res (option N) :=
    match t with
    | TEmpty | TStart | TEnd | TNever => Ok (Some 0)
    | TSymbol a => Ok (match rev (to_ranges a) with [] => None | r :: _ => Some (N.of_nat (len_utf8 (snd r))) end)
    | TUnion l => do xs <- each max_bytes_w l; Ok (match xs with [] => Some 0 | x :: r => fold_left max_opt r x end)
    | TCapture t _ => max_bytes_w t
    | TConcat l => sum_opt max_bytes_w 0 l
    | TRepeat t n | TUpTo t n _ =>
        do x <- max_bytes_w t;
        match x with None => Ok None | Some y => do z <- fits w (y * N.of_nat n); Ok (Some z) end
    | TStar _ _ => Ok None
    end.
  (** [min_bytes], simplified_tree.rs:137-162. *)
  Fixpoint min_bytes_w (t : tree) : res N :=
    match t with
    | TEmpty | TStart | TEnd | TNever | TStar _ _ => Ok 0
    | TSymbol a => Ok (match to_ranges a with [] => 0 | r :: _ => N.of_nat (len_utf8 (fst r)) end)
    | TUnion l => do xs <- each min_bytes_w l; Ok (match xs with [] => 0 | x :: r => fold_left N.min r x end)
    | TCapture t _ => min_bytes_w t
    | TConcat l => sum_all min_bytes_w 0 l
    | TRepeat t n | TUpTo t n _ => do x <- min_bytes_w t; fits w (x * N.of_nat n)
    end.
End Width.
