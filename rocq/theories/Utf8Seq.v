(** Byte-range sequences of a range of scalar values.  Models the iterator
    [utf8_ranges::Utf8Sequences] of the external crate utf8-ranges 1.0.5 (src/lib.rs), which
    [U8NFA::nfa_symbol] (working_u8_nfa.rs:183) iterates.  The crate's source is not in /repo; this is
    its algorithm as published. *)
From Verif Require Export Base Ast.
Open Scope N_scope.
Open Scope list_scope.

(** [max_scalar_value(1|2|3)] *)
Definition length_bounds : list N := [0x7F; 0x7FF; 0xFFFF].
(** [m = (1 << (6*i)) - 1] for i = 1, 2, 3 *)
Definition block_masks : list N := [0x3F; 0xFFF; 0x3FFFF].

(** [r.start & m] and [r.start & !m], for [m + 1] a power of two. *)
Definition low (m x : N) : N := x mod (m + 1).
Definition high (m x : N) : N := x - x mod (m + 1).

(** A split of the current range: the part to continue with and the part pushed on the stack. *)
Definition length_split (s e : N) : option (range * range) :=
  match find (fun b => (s <=? b) && (b <? e)) length_bounds with
  | Some b => Some ((s, b), (b + 1, e))
  | None => None
  end.
Fixpoint block_split (ms : list N) (s e : N) : option (range * range) :=
  match ms with
  | [] => None
  | m :: ms' =>
      if high m s =? high m e then block_split ms' s e
      else if negb (low m s =? 0) then Some ((s, high m s + m), (high m s + m + 1, e))
      else if negb (low m e =? m) then Some ((s, high m e - 1), (high m e, e))
      else block_split ms' s e
  end.
(** The explicit stack of the crate is replaced by recursion: the current part is always finished
    before the pushed one, so the sequences come out in the same order. *)
Fixpoint utf8_seqs (fuel : nat) (s e : N) : res (list (list range)) :=
  match fuel with
  | O => Fuel
  | S f =>
      let both p := do a <- utf8_seqs f (fst (fst p)) (snd (fst p));
                    do b <- utf8_seqs f (fst (snd p)) (snd (snd p));
                    Ok (a ++ b) in
      if (s <? 0xE000) && (0xD7FF <? e) then both ((s, 0xD7FF), (0xE000, e))
      else if e <? s then Ok []
      else match length_split s e with
           | Some p => both p
           | None =>
               if e <=? 0x7F then Ok [[(s, e)]]
               else match block_split block_masks s e with
                    | Some p => both p
                    | None => Ok [combine (encode s) (encode e)]
                    end
           end
  end.
Definition utf8_fuel : nat := 40.
Definition utf8_sequences (r : range) : res (list (list range)) := utf8_seqs utf8_fuel (fst r) (snd r).
