(** Capture groups at fixed offsets.  Models [ere-core/src/engines/fixed_offset.rs]. *)
From Verif Require Export U8Nfa EpsProp Flat.
Open Scope nat_scope.
Open Scope list_scope.

Definition opt_nat_eqb (a b : option nat) : bool :=
  match a, b with Some x, Some y => x =? y | None, None => true | _, _ => false end.
Definition bound_eqb (a b : option nat * option nat) : bool :=
  opt_nat_eqb (fst a) (fst b) && opt_nat_eqb (snd a) (snd b).
Definition bounds_eqb : bounds -> bounds -> bool := list_eqb bound_eqb.

(** Effect of an epsilon transition on the offsets, fixed_offset.rs:56-68 *)
Definition fo_eps (off : nat) (k : epsk) (b : bounds) : bounds :=
  match k with ESC g => set_start g off b | EEC g => set_end g off b | _ => b end.
(** The loop 36-70.  The explicit stack is written as a recursion; the order in which paths are
    enumerated differs from the source, which only asks whether all accepting paths agree.
    [fuel] bounds the length of a path; the graph is acyclic when this is called. *)
Fixpoint fo_paths (fuel : nat) (n : nfa range) (s off : nat) (b : bounds) : res (list bounds) :=
  match fuel with
  | O => Fuel
  | S f =>
      let here := if s + 1 =? length n then [b] else [] in
      do ts <- mapM (fun t => fo_paths f n (fst t) (off + 1) b) (trans (get n s));
      do es <- mapM (fun e => fo_paths f n (fst e) off (fo_eps off (snd e) b)) (eps (get n s));
      Ok (here ++ concat ts ++ concat es)
  end.
(** One iteration of the loop 36-70 as it is written, with its stack (head = top) and [final_capture_groups]; [inr] is the value
    returned.  [PSteps.v] shows that the loop ends with the value of [fixed_offsets]. *)
Definition fo_conf := (list (nat * nat * bounds) * option bounds)%type.
Definition fo_iter (n : nfa range) (c : fo_conf) : fo_conf + option bounds :=
  let '(stack, final) := c in
  match stack with
  | [] => inr final
  | (s, off, b) :: st =>
      let push final :=
        inl (rev (map (fun t => (fst t, off + 1, b)) (trans (get n s))
                  ++ map (fun e => (fst e, off, fo_eps off (snd e) b)) (eps (get n s))) ++ st, final) in
      if s + 1 =? length n
      then match final with
           | None => push (Some b)
           | Some f => if bounds_eqb f b then push final else inr None
           end
      else push final
  end.
(** What the loop starts with, 27-33. *)
Definition fo_init (n : nfa range) : fo_conf := ([(0, 0, no_bounds (num_capture_groups n))], None).

(** [get_fixed_offsets], 21-72.  A capture index out of range panics. *)
Definition fo_tags_ok (n : nfa range) : bool :=
  forallb (fun s => forallb (fun e => match snd e with ESC k | EEC k => k <? num_capture_groups n | _ => true end) (eps s)) n.
Definition fixed_offsets (n : nfa range) : res (option bounds) :=
  do o <- topological_ordering n;
  match o with
  | None => Ok None
  | Some _ =>
      do _ <- guard (fo_tags_ok n);
      do ps <- fo_paths (length n) n 0 0 (no_bounds (num_capture_groups n));
      match ps with
      | [] => Ok None
      | p :: r => Ok (if forallb (bounds_eqb p) r then Some p else None)
      end
  end.

(** One group of the generated [exec], 81-86: [&text[start..end]] panics off character boundaries. *)
Definition fo_slice (text : list N) (p : option nat * option nat) : res (option span) :=
  match p with
  | (Some s, Some e) => if str_get_ok text s e then Ok (Some (s, e)) else Panic
  | _ => Ok None
  end.
(** The generated [exec], 88-100, given the result of the inner [test]. *)
Definition fo_exec (offs : bounds) (matched : bool) (text : list N) : res (option (list (option span))) :=
  if matched then do l <- mapM (fo_slice text) offs; Ok (Some l) else Ok None.
