(** The lockstep NFA engines.  Models the code generated by
    [ere-core/src/engines/flat_lockstep_nfa_u8.rs] (over bytes) and
    [ere-core/src/engines/flat_lockstep_nfa.rs] (over chars), which differ only in the symbol type and in
    the width of a symbol ([i + 1] vs. [i + c.len_utf8()]).  Line numbers are those of
    flat_lockstep_nfa_u8.rs.
    What is modelled is the behaviour of the generated [test]/[exec] functions, obtained by reading the
    [quote!] templates as code; token streams themselves are not modelled. *)
From Verif Require Export U8Nfa EpsProp.
Open Scope nat_scope.
Open Scope list_scope.

Section Flat.
  Context {A C : Type}.
  Variable check : A -> C -> bool.
  Variable width : C -> nat.

  (** [compute_excluded_states], 76-88 *)
  Definition flat_excluded (n : nfa A) : list bool :=
    fold_left (fun out '(from, s) =>
                 fold_left (fun out t => upd (fst t) false (upd from false out)) (trans s) out)
              (enumerate n)
              (upd (length n - 1) false (upd 0 false (repeat true (length n)))).

  (** Which propagated threads are retained, 263-265 / 517-519 *)
  Definition retained (n : nfa A) (p : eprop) : bool :=
    match trans (get n (ep_state p)) with [] => ep_state p + 1 =? length n | _ => true end.

  (** The match arms for epsilon transitions, 257-274 / 511-528; excluded states have none. *)
  Definition flat_table (n : nfa A) : res (list (list eprop)) :=
    mapM (fun p : nat * bool => if snd p then Ok []
                   else do l <- eps_props n (fst p); Ok (filter (retained n) l))
         (enumerate (flat_excluded n)).

  (** Order in which the propagations of one state run, 200-230 / 452-481 *)
  Definition ordered (is_start is_end : bool) (l : list eprop) : list eprop :=
    (if is_start && is_end then filter (fun p => ep_start p && ep_end p) l else [])
    ++ (if is_start then filter (fun p => ep_start p && negb (ep_end p)) l else [])
    ++ (if is_end then filter (fun p => negb (ep_start p) && ep_end p) l else [])
    ++ filter (fun p => negb (ep_start p) && negb (ep_end p)) l.

  (** ** test *)
  (** [transition_epsilons_test], 276-286: in place *)
  Definition flat_eps_test (tbl : list (list eprop)) (idx len : nat) (l : list bool) : list bool :=
    fold_left (fun l '(i, ps) =>
                 if nth i l false
                 then fold_left (fun l p => upd (ep_state p) true l) (ordered (idx =? 0) (idx =? len) ps) l
                 else l)
              (enumerate tbl) l.
  (** [transition_symbols_test], 149-175.  Excluded states have no transitions. *)
  Definition flat_sym_test (n : nfa A) (l : list bool) (c : C) : list bool :=
    step_symbols check n l c.
  (** The loop of [test], 328-338 *)
  Fixpoint flat_test_loop (n : nfa A) (tbl : list (list eprop)) (len idx : nat) (l : list bool) (text : list C) : bool :=
    match text with
    | [] => nth (length n - 1) l false
    | c :: text' =>
        let new := flat_sym_test n l c in
        if forallb negb new then false
        else let idx := idx + width c in
             flat_test_loop n tbl len idx (flat_eps_test tbl idx len new) text'
    end.
  Definition flat_run_test (n : nfa A) (tbl : list (list eprop)) (text : list C) : bool :=
    let len := total_width width text in
    flat_test_loop n tbl len 0 (flat_eps_test tbl 0 len (upd 0 true (repeat false (length n)))) text.

  (** ** exec *)
  Definition thread := (nat * bounds)%type.
  (** [transition_epsilons_exec], 530-546 and [serialize_thread_update_exec], 641-664 *)
  Definition flat_push (idx : nat) (b : bounds) (acc : list bool * list thread) (p : eprop) : list bool * list thread :=
    let '(occ, out) := acc in
    if nth (ep_state p) occ false then acc
    else (upd (ep_state p) true occ, out ++ [(ep_state p, apply_tags idx (ep_tags p) b)]).
  Definition flat_eps_exec (n : nfa A) (tbl : list (list eprop)) (idx len : nat) (ths : list thread) : list thread :=
    snd (fold_left (fun acc th =>
                      fold_left (flat_push idx (snd th)) (ordered (idx =? 0) (idx =? len) (nth (fst th) tbl [])) acc)
                   ths (repeat false (length n), [])).
  (** [transition_symbols_exec], 397-427 *)
  Definition flat_sym_exec (n : nfa A) (ths : list thread) (c : C) : list thread :=
    flat_map (fun th => map (fun t => (fst t, snd th)) (filter (fun t => check (snd t) c) (trans (get n (fst th))))) ths.
  (** 594-605 *)
  Fixpoint flat_exec_loop (n : nfa A) (tbl : list (list eprop)) (len idx : nat) (ths : list thread) (text : list C) : list thread :=
    match text with
    | [] => ths
    | c :: text' =>
        let idx := idx + width c in
        match flat_eps_exec n tbl idx len (flat_sym_exec n ths c) with
        | [] => []
        | ths' => flat_exec_loop n tbl len idx ths' text'
        end
    end.
  (** 584-610: the final capture bounds *)
  Definition flat_run_exec (n : nfa A) (tbl : list (list eprop)) (text : list C) : option bounds :=
    let len := total_width width text in
    let ths := flat_exec_loop n tbl len 0 (flat_eps_exec n tbl 0 len [(0, no_bounds (num_capture_groups n))]) text in
    option_map snd (find (fun th => fst th + 1 =? length n) ths).

  (** Constructing the engine: [out[0]], [out[t.to]] and [out[len-1]] must be in range, and a capture
      index beyond the [captures] array is rejected at compile time. *)
  Definition tags_in_range (g : nat) (l : list eprop) : bool :=
    forallb (fun p => forallb (fun t => tag_group t <? g) (ep_tags p)) l.
  Definition flat_make (n : nfa A) : res (list (list eprop)) :=
    do _ <- guard (wfb n && (1 <=? length n));
    do tbl <- flat_table n;
    if forallb (tags_in_range (num_capture_groups n)) tbl then Ok tbl else NoCompile.
End Flat.

(** [exec] on the original text: the bounds are turned into substrings. *)
Definition run_finish (text : list N) (b : option bounds) : res (option (list (option span))) :=
  match b with
  | None => Ok None
  | Some b => do r <- finish text b; Ok (Some r)
  end.

(** The engine [flat_lockstep_nfa_u8] *)
Definition flat_u8_test (n : nfa range) (text : list N) : res bool :=
  do tbl <- flat_make n; Ok (flat_run_test byte_check (fun _ => 1) n tbl (utf8 text)).
Definition flat_u8_exec (n : nfa range) (text : list N) : res (option (list (option span))) :=
  do tbl <- flat_make n; run_finish text (flat_run_exec byte_check (fun _ => 1) n tbl (utf8 text)).
(** The engine [flat_lockstep_nfa].  [AtomStatic::check] (nfa_static) is [Atom::check] on the serialized
    atom; see [AtomStatic]. *)
Definition flat_char_test (n : nfa atom) (text : list N) : res bool :=
  do tbl <- flat_make n; Ok (flat_run_test atom_check len_utf8 n tbl text).
Definition flat_char_exec (n : nfa atom) (text : list N) : res (option (list (option span))) :=
  do tbl <- flat_make n; run_finish text (flat_run_exec atom_check len_utf8 n tbl text).
