(** Nondeterministic automata.  Models [ere-core/src/working_nfa.rs] and the parts of
    [ere-core/src/working_u8_nfa.rs] which are the same code over a different symbol type: the
    definitions are parametric in the symbol type [A] of transitions.
    Line numbers are those of working_nfa.rs; the byte version's are given as "u8:". *)
From Verif Require Export Base Tree.
Open Scope nat_scope.
Open Scope list_scope.

(** [EpsilonType], working_nfa.rs:7-14. *)
Inductive epsk := ENone | EStart | EEnd | ESC (k : nat) | EEC (k : nat).
Definition epsk_eqb (a b : epsk) : bool :=
  match a, b with
  | ENone, ENone | EStart, EStart | EEnd, EEnd => true
  | ESC k, ESC l | EEC k, EEC l => k =? l
  | _, _ => false
  end.

(** [WorkingState]/[U8State]: symbol transitions and epsilon transitions, working_nfa.rs:126-129,
    u8:80-83. *)
Record state (A : Type) := mkState { trans : list (nat * A); eps : list (nat * epsk) }.
Arguments mkState {A}.
Arguments trans {A}.
Arguments eps {A}.
(** [WorkingNFA]/[U8NFA]: start state 0, accept state [len - 1]; 184-188, u8:150-152. *)
Definition nfa (A : Type) := list (state A).

Definition eps_eqb (x y : nat * epsk) : bool := (fst x =? fst y) && epsk_eqb (snd x) (snd y).

Section Generic.
  Context {A : Type}.
  Variable eqA : A -> A -> bool.

  Definition empty_state : state A := mkState [] [].
  (** [add_offset]/[with_offset], 149-170, u8:104-140 *)
  Definition shift (k : nat) (s : state A) : state A :=
    mkState (map (fun t => (fst t + k, snd t)) (trans s)) (map (fun e => (fst e + k, snd e)) (eps s)).
  Definition push_eps (e : nat * epsk) (s : state A) : state A := mkState (trans s) (eps s ++ [e]).

  Definition sumlen (l : list (nfa A)) : nat := fold_right (fun n m => length n + m) 0 l.

  (** 191-194 *)
  Definition nfa_empty : nfa A := [empty_state].
  (** 196-202; u8 [nfa_byte] 160-163 *)
  Definition nfa_symbol1 (a : A) : nfa A := [mkState [(1, a)] []; empty_state].
  (** 204-227 *)
  Definition nfa_union (nodes : list (nfa A)) : nfa A :=
    let states_count := 2 + sumlen nodes in
    fold_left (fun states n =>
                 let k := length states in
                 let states := modify 0 (push_eps (k, ENone)) states in
                 let states := states ++ map (shift k) n in
                 modify_last (push_eps (states_count - 1, ENone)) states)
              nodes [empty_state] ++ [empty_state].
  (** 233-248 *)
  Definition nfa_capture (n : nfa A) (k : nat) : nfa A :=
    let states_count := 2 + length n in
    modify (states_count - 2) (push_eps (states_count - 1, EEC k))
           ([mkState [] [(1, ESC k)]] ++ map (shift 1) n ++ [empty_state]).
  (** 254-274, u8:267-287 *)
  Definition nfa_concat (nodes : list (nfa A)) : nfa A :=
    fold_left (fun states n =>
                 let states := states ++ map (shift (length states)) n in
                 modify_last (push_eps (length states, ENone)) states)
              nodes [mkState [] [(1, ENone)]] ++ [empty_state].
  (** 279-281 *)
  Definition nfa_repeat (n : nfa A) (times : nat) : nfa A := nfa_concat (repeat n times).
  (** 287-334 *)
  Definition nfa_upto (n : nfa A) (times : nat) (longest : bool) : nfa A :=
    let end_idx := 1 + (length n + 1) * times in
    let state0 := mkState [] (if longest then [(1, ENone); (end_idx - 1, ENone)]
                              else [(end_idx - 1, ENone); (1, ENone)]) in
    fold_left (fun states i =>
                 let states := states ++ map (shift (length states)) n in
                 let states := modify_last (push_eps (length states, ENone)) states in
                 let tr := if i + 1 =? times then []
                           else if longest then [(length states + 1, ENone); (end_idx - 1, ENone)]
                           else [(end_idx - 1, ENone); (length states + 1, ENone)] in
                 states ++ [mkState [] tr])
              (seq 0 times) [state0].
  (** 340-362 *)
  Definition nfa_star (n : nfa A) (longest : bool) : nfa A :=
    let end_idx := 1 + length n in
    let s := mkState [] (if longest then [(1, ENone); (end_idx, ENone)] else [(end_idx, ENone); (1, ENone)]) in
    modify (end_idx - 1) (push_eps (0, ENone)) ([s] ++ map (shift 1) n ++ [empty_state]).
  (** 368-387 *)
  Definition nfa_start : nfa A := [mkState [] [(1, EStart)]; empty_state].
  Definition nfa_end : nfa A := [mkState [] [(1, EEnd)]; empty_state].
  Definition nfa_never : nfa A := [empty_state; empty_state].

  (** ** Graph searches *)

  (** Every target is in range: where this fails an indexing expression of the code panics, so the
      pipeline functions below guard on it. *)
  Definition wfb (n : nfa A) : bool :=
    forallb (fun s => forallb (fun t => fst t <? length n) (trans s)
                      && forallb (fun e => fst e <? length n) (eps s)) n.

  Definition get (n : nfa A) (s : nat) : state A := nth s n empty_state.

  Definition succ_eps (n : nfa A) (p : epsk -> bool) (s : nat) : list nat :=
    map fst (filter (fun e => p (snd e)) (eps (get n s))).
  Definition succ_trans (n : nfa A) (s : nat) : list nat := map fst (trans (get n s)).
  (** Predecessors, i.e. the vectors [reverse]/[reverse_epsilons] built at 490-495, 537-547, 804-812. *)
  Definition pred_eps (n : nfa A) (p : epsk -> bool) (t : nat) : list nat :=
    flat_map (fun '(i, s) => map (fun _ => i) (filter (fun e => (fst e =? t) && p (snd e)) (eps s))) (enumerate n).
  Definition pred_all (n : nfa A) (p : epsk -> bool) (t : nat) : list nat :=
    flat_map (fun '(i, s) =>
                map (fun _ => i) (filter (fun e => (fst e =? t) && p (snd e)) (eps s))
                ++ map (fun _ => i) (filter (fun tr => fst tr =? t) (trans s))) (enumerate n).

  Definition any_eps (e : epsk) : bool := true.
  Definition not_start (e : epsk) : bool := negb (epsk_eqb e EStart).
  Definition not_end (e : epsk) : bool := negb (epsk_eqb e EEnd).

  (** 464-482 *)
  Definition clean_start_anchors (n : nfa A) : res (nfa A) :=
    do r <- reach_from (length n) (succ_eps n any_eps) 0;
    Ok (map (fun '(i, s) => mkState (trans s)
                              (filter (fun e => not_start (snd e) || nth i r false) (eps s)))
            (enumerate n)).
  (** 486-512 *)
  Definition clean_end_anchors (n : nfa A) : res (nfa A) :=
    do r <- reach_from (length n) (pred_eps n any_eps) (length n - 1);
    Ok (map (fun s => mkState (trans s)
                        (filter (fun e => not_end (snd e) || nth (fst e) r false) (eps s))) n).
  (** 514-534, u8:480-500; [true] = only visited after a [$]. *)
  Definition nodes_after_end (n : nfa A) : res (list bool) :=
    do r <- reach_from (length n) (fun s => succ_eps n not_end s ++ succ_trans n s) 0;
    Ok (map negb r).
  (** 536-562, u8:502-528; [true] = only visited before a [^]. *)
  Definition nodes_before_start (n : nfa A) : res (list bool) :=
    do r <- reach_from (length n) (pred_all n not_start) (length n - 1);
    Ok (map negb r).
  (** 442-450, u8:464-472 *)
  Definition zero_symbols (n : nfa A) : res (nfa A) :=
    do a <- nodes_after_end n;
    do b <- nodes_before_start n;
    Ok (map (fun '(i, s) => if nth i a false || nth i b false then mkState [] (eps s) else s) (enumerate n)).

  (** 567-597, u8:533-563.  [usize::MAX] as the image of a dead state is modelled by the (equally
      invalid) index [length n]. *)
  Fixpoint state_map (k : nat) (dead : list bool) : list (option nat) :=
    match dead with
    | [] => []
    | true :: r => None :: state_map k r
    | false :: r => Some k :: state_map (S k) r
    end.
  Definition remap (m : list (option nat)) (bad t : nat) : nat :=
    match nth t m None with Some x => x | None => bad end.
  Definition map_targets (f : nat -> nat) (s : state A) : state A :=
    mkState (map (fun t => (f (fst t), snd t)) (trans s)) (map (fun e => (f (fst e), snd e)) (eps s)).
  Definition remove_dead_states (dead : list bool) (n : nfa A) : nfa A :=
    let m := state_map 0 dead in
    map (map_targets (remap m (length n)))
        (map snd (filter (fun p => negb (fst p)) (combine dead n))).

  (** 608-650, u8:574-616.  For symbol transitions the source tests
      [transitions[..=i].contains(e)], which is always true, so nothing is removed there. *)
  Definition dedupe_state (s : state A) : state A := mkState (trans s) (dedup_by eps_eqb [] (eps s)).
  Definition dedupe (n : nfa A) : nfa A * bool :=
    (map dedupe_state n,
     existsb (fun s => negb (length (eps (dedupe_state s)) =? length (eps s))) n).

  Definition trans_eqb (x y : nat * A) : bool := (fst x =? fst y) && eqA (snd x) (snd y).
  Definition same_outgoing (x y : state A) : bool :=
    list_eqb eps_eqb (eps x) (eps y) && list_eqb trans_eqb (trans x) (trans y).
  Definition state_is_empty (s : state A) : bool :=
    match eps s, trans s with [], [] => true | _, _ => false end.
  Definition retarget (from to t : nat) : nat := if t =? from then to else t.

  (** Positions [(state, index)] of the epsilon transitions into [i], 710-716. *)
  Definition incoming_eps (n : nfa A) (i : nat) : list (nat * nat) :=
    flat_map (fun '(s, st) =>
                map (fun p => (s, fst p)) (filter (fun p => fst (snd p) =? i) (enumerate (eps st))))
             (enumerate n).
  (** Whether there is a symbol transition into [i], 703-709. *)
  Definition has_incoming (n : nfa A) (i : nat) : bool :=
    existsb (fun st => existsb (fun t => fst t =? i) (trans st)) n.

  (** One iteration of ['state_loop] of [optimize_pass], 664-770, u8:630-736.
      The accumulator is [(states, dead_states, changed)]. *)
  Definition optimize_step (acc : nfa A * list bool * bool) (i : nat) : res (nfa A * list bool * bool) :=
    let '(n, dead, changed) := acc in
    let me := get n i in
    let cnt := length n in
    (* merge states with same outgoing, 666-697 *)
    match find (fun j => same_outgoing me (get n j) && negb (i =? j) && negb (state_is_empty me)) (seq 0 (cnt - 1)) with
    | Some j => Ok (map (map_targets (retarget i j)) (upd i empty_state n), upd i true dead, true)
    | None =>
        (* dedupe transitions, 700 *)
        let '(n, ch) := dedupe n in
        let changed := changed || ch in
        let me := get n i in
        let other :=
          (* [a -e> b -es> cs] becomes [a -es> cs], 741-760 *)
          match has_incoming n i, incoming_eps n i, trans me with
          | false, [(s, e)], [] =>
              match nth_error (eps (get n s)) e with
              | Some (_, ENone) =>
                  if s =? i then Panic (* [split_off] past the end of the emptied vector *)
                  else
                    let out := eps me in
                    let splice st := mkState (trans st) (firstn e (eps st) ++ out ++ skipn (S e) (eps st)) in
                    Ok (modify s splice (upd i (mkState (trans me) []) n), upd i true dead, true)
              | _ => Ok (n, dead, changed)
              end
          | _, _, _ => Ok (n, dead, changed)
          end in
        match trans me, eps me with
        (* [as -xes> b -e> c] becomes [as -xes> c], 725-739 *)
        | [], [(to, ENone)] => Ok (upd i empty_state (map (map_targets (retarget i to)) n), upd i true dead, true)
        | _, _ => other
        end
    end.

  (** 655-777, u8:621-743.  [debug_assert!(state_count >= 2)] and [1..state_count - 1]. *)
  Definition optimize_pass (n : nfa A) : res (nfa A * bool) :=
    do _ <- guard (2 <=? length n);
    do r <- foldM optimize_step (seq 1 (length n - 2)) (n, repeat false (length n), false);
    let '(n', dead, changed) := r in
    if changed then Ok (remove_dead_states dead n', true) else Ok (n', false).

  (** [while nfa.optimize_pass() {}], 455-457, u8:474 *)
  Fixpoint optimize (fuel : nat) (n : nfa A) : res (nfa A) :=
    match fuel with
    | O => Fuel
    | S f => do _ <- guard (wfb n);
             do r <- optimize_pass n;
             let '(n', changed) := r in
             if changed then optimize f n' else Ok n'
    end.
  Definition nfa_size (n : nfa A) : nat := fold_right (fun s k => S (length (eps s)) + k) 0 n.

  (** 780-801, u8:746-767 *)
  Definition reachable_start (n : nfa A) : res (list bool) :=
    reach_from (length n) (fun s => succ_eps n any_eps s ++ succ_trans n s) 0.
  (** 803-828, u8:769-794 *)
  Definition reachable_end (n : nfa A) : res (list bool) :=
    reach_from (length n) (pred_all n any_eps) (length n - 1).
  (** 833-851, u8:799-817 *)
  Definition remove_unreachable (n : nfa A) : res (nfa A) :=
    do a <- reachable_start n;
    do b <- reachable_end n;
    let keep t := nth t a false && nth t b false in
    let n' := map (fun s => mkState (filter (fun t => keep (fst t)) (trans s))
                                    (filter (fun e => keep (fst e)) (eps s))) n in
    Ok (remove_dead_states (map (fun p => negb (fst p) || negb (snd p)) (combine a b)) n').

  (** The common tail of [WorkingNFA::new_loop_opt] (442-459) and [U8NFA::new_loop_opt] (u8:464-476). *)
  Definition finalize (n : nfa A) : res (nfa A) :=
    do _ <- guard (wfb n && (1 <=? length n));
    do n <- zero_symbols n;
    do n <- optimize (S (nfa_size n)) n;
    do _ <- guard (wfb n && (1 <=? length n));
    remove_unreachable n.

  (** 854-866, u8:820-832 *)
  Definition num_capture_groups (n : nfa A) : nat :=
    S (fold_right Nat.max 0
         (flat_map (fun s => map (fun e => match snd e with ESC k => k | _ => 0 end) (eps s)) n)).

  (** 869-892.  The [debug_assert_ne!] of 883 is evaluated for the edges that lead to a state not reached
      before; here it panics if any reached state has an edge closing the group, which is stricter. *)
  Definition capture_group_is_optional (n : nfa A) (k : nat) : res bool :=
    do _ <- guard (wfb n && (1 <=? length n));
    do r <- reach_from (length n) (fun s => succ_trans n s ++ succ_eps n (fun e => negb (epsk_eqb e (ESC k))) s) 0;
    do _ <- guard (forallb (fun s => negb (nth s r false && existsb (fun e => epsk_eqb (snd e) (EEC k)) (eps (get n s)))) (seq 0 (length n)));
    Ok (last r false).

  (** ** [test], 935-985, u8:925-975 *)
  Context {C : Type}.
  Variable check : A -> C -> bool.
  Variable width : C -> nat.

  Definition eps_enabled (idx len : nat) (e : epsk) : bool :=
    match e with EStart => idx =? 0 | EEnd => idx =? len | _ => true end.
  (** 941-963 *)
  Definition propagate (n : nfa A) (len : nat) (l : list bool) (idx : nat) : res (list bool) :=
    dfs (S (length n)) (succ_eps n (eps_enabled idx len)) l
        (rev (map fst (filter snd (enumerate l)))).
  (** 967-977 *)
  Definition step_symbols (n : nfa A) (l : list bool) (c : C) : list bool :=
    fold_left (fun new '(from, s) =>
                 if nth from l false
                 then fold_left (fun new t => if check (snd t) c then upd (fst t) true new else new) (trans s) new
                 else new)
              (enumerate n) (repeat false (length n)).
  Fixpoint test_loop (n : nfa A) (len : nat) (l : list bool) (idx : nat) (text : list C) : res bool :=
    do l <- propagate n len l idx;
    match text with
    | [] => Ok (last l false)
    | c :: text' => test_loop n len (step_symbols n l c) (idx + width c) text'
    end.
  Definition total_width (text : list C) : nat := fold_right (fun c k => width c + k) 0 text.
  Definition nfa_test (n : nfa A) (text : list C) : res bool :=
    do _ <- guard (wfb n && (1 <=? length n));
    test_loop n (total_width text) (upd 0 true (repeat false (length n))) 0 text.
End Generic.
Arguments empty_state {A}.

(** ** The character automaton *)

(** [WorkingNFA::build], 391-409 *)
Fixpoint build (t : tree) : nfa atom :=
  match t with
  | TEmpty => nfa_empty
  | TSymbol a => nfa_symbol1 a
  | TUnion l => nfa_union (map build l)
  | TCapture t k => nfa_capture (build t) k
  | TConcat l => nfa_concat (map build l)
  | TRepeat t n => nfa_repeat (build t) n
  | TUpTo t n b => nfa_upto (build t) n b
  | TStar t b => nfa_star (build t) b
  | TStart => nfa_start
  | TEnd => nfa_end
  | TNever => nfa_never
  end.

(** The lazy [[^]*?] loop added at both ends, 425-428 and 435-438. *)
Definition any_loop : nfa atom := nfa_star (nfa_symbol1 (NonmatchingList [])) false.

(** [WorkingNFA::new_loop_opt], 416-460 *)
Definition working_new_loop_opt (t : tree) (start_loop end_loop : bool) : res (nfa atom) :=
  let n := build t in
  do _ <- guard (wfb n && (1 <=? length n));
  do n <- clean_start_anchors n;
  do n <- clean_end_anchors n;
  let n := if start_loop then nfa_concat [any_loop; n] else n in
  let n := if end_loop then nfa_concat [n; any_loop] else n in
  finalize atom_eqb n.
(** [WorkingNFA::new], 412-414 *)
Definition working_new (t : tree) : res (nfa atom) := working_new_loop_opt t true true.
(** [WorkingNFA::test] *)
Definition working_test (n : nfa atom) (text : list N) : res bool := nfa_test atom_check len_utf8 n text.
