(** The byte automaton.  Models [ere-core/src/working_u8_nfa.rs]; the parts shared with
    working_nfa.rs are in [Nfa]. *)
From Verif Require Export Nfa Utf8Seq.
Open Scope nat_scope.
Open Scope list_scope.

(** [U8Atom] is an inclusive byte range, working_u8_nfa.rs:15-40. *)
Definition byte_check (r : range) (b : N) : bool := in_range b r.

(** The trie built by [nfa_symbol] before placeholders are replaced: the target [usize::MAX] is [None]. *)
Definition trie := list (list (option nat * range)).

(** The loop over one byte sequence, 184-206. *)
Fixpoint trie_insert (states : trie) (st : option nat) (seq : list range) : res trie :=
  match seq with
  | [] => Ok states
  | r :: rest =>
      match st with
      | None => Panic (* [states[usize::MAX]] *)
      | Some st =>
          match find (fun t => range_eqb (snd t) r) (nth st states []) with
          | Some (next, _) => trie_insert states next rest
          | None =>
              match rest with
              | [] => Ok (modify st (fun ts => ts ++ [(None, r)]) states)
              | _ => let new := length states in
                     trie_insert (modify st (fun ts => ts ++ [(Some new, r)]) (states ++ [[]])) (Some new) rest
              end
          end
      end
  end.
(** [nfa_symbol], 178-223. *)
Definition symbol_trie (a : atom) : res trie :=
  do seqs <- mapM utf8_sequences (to_ranges a);
  foldM (fun st s => trie_insert st (Some 0) s) (concat seqs) [[]].
Definition u8_symbol (a : atom) : res (nfa range) :=
  do t <- symbol_trie a;
  let accept := length t in
  Ok (map (fun ts => mkState (map (fun x => (match fst x with Some k => k | None => accept end, snd x)) ts) []) t
      ++ [empty_state]).

(** One symbol transition [t] of a state, 392-422: adds to the transitions of the state and to
    [sub_states]. *)
Definition u8_build_trans (n_len : nat) (acc : list (nat * range) * list (state range)) (t : nat * atom)
  : res (list (nat * range) * list (state range)) :=
  let '(trs, subs) := acc in
  do sym <- u8_symbol (snd t);
  let sacc := length sym - 1 in
  let off := n_len + length subs - 1 in
  let map_tr (x : nat * range) := if fst x =? sacc then (fst t, snd x) else (fst x + off, snd x) in
  Ok (trs ++ map map_tr (trans (get sym 0)),
      subs ++ map (fun s => mkState (map map_tr (trans s)) []) (firstn (length sym - 2) (skipn 1 sym))).
(** [U8NFA::build], 382-433.  [states[nfa.states.len() - 1]] underflows on an empty automaton. *)
Definition u8_build (n : nfa atom) : res (nfa range) :=
  do _ <- guard (1 <=? length n);
  do r <- foldM (fun '(states, subs) (s : state atom) =>
                   do p <- foldM (u8_build_trans (length n)) (trans s) ([], subs);
                   let '(trs, subs) := p in
                   Ok (states ++ [mkState trs (eps s)], subs))
                n ([], []);
  let '(states, subs) := r in
  let states := states ++ subs in
  let accept := length states in
  Ok (modify (length n - 1) (push_eps (accept, ENone)) (states ++ [empty_state])).

(** The any-byte loop of [new_loop_opt], 453 and 460. *)
Definition u8_loop : nfa range := nfa_star (nfa_symbol1 (0%N, 0xFF%N)) false.
(** [U8NFA::new_loop_opt], 448-477 *)
Definition u8_new_loop_opt (n : nfa atom) (start_loop end_loop : bool) : res (nfa range) :=
  do n <- u8_build n;
  let n := if start_loop then nfa_concat [u8_loop; n] else n in
  let n := if end_loop then nfa_concat [n; u8_loop] else n in
  finalize range_eqb n.
(** [U8NFA::new], 437-439 *)
Definition u8_new (n : nfa atom) : res (nfa range) := u8_new_loop_opt n false false.

(** [U8NFA::test], 925-975, on the bytes of the text. *)
Definition u8_test (n : nfa range) (bytes : list N) : res bool :=
  nfa_test byte_check (fun _ => 1) n bytes.

(** [topological_ordering], 843-883. *)
Inductive topo_item := PreVisit (s : nat) | PostVisit (s : nat).
Fixpoint topo_loop (fuel : nat) (n : nfa range) (done active : list bool) (order : list nat) (stack : list topo_item)
  : res (option (list nat)) :=
  match stack with
  | [] => Ok (if length order =? length n then Some order else None)
  | item :: st =>
      match fuel with
      | O => Fuel
      | S f =>
          match item with
          | PreVisit s =>
              if nth s done false then topo_loop f n done active order st
              else if nth s active false then Ok None
              else topo_loop f n done (upd s true active) order
                     (rev (map (fun e => PreVisit (fst e)) (eps (get n s)))
                      ++ rev (map (fun t => PreVisit (fst t)) (trans (get n s)))
                      ++ PostVisit s :: st)
          | PostVisit s => topo_loop f n (upd s true done) active (s :: order) st
          end
      end
  end.
Definition edge_count (n : nfa range) : nat :=
  fold_right (fun s k => length (trans s) + length (eps s) + k) 0 n.
(** The accumulated [order] is kept reversed, so no final [reverse]. *)
Definition topological_ordering (n : nfa range) : res (option (list nat)) :=
  do _ <- guard (wfb n && (1 <=? length n));
  topo_loop (edge_count n + length n + 2) n (repeat false (length n)) (repeat false (length n)) [] [PreVisit 0].
