(** The tagged DFA, the minimised DFA and the DFA engine.  Models [ere-core/src/working_u8_dfa.rs] and
    the functions generated by [ere-core/src/engines/dfa_u8.rs] ("eng:" line numbers). *)
From Verif Require Export U8Nfa EpsProp Flat.
Open Scope nat_scope.
Open Scope list_scope.

(** [U8TDFAAcceptTransition], working_u8_dfa.rs:44-48 *)
Record acc_tr := mkAcc { at_state : nat; at_tags : list tag }.
(** [U8TDFAAccept], 67-79 *)
Inductive tacc := AAnch (a : acc_tr) | ABoth (a u : acc_tr) | AUnan (u : acc_tr) | ANone.
(** [U8TDFATransition], 25-41 *)
Record ttrans := mkTT { tt_to : nat; tt_sym : range; tt_copy : list nat; tt_add : list (nat * tag) }.
(** [U8TDFAState], 148-161 *)
Record tstate := mkTS { ts_nfa : list nat; ts_trans : list ttrans; ts_acc : tacc }.

(** [U8TDFAAccept::from_epsilon_prop], 85-131 *)
Definition acc_from_props (local : nat) (ps : list eprop) (accept : nat) : tacc :=
  let l := filter (fun p => ep_state p =? accept) ps in
  let mk p := mkAcc local (ep_tags p) in
  match index_of ep_end l, index_of (fun p => negb (ep_end p)) l with
  | Some a, None => AAnch (mk (nth a l (mkEp 0 [] false false)))
  | None, Some u => AUnan (mk (nth u l (mkEp 0 [] false false)))
  | None, None => ANone
  | Some a, Some u =>
      if a <? u then ABoth (mk (nth a l (mkEp 0 [] false false))) (mk (nth u l (mkEp 0 [] false false)))
      else AUnan (mk (nth u l (mkEp 0 [] false false)))
  end.
(** [update_with_lower_priority], 135-145 *)
Definition acc_update (x y : tacc) : tacc :=
  match x, y with
  | AAnch a, AUnan b => ABoth a b
  | AAnch a, ABoth _ b => ABoth a b
  | ABoth _ _, _ => x
  | AUnan _, _ => x
  | AAnch _, AAnch _ => x
  | ANone, _ => y
  | AAnch _, ANone => x
  end.

(** [split_ranges_u8], 737-773.  Items are compared by address in the source; here they are
    represented by their position in the input. *)
Definition bytes256 : list N := map N.of_nat (seq 0 256).
Definition items_at (rs : list range) (b : N) : list nat :=
  map fst (filter (fun p => in_range b (snd p)) (enumerate rs)).
(** The loop 756-765, with [out] produced in order. *)
Fixpoint split_loop (prev : list nat) (start : N) (vs : list (N * list nat)) : list (range * list nat) :=
  match vs with
  | [] => match prev with [] => [] | _ => [((start, 255%N), prev)] end
  | (i, items) :: r =>
      if list_eqb Nat.eqb items prev then split_loop prev start r
      else match prev with
           | [] => split_loop items i r
           | _ => ((start, (i - 1)%N), prev) :: split_loop items i r
           end
  end.
Definition split_ranges (rs : list range) : list (range * list nat) :=
  split_loop [] 0%N (map (fun b => (b, items_at rs b)) bytes256).

(** A candidate transition: local NFA state it comes from, propagation before the symbol, target;
    [SubNFATransition], 262-269. *)
Record cand := mkCand { c_from : nat; c_tags : list tag; c_to : nat }.
(** [dedup_by_key_all(|tr| tr.to)], 780-793 *)
Definition dedup_cands (l : list cand) : list cand := dedup_by (fun a b => c_to a =? c_to b) [] l.

(** The candidates of each byte range, with lower-priority duplicates removed: 197-204, 306-312 *)
Definition cand_ranges (cs : list (range * cand)) : list (range * list cand) :=
  map (fun '(r, is) => (r, dedup_cands (map (fun i => snd (nth i cs ((0%N, 0%N), mkCand 0 [] 0))) is)))
      (split_ranges (map fst cs)).

Definition nats_eqb (l m : list nat) : bool := list_eqb Nat.eqb l m.
Definition stub (l : list nat) : tstate := mkTS l [] ANone.

(** The loop creating DFA transitions and new stub states, 212-244 and 310-356.
    [curr] are the existing states, [new] the ones created so far. *)
Definition add_range (curr : list tstate) (acc : list tstate * list ttrans) (x : range * list cand)
  : list tstate * list ttrans :=
  let '(new, trs) := acc in
  let '(r, cs) := x in
  let states := map c_to cs in
  let add := concat (map (fun '(i, c) => map (fun t => (i, t)) (c_tags c)) (enumerate cs)) in
  let same s := nats_eqb (ts_nfa s) states in
  let '(idx, new) :=
    match index_of same curr with
    | Some i => (i, new)
    | None => match index_of same new with
              | Some i => (i + length curr, new)
              | None => (length curr + length new, new ++ [stub states])
              end
    end in
  (new, trs ++ [mkTT idx r (map c_from cs) add]).

(** Candidates of local state [local]: 187-196 keeps those not at end; 286-300 also drops start-only ones. *)
Definition cands_of (n : nfa range) (keep : eprop -> bool) (local : nat) (ps : list eprop) : list (range * cand) :=
  flat_map (fun p => map (fun t => (snd t, mkCand local (ep_tags p) (fst t))) (trans (get n (ep_state p))))
           (filter keep ps).

(** [new_start_state], 182-246 *)
Definition tdfa_start (n : nfa range) : res (tstate * list tstate) :=
  do ps <- eps_props n 0;
  let acc := acc_from_props 0 ps (length n - 1) in
  let cs := cands_of n (fun p => negb (ep_end p)) 0 ps in
  let '(new, trs) := fold_left (add_range []) (cand_ranges cs) ([], []) in
  Ok (mkTS [0] trs acc, new).
(** [expand], 258-359, for the state representing [nfas] *)
Definition tdfa_expand (n : nfa range) (nfas : list nat) (curr : list tstate) : res (tstate * list tstate) :=
  do r <- foldM (fun '(acc, cs) (x : nat * nat) =>
                   do ps <- eps_props n (snd x);
                   Ok (acc_update acc (acc_from_props (fst x) ps (length n - 1)),
                       cs ++ cands_of n (fun p => negb (ep_start p || ep_end p)) (fst x) ps))
                (enumerate nfas) (ANone, []);
  let '(acc, cs) := r in
  let '(new, trs) := fold_left (add_range curr) (cand_ranges cs) ([], []) in
  Ok (mkTS nfas trs acc, new).

(** Adding the new states one at a time, 406-416: [None] when the bound is exceeded. *)
Fixpoint tdfa_add (max : nat) (states : list tstate) (stack : list nat) (new : list tstate) : option (list tstate * list nat) :=
  match new with
  | [] => Some (states, stack)
  | s :: r =>
      if existsb (fun x => nats_eqb (ts_nfa x) (ts_nfa s)) states then tdfa_add max states stack r
      else let states' := states ++ [s] in
           if max <? length states' then None
           else tdfa_add max states' (length states :: stack) r
  end.
(** The assertions at the beginning of [expand], 259-260 *)
Definition is_stub (s : tstate) : bool :=
  match ts_trans s, ts_acc s with [], ANone => true | _, _ => false end.
(** The loop of [from_nfa], 396-417 *)
Fixpoint tdfa_loop (fuel : nat) (n : nfa range) (max : nat) (states : list tstate) (stack : list nat) : res (option (list tstate)) :=
  match stack with
  | [] => Ok (Some states)
  | i :: stack =>
      match fuel with
      | O => Fuel
      | S f =>
          do _ <- guard ((i <? length states) && is_stub (nth i states (stub [])));
          do r <- tdfa_expand n (ts_nfa (nth i states (stub []))) states;
          let '(s, new) := r in
          match tdfa_add max (upd i s states) stack new with
          | None => Ok None
          | Some (states, stack) => tdfa_loop f n max states stack
          end
      end
  end.
(** [U8TDFA], 363-372 *)
Record tdfa := mkTdfa { td_start : tstate; td_states : list tstate }.
(** [U8TDFA::from_nfa], 379-423 *)
Definition tdfa_from_nfa (n : nfa range) (max : nat) : res (option tdfa) :=
  do _ <- guard (wfb n && (1 <=? length n));
  do r <- tdfa_start n;
  let '(s, states) := r in
  if max <? length states then Ok None
  else do l <- tdfa_loop (S max) n max states (rev (seq 0 (length states)));
       Ok (option_map (mkTdfa s) l).
(** [default_bound], 451-453 *)
Definition default_bound (n : nat) : nat := Nat.max 100 (n * 2).

(** [num_capture_groups], 425-446 *)
Definition acc_groups (a : acc_tr) : nat := fold_right Nat.max 0 (map tag_group (at_tags a)).
Definition ts_groups (s : tstate) : nat :=
  Nat.max (fold_right Nat.max 0 (flat_map (fun t => map (fun x => tag_group (snd x)) (tt_add t)) (ts_trans s)))
          (match ts_acc s with
           | AAnch t | AUnan t => acc_groups t
           | ABoth a b => Nat.max (acc_groups a) (acc_groups b)
           | ANone => 0
           end).
Definition tdfa_groups (d : tdfa) : nat :=
  S (fold_right Nat.max 0 (map ts_groups (td_states d ++ [td_start d]))).

(** ** The untagged DFA *)
(** [U8DFAAccept], [U8DFATransition], [U8DFAState], 521-543 *)
Inductive dacc := DAnchored | DAlways | DNone.
Definition dacc_eqb (a b : dacc) : bool :=
  match a, b with DAnchored, DAnchored | DAlways, DAlways | DNone, DNone => true | _, _ => false end.
Record dstate := mkDS { ds_acc : dacc; ds_trans : list (nat * range) }.
Definition dtr_eqb (a b : nat * range) : bool := (fst a =? fst b) && range_eqb (snd a) (snd b).
Definition dstate_eqb (a b : dstate) : bool :=
  dacc_eqb (ds_acc a) (ds_acc b) && list_eqb dtr_eqb (ds_trans a) (ds_trans b).
Record dfa := mkDfa { d_start : dstate; d_states : list dstate }.

(** [U8DFAState::from_tagged], 545-564 *)
Definition dstate_of (s : tstate) : dstate :=
  mkDS (match ts_acc s with AAnch _ => DAnchored | ABoth _ _ | AUnan _ => DAlways | ANone => DNone end)
       (sort_by_key (fun t => fst (snd t)) (map (fun t => (tt_to t, tt_sym t)) (ts_trans s))).
(** [validate], 629-645 *)
Fixpoint validate_trans (cnt : nat) (prev : option N) (l : list (nat * range)) : bool :=
  match l with
  | [] => true
  | (to, r) :: rest =>
      (to <? cnt) && match prev with None => true | Some p => (p <? fst r)%N end
      && validate_trans cnt (Some (snd r)) rest
  end.
Definition dfa_validate (d : dfa) : bool :=
  forallb (fun s => validate_trans (length (d_states d)) None (ds_trans s)) (d_start d :: d_states d).
(** [merge_states], 711-728 *)
Definition merge_target (keep merge t : nat) : nat :=
  if t =? merge then keep else if merge <? t then t - 1 else t.
Definition map_dtrans (f : nat -> nat) (s : dstate) : dstate :=
  mkDS (ds_acc s) (map (fun t => (f (fst t), snd t)) (ds_trans s)).
Fixpoint remove_at {A} (i : nat) (l : list A) : list A :=
  match l, i with
  | [], _ => []
  | _ :: r, O => r
  | x :: r, S i' => x :: remove_at i' r
  end.
Definition merge_states (d : dfa) (keep merge : nat) : dfa :=
  mkDfa (map_dtrans (merge_target keep merge) (d_start d))
        (map (map_dtrans (merge_target keep merge)) (remove_at merge (d_states d))).
(** 590-602: pairs [(i, first equal state)] *)
Definition merges (l : list dstate) : list (nat * nat) :=
  flat_map (fun '(i, s) => match index_of (dstate_eqb s) l with
                           | Some j => if j <? i then [(i, j)] else []
                           | None => []
                           end) (enumerate l).
(** One merge with the assertion 610 and the index checks of [merge_states] (712-714), whose failure is [unreachable!] (614-618) *)
Definition merge_checked (d : dfa) (p : nat * nat) : res dfa :=
  do _ <- guard ((snd p <? fst p) && (fst p <? length (d_states d)));
  Ok (merge_states d (snd p) (fst p)).
(** [merge.is_sorted()], 608, on pairs *)
Fixpoint pairs_sorted (l : list (nat * nat)) : bool :=
  match l with
  | x :: ((y :: _) as r) => ((fst x <? fst y) || ((fst x =? fst y) && (snd x <=? snd y))) && pairs_sorted r
  | _ => true
  end.
(** The minimisation loop, 589-620 *)
Fixpoint minimise (fuel : nat) (d : dfa) : res dfa :=
  match merges (d_states d) with
  | [] => Ok d
  | ms => match fuel with
          | O => Fuel
          | S f => do _ <- guard (pairs_sorted ms);
                   do d' <- foldM merge_checked (rev ms) d;
                   minimise f d'
          end
  end.
(** [U8DFA::from_tagged], 578-627.  [Err] makes the macro emit a compile error (eng:332-337); the
    assertion 622-625 validates again at the end. *)
Definition dfa_from_tagged (d : tdfa) : res dfa :=
  let d := mkDfa (dstate_of (td_start d)) (map dstate_of (td_states d)) in
  if dfa_validate d then do m <- minimise (length (d_states d)) d; do _ <- guard (dfa_validate m); Ok m else NoCompile.

(** ** The engine *)
(** Generated [test], eng:41-98.  [None] is [StateStart]. *)
Definition d_get (d : dfa) (s : option nat) : dstate :=
  match s with None => d_start d | Some i => nth i (d_states d) (mkDS DNone []) end.
Fixpoint dfa_test_loop (d : dfa) (s : option nat) (bytes : list N) : bool :=
  let st := d_get d s in
  match bytes with
  | [] => match ds_acc st with DNone => false | _ => true end
  | c :: r =>
      match ds_acc st with
      | DAlways => true
      | _ => match find (fun t => in_range c (snd t)) (ds_trans st) with
             | Some (to, _) => dfa_test_loop d (Some to) r
             | None => false
             end
      end
  end.
Definition dfa_run_test (d : dfa) (bytes : list N) : bool :=
  match ds_acc (d_start d) with DAlways => true | _ => dfa_test_loop d None bytes end.

(** Generated [exec], eng:147-322 *)
Definition td_get (d : tdfa) (s : option nat) : tstate :=
  match s with None => td_start d | Some i => nth i (td_states d) (stub []) end.
Definition tt_apply (i g : nat) (t : ttrans) (old : list bounds) : list bounds :=
  fold_left (fun bs x => modify (fst x) (fun b => apply_tag i b (snd x)) bs) (tt_add t)
            (map (fun k => nth k old (no_bounds g)) (tt_copy t)).
Definition acc_apply (i g : nat) (a : acc_tr) (old : list bounds) : bounds :=
  apply_tags i (at_tags a) (nth (at_state a) old (no_bounds g)).
Fixpoint tdfa_exec_loop (d : tdfa) (g : nat) (s : option nat) (i : nat) (tags : list bounds) (bytes : list N) : option bounds :=
  let st := td_get d s in
  match bytes with
  | [] => match ts_acc st with
          | ANone => None
          | AAnch a | ABoth a _ | AUnan a => Some (acc_apply i g a tags)
          end
  | c :: r =>
      match find (fun t => in_range c (tt_sym t)) (ts_trans st) with
      | Some t => tdfa_exec_loop d g (Some (tt_to t)) (S i) (tt_apply i g t tags) r
      | None => None
      end
  end.
Definition tdfa_run_exec (d : tdfa) (bytes : list N) : option bounds :=
  let g := tdfa_groups d in tdfa_exec_loop d g None 0 [no_bounds g] bytes.

(** [serialize_u8_dfa_token_stream], eng:331-350 *)
Definition dfa_test (d : tdfa) (text : list N) : res bool :=
  do m <- dfa_from_tagged d; Ok (dfa_run_test m (utf8 text)).
Definition dfa_exec (d : tdfa) (text : list N) : res (option (list (option span))) :=
  do _ <- dfa_from_tagged d; run_finish text (tdfa_run_exec d (utf8 text)).
