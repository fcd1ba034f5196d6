(** The generated functions with a counter of elementary steps.  Each definition repeats one of [Flat.v], [OnePass.v], [Dfa.v],
    [FixedOffset.v] or [Pick.v] (same lines of the source) and returns a number of steps beside the result.  One step each: looking at a
    state, a thread or a byte; trying a range of bytes, a term of an atom or a match arm; running a propagation; copying or writing a pair
    of capture bounds; making one element of an array; slicing the text.  A match over arms is counted as if they were tried in order.
    What is done at compile time takes no step. *)
From Verif Require Export Pick.
Open Scope nat_scope.
Open Scope list_scope.

(** ** Counting *)
Definition ticks (A : Type) := (A * nat)%type.
Definition spend {A} (k : nat) (m : ticks A) : ticks A := (fst m, k + snd m).
Definition tbind {A B} (m : ticks A) (f : A -> ticks B) : ticks B := let r := f (fst m) in (fst r, snd m + snd r).
Definition tmap {A B} (f : A -> B) (m : ticks A) : ticks B := (f (fst m), snd m).
Fixpoint tfold {S X} (f : S -> X -> ticks S) (l : list X) (s : S) : ticks S :=
  match l with
  | [] => (s, 0)
  | x :: r => tbind (f s x) (tfold f r)
  end.
Fixpoint tfind {X} (p : X -> bool) (l : list X) : ticks (option X) :=
  match l with
  | [] => (None, 0)
  | x :: r => if p x then (Some x, 1) else spend 1 (tfind p r)
  end.

(** ** The lockstep engines (flat_lockstep_nfa_u8.rs, flat_lockstep_nfa.rs) *)
Section Flat.
  Context {A C : Type}.
  Variable check : A -> C -> bool.
  Variable width : C -> nat.
  (** Steps to evaluate [check]. *)
  Variable price : A -> nat.

  (** [transition_epsilons_test], 276-286 *)
  Definition flat_eps_test_t (tbl : list (list eprop)) (idx len : nat) (l : list bool) : ticks (list bool) :=
    tfold (fun l x => spend 1 (if nth (fst x) l false
                               then tfold (fun l p => (upd (ep_state p) true l, 1)) (ordered (idx =? 0) (idx =? len) (snd x)) l
                               else (l, 0)))
          (enumerate tbl) l.
  (** [transition_symbols_test], 149-175; [new_list] is filled again with [false], 335 *)
  Definition flat_sym_test_t (n : nfa A) (l : list bool) (c : C) : ticks (list bool) :=
    spend (length n)
    (tfold (fun new x => spend 1 (if nth (fst x) l false
                                  then tfold (fun new t => if check (snd t) c then (upd (fst t) true new, 1 + price (snd t)) else (new, price (snd t)))
                                             (trans (snd x)) new
                                  else (new, 0)))
           (enumerate n) (repeat false (length n))).
  (** 328-338; [all] looks at every state at most once *)
  Fixpoint flat_test_loop_t (n : nfa A) (tbl : list (list eprop)) (len idx : nat) (l : list bool) (text : list C) : ticks bool :=
    match text with
    | [] => (nth (length n - 1) l false, 1)
    | c :: text' =>
        tbind (flat_sym_test_t n l c) (fun new =>
        spend (1 + length n)
        (if forallb negb new then (false, 0)
         else let idx := idx + width c in
              tbind (flat_eps_test_t tbl idx len new) (fun l => flat_test_loop_t n tbl len idx l text')))
    end.
  Definition flat_run_test_t (n : nfa A) (tbl : list (list eprop)) (text : list C) : ticks bool :=
    let len := total_width width text in
    spend (2 * length n)
    (tbind (flat_eps_test_t tbl 0 len (upd 0 true (repeat false (length n)))) (fun l => flat_test_loop_t n tbl len 0 l text)).

  (** [serialize_thread_update_exec], 641-664: a thread is only copied if its state is not occupied *)
  Definition flat_push_t (idx : nat) (b : bounds) (acc : list bool * list thread) (p : eprop) : ticks (list bool * list thread) :=
    let '(occ, out) := acc in
    if nth (ep_state p) occ false then (acc, 1)
    else ((upd (ep_state p) true occ, out ++ [(ep_state p, apply_tags idx (ep_tags p) b)]), 2 + length b + length (ep_tags p)).
  (** [transition_epsilons_exec], 530-546 *)
  Definition flat_eps_exec_t (n : nfa A) (tbl : list (list eprop)) (idx len : nat) (ths : list thread) : ticks (list thread) :=
    spend (length n)
    (tmap snd (tfold (fun acc th => spend 1 (tfold (flat_push_t idx (snd th)) (ordered (idx =? 0) (idx =? len) (nth (fst th) tbl [])) acc))
                     ths (repeat false (length n), []))).
  (** [transition_symbols_exec], 397-427 *)
  Definition flat_sym_exec_t (n : nfa A) (ths : list thread) (c : C) : ticks (list thread) :=
    tfold (fun out th => spend 1 (tfold (fun out t => if check (snd t) c then (out ++ [(fst t, snd th)], 1 + price (snd t) + length (snd th)) else (out, price (snd t)))
                                        (trans (get n (fst th))) out))
          ths [].
  (** 594-605 *)
  Fixpoint flat_exec_loop_t (n : nfa A) (tbl : list (list eprop)) (len idx : nat) (ths : list thread) (text : list C) : ticks (list thread) :=
    match text with
    | [] => (ths, 0)
    | c :: text' =>
        let idx := idx + width c in
        spend 1
        (tbind (flat_sym_exec_t n ths c) (fun ths =>
         tbind (flat_eps_exec_t n tbl idx len ths) (fun ths =>
         match ths with
         | [] => ([], 0)
         | _ => flat_exec_loop_t n tbl len idx ths text'
         end)))
    end.
  (** 584-610 *)
  Definition flat_run_exec_t (n : nfa A) (tbl : list (list eprop)) (text : list C) : ticks (option bounds) :=
    let len := total_width width text in
    spend (num_capture_groups n)
    (tbind (flat_eps_exec_t n tbl 0 len [(0, no_bounds (num_capture_groups n))]) (fun ths =>
     tbind (flat_exec_loop_t n tbl len 0 ths text) (fun ths =>
     tmap (option_map snd) (tfind (fun th => fst th + 1 =? length n) ths)))).
End Flat.

(** The end of every [exec], 611-622: one slice per group. *)
Definition run_finish_t (text : list N) (m : ticks (option bounds)) : ticks (res (option (list (option span)))) :=
  (run_finish text (fst m), snd m + match fst m with None => 0 | Some b => 2 * length b end).

Definition flat_u8_test_t (n : nfa range) (text : list N) : ticks (res bool) :=
  match flat_make n with
  | Ok tbl => tmap Ok (flat_run_test_t byte_check (fun _ => 1) (fun _ => 1) n tbl (utf8 text))
  | Panic => (Panic, 0) | Fuel => (Fuel, 0) | NoCompile => (NoCompile, 0)
  end.
Definition flat_u8_exec_t (n : nfa range) (text : list N) : ticks (res (option (list (option span)))) :=
  match flat_make n with
  | Ok tbl => run_finish_t text (flat_run_exec_t byte_check (fun _ => 1) (fun _ => 1) n tbl (utf8 text))
  | Panic => (Panic, 0) | Fuel => (Fuel, 0) | NoCompile => (NoCompile, 0)
  end.
(** [AtomStatic::check]: at most every term of a list *)
Definition atom_price (a : atom) : nat :=
  match a with NormalChar _ | Dot => 1 | MatchingList l | NonmatchingList l => 1 + length l end.
Definition flat_char_test_t (n : nfa atom) (text : list N) : ticks (res bool) :=
  match flat_make n with
  | Ok tbl => tmap Ok (flat_run_test_t atom_check len_utf8 atom_price n tbl text)
  | Panic => (Panic, 0) | Fuel => (Fuel, 0) | NoCompile => (NoCompile, 0)
  end.
Definition flat_char_exec_t (n : nfa atom) (text : list N) : ticks (res (option (list (option span)))) :=
  match flat_make n with
  | Ok tbl => run_finish_t text (flat_run_exec_t atom_check len_utf8 atom_price n tbl text)
  | Panic => (Panic, 0) | Fuel => (Fuel, 0) | NoCompile => (NoCompile, 0)
  end.

(** ** The one-pass engine (one_pass_u8.rs) *)
(** 312-332, 437-471 *)
Definition vm_arm_t (tab : op_tables) (s i : nat) (c : N) : ticks (option tupd) :=
  tmap (option_map snd) (tfind (fun x => negb (tu_end (snd x)) && in_range c (fst x) && (negb (tu_start (snd x)) || (i =? 0))) (nth s (op_syms tab) [])).
Fixpoint vm_test_loop_t (tab : op_tables) (s i : nat) (bytes : list N) : ticks bool :=
  match bytes with
  | [] => (match nth s (op_accs tab) [] with [] => false | _ => true end, 1 + length (nth s (op_accs tab) []))
  | c :: r => spend 1 (tbind (vm_arm_t tab s i c) (fun o => match o with
                                                            | Some tu => vm_test_loop_t tab (tu_state tu) (S i) r
                                                            | None => (false, 0)
                                                            end))
  end.
(** [apply_tu], 451-463, 493-505, 885-908 *)
Definition apply_tu_t (i : nat) (tu : tupd) (b : bounds) : ticks bounds := (apply_tu i tu b, length (tu_tags tu)).
Fixpoint vm_exec_loop_t (tab : op_tables) (s i : nat) (b : bounds) (bytes : list N) : ticks (option bounds) :=
  match bytes with
  | [] => spend (1 + length (nth s (op_accs tab) []))
                (match nth s (op_accs tab) [] with [] => (None, 0) | tu :: _ => tmap Some (apply_tu_t i tu b) end)
  | c :: r => spend 1 (tbind (vm_arm_t tab s i c) (fun o => match o with
                                                            | Some tu => tbind (apply_tu_t i tu b) (fun b => vm_exec_loop_t tab (tu_state tu) (S i) b r)
                                                            | None => (None, 0)
                                                            end))
  end.
(** 719-728 *)
Definition fun_arm_t (tab : op_tables) (s : nat) (start : bool) (c : N) : ticks (option tupd) :=
  tmap (option_map snd) (tfind (fun x => in_range c (fst x) && fun_cond s start (snd x)) (nth s (op_syms tab) [])).
(** 663-676 *)
Fixpoint match_run_t (rs : list range) (bytes : list N) : ticks (option (list N)) :=
  match rs, bytes with
  | [], _ => (Some bytes, 0)
  | r :: rs', c :: bytes' => spend 1 (if in_range c r then match_run_t rs' bytes' else (None, 0))
  | _ :: _, [] => (None, 1)
  end.
(** 700-712 *)
Definition fun_end_test_t (s : nat) (start : bool) (accs : list tupd) : ticks bool := (fun_end_test s start accs, 2 + length accs).
(** 911-939 *)
Definition fun_end_exec_t (s : nat) (start : bool) (i : nat) (b : bounds) (accs : list tupd) : ticks (option bounds) :=
  spend 2
  (match accs with
   | [] => (None, 0)
   | tu :: _ => if tu_start tu
                then if s =? 0 then (if start then tmap Some (apply_tu_t i tu b) else (None, 0)) else (None, 0)
                else tmap Some (apply_tu_t i tu b)
   end).
(** 641-805 *)
Fixpoint fun_test_t (fuel : nat) (tab : op_tables) (runs : list inclusion) (s : nat) (start : bool) (bytes : list N) : ticks (res bool) :=
  match fuel with
  | O => (Fuel, 0)
  | S f =>
      spend 1
      (match nth s runs RNone with
       | RStart r => tbind (match_run_t (run_symbols r) bytes) (fun o => match o with
                                                                         | Some rest => fun_test_t f tab runs (run_end r) false rest
                                                                         | None => (Ok false, 0)
                                                                         end)
       | _ => match bytes with
              | [] => tmap Ok (fun_end_test_t s start (nth s (op_accs tab) []))
              | c :: rest => tbind (fun_arm_t tab s start c) (fun o => match o with
                                                                       | Some tu => fun_test_t f tab runs (tu_state tu) false rest
                                                                       | None => (Ok false, 0)
                                                                       end)
              end
       end)
  end.
(** 808-983 *)
Fixpoint fun_exec_t (fuel : nat) (tab : op_tables) (runs : list inclusion) (s : nat) (start : bool) (i : nat)
         (b : bounds) (bytes : list N) : ticks (res (option bounds)) :=
  match fuel with
  | O => (Fuel, 0)
  | S f =>
      spend 1
      (match nth s runs RNone with
       | RStart r => tbind (match_run_t (run_symbols r) bytes) (fun o => match o with
           | Some rest =>
               tbind (fold_left (fun b t => apply_tag (fst t + i) b (snd t)) (run_tags r) b, length (run_tags r)) (fun b =>
               fun_exec_t f tab runs (run_end r) false (i + length (run_symbols r)) b rest)
           | None => (Ok None, 0)
           end)
       | _ => match bytes with
              | [] => tmap Ok (fun_end_exec_t s start i b (nth s (op_accs tab) []))
              | c :: rest => tbind (fun_arm_t tab s start c) (fun o => match o with
                  | Some tu => tbind (apply_tu_t i tu b) (fun b => fun_exec_t f tab runs (tu_state tu) false (S i) b rest)
                  | None => (Ok None, 0)
                  end)
              end
       end)
  end.
Definition op_test_t (e : op_engine) (text : list N) : ticks (res bool) :=
  let bytes := utf8 text in
  match op_k e with
  | OpVm => tmap Ok (vm_test_loop_t (op_tab e) 0 0 bytes)
  | OpFun runs => fun_test_t (S (length bytes)) (op_tab e) runs 0 true bytes
  end.
Definition op_exec_t (e : op_engine) (text : list N) : ticks (res (option (list (option span)))) :=
  let bytes := utf8 text in
  spend (op_groups e)
  (tbind (match op_k e with
          | OpVm => tmap Ok (vm_exec_loop_t (op_tab e) 0 0 (no_bounds (op_groups e)) bytes)
          | OpFun runs => fun_exec_t (S (length bytes)) (op_tab e) runs 0 true 0 (no_bounds (op_groups e)) bytes
          end)
         (fun r => match r with
                   | Ok b => run_finish_t text (b, 0)
                   | Panic => (Panic, 0) | Fuel => (Fuel, 0) | NoCompile => (NoCompile, 0)
                   end)).

(** ** The DFA engines (dfa_u8.rs) *)
(** Generated [test], eng:33-146 *)
Fixpoint dfa_test_loop_t (d : dfa) (s : option nat) (bytes : list N) : ticks bool :=
  let st := d_get d s in
  match bytes with
  | [] => (match ds_acc st with DNone => false | _ => true end, 1)
  | c :: r =>
      spend 1
      (match ds_acc st with
       | DAlways => (true, 0)
       | _ => tbind (tfind (fun t => in_range c (snd t)) (ds_trans st)) (fun o => match o with
                | Some t => dfa_test_loop_t d (Some (fst t)) r
                | None => (false, 0)
                end)
       end)
  end.
Definition dfa_run_test_t (d : dfa) (bytes : list N) : ticks bool :=
  match ds_acc (d_start d) with DAlways => (true, 1) | _ => dfa_test_loop_t d None bytes end.
(** Generated [exec], eng:147-322: the bounds of every thread are copied *)
Definition tt_apply_t (i g : nat) (t : ttrans) (old : list bounds) : ticks (list bounds) :=
  (tt_apply i g t old, length (tt_copy t) * (1 + g) + length (tt_add t)).
Definition acc_apply_t (i g : nat) (a : acc_tr) (old : list bounds) : ticks bounds := (acc_apply i g a old, length (at_tags a)).
Fixpoint tdfa_exec_loop_t (d : tdfa) (g : nat) (s : option nat) (i : nat) (tags : list bounds) (bytes : list N) : ticks (option bounds) :=
  let st := td_get d s in
  match bytes with
  | [] => spend 1 (match ts_acc st with
                   | ANone => (None, 0)
                   | AAnch a | ABoth a _ | AUnan a => tmap Some (acc_apply_t i g a tags)
                   end)
  | c :: r =>
      spend 1
      (tbind (tfind (fun t => in_range c (tt_sym t)) (ts_trans st)) (fun o => match o with
         | Some t => tbind (tt_apply_t i g t tags) (fun tags => tdfa_exec_loop_t d g (Some (tt_to t)) (S i) tags r)
         | None => (None, 0)
         end))
  end.
Definition tdfa_run_exec_t (d : tdfa) (bytes : list N) : ticks (option bounds) :=
  let g := tdfa_groups d in spend g (tdfa_exec_loop_t d g None 0 [no_bounds g] bytes).
Definition dfa_test_t (d : tdfa) (text : list N) : ticks (res bool) :=
  match dfa_from_tagged d with
  | Ok m => tmap Ok (dfa_run_test_t m (utf8 text))
  | Panic => (Panic, 0) | Fuel => (Fuel, 0) | NoCompile => (NoCompile, 0)
  end.
Definition dfa_exec_t (d : tdfa) (text : list N) : ticks (res (option (list (option span)))) :=
  match dfa_from_tagged d with
  | Ok _ => run_finish_t text (tdfa_run_exec_t d (utf8 text))
  | Panic => (Panic, 0) | Fuel => (Fuel, 0) | NoCompile => (NoCompile, 0)
  end.

(** ** All engines *)
Fixpoint engine_test_t (e : engine) (text : list N) : ticks (res bool) :=
  match e with
  | EOnePass e => op_test_t e text
  | EDfa d => dfa_test_t d text
  | EFlatU8 n => flat_u8_test_t n text
  | EFlat n => flat_char_test_t n text
  | EFixed e _ => engine_test_t e text
  end.
(** fixed_offset.rs:88-100: [test], then one slice per group *)
Definition engine_exec_t (e : engine) (text : list N) : ticks (res (option (list (option span)))) :=
  match e with
  | EOnePass e => op_exec_t e text
  | EDfa d => dfa_exec_t d text
  | EFlatU8 n => flat_u8_exec_t n text
  | EFlat n => flat_char_exec_t n text
  | EFixed e offs => tbind (engine_test_t e text) (fun r => match r with
                       | Ok m => (fo_exec offs m text, length offs)
                       | Panic => (Panic, 0) | Fuel => (Fuel, 0) | NoCompile => (NoCompile, 0)
                       end)
  end.
