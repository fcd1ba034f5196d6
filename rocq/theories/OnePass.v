(** The one-pass engine.  Models [ere-core/src/engines/one_pass_u8.rs]: the compile-time analysis, and
    the behaviour of the generated [test]/[exec] functions read off the [quote!] templates. *)
From Verif Require Export U8Nfa EpsProp Flat.
Open Scope nat_scope.
Open Scope list_scope.

(** [ThreadUpdates], one_pass_u8.rs:22-37 *)
Record tupd := mkTu { tu_state : nat; tu_caps : list (bool * bool); tu_start : bool; tu_end : bool }.
Definition tu_new (s g : nat) : tupd := mkTu s (repeat (false, false) g) false false.
Definition bb_eqb (a b : bool * bool) : bool := Bool.eqb (fst a) (fst b) && Bool.eqb (snd a) (snd b).
Definition tupd_eqb (a b : tupd) : bool :=
  (tu_state a =? tu_state b) && list_eqb bb_eqb (tu_caps a) (tu_caps b)
  && Bool.eqb (tu_start a) (tu_start b) && Bool.eqb (tu_end a) (tu_end b).

(** [compute_excluded_states], 9-19 *)
Definition op_excluded (n : nfa range) : list bool :=
  fold_left (fun out s => fold_left (fun out (t : nat * range) => upd (fst t) false out) (trans s) out) n
            (upd 0 false (repeat true (length n))).

(** A thread after one epsilon transition, 65-77.  [update_captures[c]] out of range is guarded in
    [op_make]. *)
Definition tu_step (th : tupd) (e : nat * epsk) : tupd :=
  match snd e with
  | ENone => mkTu (fst e) (tu_caps th) (tu_start th) (tu_end th)
  | EStart => mkTu (fst e) (tu_caps th) true (tu_end th)
  | EEnd => mkTu (fst e) (tu_caps th) (tu_start th) true
  | ESC k => mkTu (fst e) (modify k (fun p => (true, snd p)) (tu_caps th)) (tu_start th) (tu_end th)
  | EEC k => mkTu (fst e) (modify k (fun p => (fst p, true)) (tu_caps th)) (tu_start th) (tu_end th)
  end.

Definition strans := (range * tupd)%type.
Definition strans_eqb (a b : strans) : bool := range_eqb (fst a) (fst b) && tupd_eqb (snd a) (snd b).

(** State of the loop 60-98 for one starting state: [stack], [reached], symbol transitions and accept
    transitions found so far. *)
Definition op_loop_state := (list tupd * list tupd * list strans * list tupd)%type.
Definition op_push (acc : list tupd * list tupd) (th' : tupd) : list tupd * list tupd :=
  let '(stack, reached) := acc in
  if existsb (tupd_eqb th') reached then acc else (th' :: stack, reached ++ [th']).
Definition op_add_trans (acc : list strans) (x : strans) : list strans :=
  if existsb (strans_eqb x) acc then acc else acc ++ [x].
(** One iteration, 60-98 *)
Definition op_step (n : nfa range) (st : op_loop_state) : op_loop_state + (list strans * list tupd) :=
  let '(stack, reached, syms, accs) := st in
  match stack with
  | [] => inr (syms, accs)
  | th :: stack =>
      let accs := if tu_state th + 1 =? length n then accs ++ [th] else accs in
      let s := get n (tu_state th) in
      let '(stack, reached) := fold_left op_push (map (tu_step th) (eps s)) (stack, reached) in
      let syms := fold_left op_add_trans
                    (map (fun t => (snd t, mkTu (fst t) (tu_caps th) (tu_start th) (tu_end th))) (trans s)) syms in
      inl (stack, reached, syms, accs)
  end.
(** 57-99 for one state.  The number of iterations is bounded by the number of possible threads,
    at most [2^(n + 2g + 2)]. *)
Definition op_explore (n : nfa range) (g s : nat) : res (list strans * list tupd) :=
  match pow_iter (length n + 2 * g + 4) (op_step n) (inl ([tu_new s g], [tu_new s g], [], [])) with
  | inr r => Ok r
  | inl _ => Fuel
  end.

(** [sort_by_key] on the start of the range, 101 *)
Definition op_sort (l : list strans) : list strans := sort_by_key (fun x => fst (fst x)) l.
(** 102-108: consecutive ranges do not overlap *)
Fixpoint op_disjoint (l : list strans) : bool :=
  match l with
  | a :: ((b :: _) as r) => (snd (fst a) <? fst (fst b))%N && op_disjoint r
  | _ => true
  end.

(** The tables computed by [serialize_one_pass_token_stream], 50-112. *)
Record op_tables := mkOp { op_syms : list (list strans); op_accs : list (list tupd) }.
Definition op_analyse (n : nfa range) : res (option op_tables) :=
  do rs <- mapM (op_explore n (num_capture_groups n)) (seq 0 (length n));
  let syms := map (fun r => op_sort (fst r)) rs in
  if forallb op_disjoint syms then Ok (Some (mkOp syms (map snd rs))) else Ok None.

(** ** Runs, 146-276 *)
(** [Tag] with its derived order, 140-144: all [StartCapture] before all [EndCapture]. *)
Definition rtag_leb (a b : nat * tag) : bool :=
  if fst a <? fst b then true
  else if fst b <? fst a then false
  else match snd a, snd b with
       | TagS k, TagS l => k <=? l
       | TagS _, TagE _ => true
       | TagE _, TagS _ => false
       | TagE k, TagE l => k <=? l
       end.
Record run := mkRun { run_symbols : list range; run_tags : list (nat * tag); run_end : nat }.
Inductive inclusion := RStart (r : run) | RInternal | REnd | RNone.

(** 193-198 *)
Definition op_incoming (syms : list (list strans)) (s : nat) : nat :=
  length (filter (fun x => tu_state (snd x) =? s) (concat syms)).
(** 209-219 *)
Definition tu_tags (tu : tupd) : list tag :=
  flat_map (fun '((i, p) : nat * (bool * bool)) => (if fst p then [TagS i] else []) ++ (if snd p then [TagE i] else [])) (enumerate (tu_caps tu)).
(** 200-222 *)
Definition run_next (syms : list (list strans)) (s : nat) : option (nat * range * list tag) :=
  match nth s syms [] with
  | [(r, tu)] => if tu_end tu || tu_start tu || negb (op_incoming syms (tu_state tu) =? 1) then None
                 else Some (tu_state tu, r, tu_tags tu)
  | _ => None
  end.
Definition is_some {X} (o : option X) : bool := match o with Some _ => true | None => false end.
(** 225-230 *)
Definition run_start (syms : list (list strans)) (s : nat) : bool :=
  is_some (run_next syms s)
  && negb (existsb (fun t => match run_next syms t with Some (x, _, _) => x =? s | None => false end)
                   (seq 0 (length syms))).
(** 242-255: the accumulated symbols, tags, internal states and final state *)
Fixpoint run_walk (fuel : nat) (syms : list (list strans)) (start s : nat)
         (rs : list range) (tags : list (nat * tag)) (int : list nat)
  : res (list range * list (nat * tag) * list nat * nat) :=
  match fuel with
  | O => Fuel
  | S f =>
      match run_next syms s with
      | Some (next, r, ts) =>
          if next =? start then Ok (rs, tags, int, s)
          else run_walk f syms start next (rs ++ [r]) (tags ++ map (fun t => (length rs, t)) ts) (int ++ [next])
      | None => Ok (rs, tags, int, s)
      end
  end.
(** [compute_runs], 190-276 *)
Definition compute_runs (syms : list (list strans)) : res (list inclusion) :=
  foldM (fun out start =>
           if run_start syms start then
             do w <- run_walk (S (length syms)) syms start start [] [] [];
             let '(rs, tags, int, e) := w in
             if e =? start then Ok out
             else
               let out := upd start (RStart (mkRun rs (sort_le rtag_leb tags) e)) out in
               let out := fold_left (fun out i => upd i RInternal out) int out in
               Ok (upd e REnd out)
           else Ok out)
        (seq 0 (length syms)) (repeat RNone (length syms)).

(** ** Engines *)
Inductive op_kind :=
| OpVm                               (* [codegen_vmlike] *)
| OpFun (runs : list inclusion).     (* [codegen_functional] *)
Record op_engine := mkEngine { op_groups : nat; op_tab : op_tables; op_k : op_kind }.

Definition tu_tags_ok (n : nfa range) : bool :=
  forallb (fun s => forallb (fun e => match snd e with ESC k | EEC k => k <? num_capture_groups n | _ => true end) (eps s)) n.

(** Whether the code generated for [codegen_vmlike] compiles: the guard [if i == 0] of a final match
    arm (350-351, 488-489) mentions [i], which is not in scope there. *)
Definition vm_compiles (n : nfa range) (tab : op_tables) : bool :=
  forallb (fun '(ex, accs) => ex || forallb (fun tu => negb (tu_start tu)) accs)
          (combine (op_excluded n) (op_accs tab)).
(** Whether the code generated for [codegen_functional] compiles: [compile_error!] when a state has
    several accept transitions (936-938), and every called function must have been emitted
    (1061-1075, 1083-1100). *)
Definition fun_emitted (ex : list bool) (runs : list inclusion) (s : nat) : bool :=
  negb (nth s ex true) && match nth s runs RNone with RInternal => false | _ => true end.
Definition fun_compiles (n : nfa range) (tab : op_tables) (runs : list inclusion) : bool :=
  let ex := op_excluded n in
  fun_emitted ex runs 0 &&
  forallb (fun s =>
             if nth s ex true then true
             else match nth s runs RNone with
                  | RInternal => true
                  | RStart r => fun_emitted ex runs (run_end r)
                  | _ => (length (nth s (op_accs tab) []) <=? 1)
                         && forallb (fun x => fun_emitted ex runs (tu_state (snd x))) (nth s (op_syms tab) [])
                  end)
          (seq 0 (length n)).

(** [serialize_one_pass_token_stream], 50-138: [None] if the automaton is not one-pass. *)
Definition op_make (n : nfa range) : res (option op_engine) :=
  do _ <- guard (wfb n && tu_tags_ok n);
  do t <- op_analyse n;
  match t with
  | None => Ok None
  | Some tab =>
      do o <- topological_ordering n;
      match o with
      | Some _ =>
          do runs <- compute_runs (op_syms tab);
          if fun_compiles n tab runs then Ok (Some (mkEngine (num_capture_groups n) tab (OpFun runs))) else NoCompile
      | None => if vm_compiles n tab then Ok (Some (mkEngine (num_capture_groups n) tab OpVm)) else NoCompile
      end
  end.

(** Capture updates of a thread at text index [i], 451-463, 493-505, 885-908 *)
Definition apply_tu (i : nat) (tu : tupd) (b : bounds) : bounds := apply_tags i (tu_tags tu) b.

(** ** The vm-like engine, 295-589 *)
(** The match arm for [(state, c)], 312-332, 437-471 *)
Definition vm_arm (tab : op_tables) (s i : nat) (c : N) : option tupd :=
  match find (fun x => negb (tu_end (snd x)) && in_range c (fst x) && (negb (tu_start (snd x)) || (i =? 0)))
             (nth s (op_syms tab) []) with
  | Some (_, tu) => Some tu
  | None => None
  end.
Fixpoint vm_test_loop (tab : op_tables) (s i : nat) (bytes : list N) : bool :=
  match bytes with
  | [] => match nth s (op_accs tab) [] with [] => false | _ => true end
  | c :: r => match vm_arm tab s i c with
              | Some tu => vm_test_loop tab (tu_state tu) (S i) r
              | None => false
              end
  end.
Fixpoint vm_exec_loop (tab : op_tables) (s i : nat) (b : bounds) (bytes : list N) : option bounds :=
  match bytes with
  | [] => match nth s (op_accs tab) [] with [] => None | tu :: _ => Some (apply_tu i tu b) end
  | c :: r => match vm_arm tab s i c with
              | Some tu => vm_exec_loop tab (tu_state tu) (S i) (apply_tu i tu b) r
              | None => None
              end
  end.

(** ** The functional engine, 641-1130 *)
(** Condition of a match arm in a state function, 719-728 *)
Definition fun_cond (s : nat) (start : bool) (tu : tupd) : bool :=
  if tu_end tu || (tu_start tu && negb (s =? 0)) then false
  else if tu_start tu && (s =? 0) then start
  else true.
Definition fun_arm (tab : op_tables) (s : nat) (start : bool) (c : N) : option tupd :=
  match find (fun x => in_range c (fst x) && fun_cond s start (snd x)) (nth s (op_syms tab) []) with
  | Some (_, tu) => Some tu
  | None => None
  end.
(** [run_part] matches the ranges, 663-676 *)
Fixpoint match_run (rs : list range) (bytes : list N) : option (list N) :=
  match rs, bytes with
  | [], _ => Some bytes
  | r :: rs', c :: bytes' => if in_range c r then match_run rs' bytes' else None
  | _ :: _, [] => None
  end.
(** The end case of [test], 700-712 *)
Definition fun_end_test (s : nat) (start : bool) (accs : list tupd) : bool :=
  match accs with
  | [] => false
  | _ => if existsb (fun tu => negb (tu_start tu)) accs then true
         else if s =? 0 then start else false
  end.
(** The end case of [exec], 911-939 (several accepts do not compile) *)
Definition fun_end_exec (s : nat) (start : bool) (i : nat) (b : bounds) (accs : list tupd) : option bounds :=
  match accs with
  | [] => None
  | tu :: _ => if tu_start tu
               then if s =? 0 then (if start then Some (apply_tu i tu b) else None) else None
               else Some (apply_tu i tu b)
  end.
(** State functions of [test]; each call consumes at least one byte, so [fuel = S (length bytes)]. *)
Fixpoint fun_test (fuel : nat) (tab : op_tables) (runs : list inclusion) (s : nat) (start : bool) (bytes : list N) : res bool :=
  match fuel with
  | O => Fuel
  | S f =>
      match nth s runs RNone with
      | RStart r => match match_run (run_symbols r) bytes with
                    | Some rest => fun_test f tab runs (run_end r) false rest
                    | None => Ok false
                    end
      | _ => match bytes with
             | [] => Ok (fun_end_test s start (nth s (op_accs tab) []))
             | c :: rest => match fun_arm tab s start c with
                            | Some tu => fun_test f tab runs (tu_state tu) false rest
                            | None => Ok false
                            end
             end
      end
  end.
(** State functions of [exec], 808-983 *)
Fixpoint fun_exec (fuel : nat) (tab : op_tables) (runs : list inclusion) (s : nat) (start : bool) (i : nat)
         (b : bounds) (bytes : list N) : res (option bounds) :=
  match fuel with
  | O => Fuel
  | S f =>
      match nth s runs RNone with
      | RStart r => match match_run (run_symbols r) bytes with
                    | Some rest =>
                        let b := fold_left (fun b t => apply_tag (fst t + i) b (snd t)) (run_tags r) b in
                        fun_exec f tab runs (run_end r) false (i + length (run_symbols r)) b rest
                    | None => Ok None
                    end
      | _ => match bytes with
             | [] => Ok (fun_end_exec s start i b (nth s (op_accs tab) []))
             | c :: rest => match fun_arm tab s start c with
                            | Some tu => fun_exec f tab runs (tu_state tu) false (S i) (apply_tu i tu b) rest
                            | None => Ok None
                            end
             end
      end
  end.

Definition op_test (e : op_engine) (text : list N) : res bool :=
  let bytes := utf8 text in
  match op_k e with
  | OpVm => Ok (vm_test_loop (op_tab e) 0 0 bytes)
  | OpFun runs => fun_test (S (length bytes)) (op_tab e) runs 0 true bytes
  end.
Definition op_exec (e : op_engine) (text : list N) : res (option (list (option span))) :=
  let bytes := utf8 text in
  do b <- match op_k e with
          | OpVm => Ok (vm_exec_loop (op_tab e) 0 0 (no_bounds (op_groups e)) bytes)
          | OpFun runs => fun_exec (S (length bytes)) (op_tab e) runs 0 true 0 (no_bounds (op_groups e)) bytes
          end;
  run_finish text b.
