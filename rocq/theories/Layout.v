(** Drawing of automata.  Models [ere-core/src/visualization/layout.rs] and [latex_graph.rs], and the
    [to_tikz] methods of the automata. *)
From Coq Require Import String ZArith.
From Verif Require Export Display Dfa.
Open Scope nat_scope.
Open Scope list_scope.

(** ** Graphs, latex_graph.rs:23-27, 50-56, 90-92 *)
(** [LatexGraphTransition]: target and label *)
Definition gtrans := (nat * list N)%type.
(** [LatexGraphState] *)
Record gstate := mkG { g_label : list N; g_trans : list gtrans; g_initial : bool; g_accept : bool }.
(** [LatexGraph] *)
Definition graph := list gstate.
Definition gsucc (g : graph) (i : nat) : list gtrans := match nth_error g i with Some s => g_trans s | None => [] end.

(** ** layout.rs *)
(** [StackItem], layout.rs:27-31 *)
Inductive dag_item := DPre (node depth : nat) | DPost (node : nat).
(** The loop of [check_dag], layout.rs:34-58; head of the list = top of the stack.  [active] has the length of [done],
    so indexing it cannot fail where indexing [done] does not. *)
Fixpoint check_loop (fuel : nat) (g : graph) (done active : list bool) (stack : list dag_item) : res bool :=
  match stack with
  | [] => Ok (forallb (fun b => b) done)
  | item :: st =>
      match fuel with
      | O => Fuel
      | S f =>
          match item with
          | DPre node depth =>
              match nth_error done node with
              | None => Panic
              | Some true => check_loop f g done active st
              | Some false =>
                  if nth node active false then Ok false
                  else check_loop f g done (upd node true active)
                         (rev (map (fun tr => DPre (fst tr) (S depth)) (filter (fun tr => negb (fst tr =? node)) (gsucc g node)))
                          ++ DPost node :: st)
              end
          | DPost node => check_loop f g (upd node true done) active st
          end
      end
  end.
Definition arc_count (g : graph) : nat := fold_right (fun s k => length (g_trans s) + k) 0 g.
(** [check_dag], layout.rs:21-60 *)
Definition check_dag (g : graph) : res bool :=
  match g with
  | [] => Ok false
  | _ => check_loop (arc_count g + length g + 2) g (repeat false (length g)) (repeat false (length g)) [DPre 0 0]
  end.

(** [DAGLayout] without its reference to the graph; [None] is [usize::MAX]. *)
Record dag_layout := mkDag { dl_depths : list (option nat); dl_max : nat }.
(** The loop of [DAGLayout::new], layout.rs:68-81 *)
Fixpoint depth_loop (fuel : nat) (g : graph) (depths : list (option nat)) (m : nat) (stack : list (nat * nat)) : res dag_layout :=
  match stack with
  | [] => Ok (mkDag depths m)
  | (node, depth) :: st =>
      match fuel with
      | O => Fuel
      | S f =>
          match nth_error depths node with
          | None => Panic
          | Some o =>
              if match o with Some d => d <? depth | None => true end
              then depth_loop f g (upd node (Some depth) depths) (Nat.max m depth)
                     (rev (map (fun tr => (fst tr, S depth)) (filter (fun tr => negb (fst tr =? node)) (gsucc g node))) ++ st)
              else depth_loop f g depths m st
          end
      end
  end.
(** [DAGLayout::new], layout.rs:62-88 *)
Definition dag_new (g : graph) : res (option dag_layout) :=
  do b <- check_dag g;
  if b then do l <- depth_loop (length g * arc_count g + length g + 1) g (repeat None (length g)) 0 [(0, 0)]; Ok (Some l)
  else Ok None.

(** [layout], layout.rs:91-116.  The result is the pair of [x] and twice [y]: both are integers, and exact as [f64] below 2^53. *)
Definition dag_place (l : dag_layout) : res (list (nat * Z)) :=
  do sizes <- foldM (fun sizes o =>
                match o with
                | Some d => if d <? dl_max l + 2 then Ok (modify d S sizes) else Panic
                | None => Panic
                end) (dl_depths l) (repeat 0 (dl_max l + 2));
  do r <- foldM (fun acc o =>
                let '(used, out) := acc in
                match o with
                | Some d => if d <? dl_max l + 2
                            then Ok (modify d S used, out ++ [(d, (2 * Z.of_nat (nth d used O) - Z.of_nat (nth d sizes O))%Z)])
                            else Panic
                | None => Panic
                end) (dl_depths l) (repeat 0 (dl_max l + 2), []);
  Ok (snd r).

(** ** latex_graph.rs *)
(** [escape_latex], latex_graph.rs:3-21 *)
Definition escape_char (c : N) : list N :=
  if (c =? ch "\")%N then s2l "{\textbackslash}"
  else if (c =? ch "&")%N then s2l "\&"
  else if (c =? ch "%")%N then s2l "\%"
  else if (c =? ch "$")%N then s2l "\$"
  else if (c =? ch "#")%N then s2l "\#"
  else if (c =? ch "_")%N then s2l "\_"
  else if (c =? ch "{")%N then s2l "\{"
  else if (c =? ch "}")%N then s2l "\}"
  else if (c =? ch "~")%N then s2l "{\textasciitilde}"
  else if (c =? ch "^")%N then s2l "{\textasciicircum}"
  else [c].
Definition escape_latex (s : list N) : list N := flat_map escape_char s.

(** [usize]'s and (for integers) [f64]'s [Display] *)
Definition show_nat (n : nat) : list N := show_N (N.of_nat n).
Definition show_Z (z : Z) : list N := (if (z <? 0)%Z then s2l "-" else []) ++ show_N (Z.abs_N z).
Definition nl : list N := [10%N].

(** [LatexGraphTransition::display_in_line], latex_graph.rs:29-40 *)
Definition edge_bent (from : nat) (tr : gtrans) : list N :=
  s2l "\path[->] (q" ++ show_nat from ++ s2l ") edge " ++ (if fst tr =? from then s2l "[loop below]" else s2l "[bend left] ")
  ++ s2l " node {" ++ snd tr ++ s2l "} (q" ++ show_nat (fst tr) ++ s2l ");" ++ nl.
(** [display_straight], latex_graph.rs:41-47 *)
Definition edge_straight (from : nat) (tr : gtrans) : list N :=
  s2l "\path[->] (q" ++ show_nat from ++ s2l ") edge node {" ++ snd tr ++ s2l "} (q" ++ show_nat (fst tr) ++ s2l ");" ++ nl.
(** The modifiers, latex_graph.rs:60-66, 79-85 *)
Definition node_mods (s : gstate) : list N :=
  (if g_initial s then s2l ", initial" else []) ++ (if g_accept s then s2l ", accepting" else []).
(** [LatexGraphState::display_in_line], latex_graph.rs:59-76 *)
Definition node_in_line (idx : nat) (s : gstate) : list N :=
  match idx with
  | O => s2l "\node[state" ++ node_mods s ++ s2l "](q0){" ++ escape_latex (g_label s) ++ s2l "};" ++ nl
  | S i => s2l "\node[state" ++ node_mods s ++ s2l ", right of=q" ++ show_nat i ++ s2l "](q" ++ show_nat idx ++ s2l "){"
           ++ escape_latex (g_label s) ++ s2l "};" ++ nl
  end.
(** [display_at], latex_graph.rs:78-87, called with both coordinates doubled *)
Definition node_at (idx : nat) (s : gstate) (p : nat * Z) : list N :=
  s2l "\node[state" ++ node_mods s ++ s2l "](q" ++ show_nat idx ++ s2l ") at (" ++ show_nat (2 * fst p) ++ s2l ", " ++ show_Z (snd p)
  ++ s2l ") {" ++ escape_latex (g_label s) ++ s2l "};" ++ nl.

(** The text of one state and of its transitions, latex_graph.rs:115-133 *)
Definition draw_state (lay : option (list (nat * Z))) (i : nat) (s : gstate) : res (list N * list N) :=
  match lay with
  | None => Ok (node_in_line i s, flat_map (edge_bent i) (g_trans s))
  | Some ps =>
      match nth_error ps i with
      | None => Panic
      | Some p =>
          do es <- mapM (fun tr => match nth_error ps (fst tr) with
                                   | None => Panic
                                   | Some q => Ok (if (fst p + 1 <? fst q) then edge_bent i tr else edge_straight i tr)
                                   end) (g_trans s);
          Ok (node_at i s p, concat es)
      end
  end.
(** [LatexGraph::to_tikz], latex_graph.rs:98-143, and [pick_layout], 145-152 *)
Definition graph_tikz (g : graph) (include_doc : bool) : res (list N) :=
  do d <- dag_new g;
  do lay <- match d with None => Ok None | Some l => do ps <- dag_place l; Ok (Some ps) end;
  do parts <- mapM (fun x => draw_state lay (fst x) (snd x)) (enumerate g);
  Ok ((if include_doc then s2l "\documentclass{standalone}" ++ nl ++ s2l "\usepackage{tikz}" ++ nl
                           ++ s2l "\usetikzlibrary{automata, positioning}" ++ nl ++ s2l "\begin{document}" ++ nl else [])
      ++ s2l "\begin{tikzpicture}[node distance=2cm, auto]" ++ nl
      ++ flat_map fst parts ++ flat_map snd parts
      ++ s2l "\end{tikzpicture}" ++ nl
      ++ (if include_doc then s2l "\end{document}" ++ nl else [])).

(** ** Graphs of automata *)
(** The labels of zero-width edges, working_nfa.rs:909-917 and working_u8_nfa.rs:900-907 *)
Definition eps_label (i : nat) (e : epsk) : list N :=
  match e with
  | ENone => s2l "$\epsilon_{" ++ show_nat i ++ s2l "}$"
  | EStart => s2l "{\textasciicircum}$_{" ++ show_nat i ++ s2l "}$"
  | EEnd => s2l "$\$_{" ++ show_nat i ++ s2l "}$"
  | ESC k => s2l "$" ++ show_nat k ++ s2l "(_{" ++ show_nat i ++ s2l "}$"
  | EEC k => s2l "$)" ++ show_nat k ++ s2l "_{" ++ show_nat i ++ s2l "}$"
  end.
(** [to_tikz] of the two kinds of NFA, working_nfa.rs:898-932 and working_u8_nfa.rs:889-922 *)
Definition nfa_graph {A} (show : A -> list N) (n : nfa A) : graph :=
  map (fun '(i, s) =>
         mkG (s2l "q" ++ show_nat i)
             (map (fun t => (fst t, escape_latex (show (snd t)))) (trans s)
              ++ map (fun '(k, e) => (fst e, eps_label k (snd e))) (enumerate (eps s)))
             (i =? 0) (i + 1 =? length n))
      (enumerate n).

(** [u8::escape_ascii] (standard library): tab, return, newline, quotes and backslash get a backslash, other printable bytes print as themselves, the rest in hexadecimal. *)
Definition hex_digit (d : N) : N := if (d <? 10)%N then (ch "0" + d)%N else (ch "a" + (d - 10))%N.
Definition hex2 (b : N) : list N := [hex_digit (b / 16)%N; hex_digit (b mod 16)%N].
Definition escape_ascii (b : N) : list N :=
  if (b =? 9)%N then s2l "\t"
  else if (b =? 10)%N then s2l "\n"
  else if (b =? 13)%N then s2l "\r"
  else if (b =? 39)%N || (b =? 34)%N || (b =? 92)%N then [ch "\"; b]
  else if (32 <=? b)%N && (b <=? 126)%N then [b]
  else s2l "\x" ++ hex2 b.
(** [Display for U8Atom], working_u8_nfa.rs:28-42 *)
Definition show_u8_atom (r : range) : list N :=
  if (fst r =? snd r)%N then escape_ascii (fst r)
  else s2l "[" ++ escape_ascii (fst r) ++ s2l "-" ++ escape_ascii (snd r) ++ s2l "]".
(** [DisplayByteChar], working_u8_dfa.rs:796-812.  [{:?}] of a graphic ASCII [char] quotes it and escapes the quote and the backslash;
    of the only white space left, form feed, it prints the code point. *)
Definition show_byte_char (b : N) : list N :=
  if (33 <=? b)%N && (b <=? 126)%N then s2l "'" ++ (if (b =? 39)%N || (b =? 92)%N then [ch "\"; b] else [b]) ++ s2l "'"
  else if (b =? 9)%N then s2l "'\t'"
  else if (b =? 10)%N then s2l "'\n'"
  else if (b =? 13)%N then s2l "'\r'"
  else if (b =? 32)%N then s2l "' '"
  else if (b =? 12)%N then s2l "'\u{c}'"
  else s2l "0x" ++ hex2 b.
(** [DisplayRange], working_u8_dfa.rs:814-826 *)
Definition show_byte_range (r : range) : list N :=
  if (fst r =? snd r)%N then show_byte_char (fst r) else show_byte_char (fst r) ++ s2l "..=" ++ show_byte_char (snd r).

(** [WorkingNFA::to_tikz], [U8NFA::to_tikz] *)
Definition working_tikz (n : nfa atom) (include_doc : bool) : res (list N) := graph_tikz (nfa_graph show_atom n) include_doc.
Definition u8_tikz (n : nfa range) (include_doc : bool) : res (list N) := graph_tikz (nfa_graph show_u8_atom n) include_doc.

(** The extra accepting state of the DFA drawings, working_u8_dfa.rs:462-467, 651-656 *)
Definition accept_gstate : gstate := mkG (s2l "accept") [] false true.
(** [make_label], working_u8_dfa.rs:468-471 *)
Fixpoint join_comma (ss : list (list N)) : list N :=
  match ss with
  | [] => []
  | [s] => s
  | s :: ss' => s ++ s2l "," ++ join_comma ss'
  end.
(** [U8TDFA::to_tikz], working_u8_dfa.rs:461-521 *)
Definition tdfa_graph (d : tdfa) : graph :=
  map (fun '(i, s) =>
         mkG (join_comma (map show_nat (ts_nfa s)))
             (map (fun t => (tt_to t + 1, escape_latex (show_byte_range (tt_sym t)))) (ts_trans s)
              ++ match ts_acc s with
                 | AAnch _ => [(length (td_states d) + 1, s2l "\$")]
                 | ABoth _ _ | AUnan _ => [(length (td_states d) + 1, [])]
                 | ANone => []
                 end)
             (i =? 0) false)
      (enumerate (td_start d :: td_states d))
  ++ [accept_gstate].
Definition tdfa_tikz (d : tdfa) (include_doc : bool) : res (list N) := graph_tikz (tdfa_graph d) include_doc.
(** [U8DFA::to_tikz], working_u8_dfa.rs:650-704 *)
Definition dfa_graph (d : dfa) : graph :=
  map (fun '(i, s) =>
         mkG (show_nat i)
             (map (fun t => (fst t + 1, escape_latex (show_byte_range (snd t)))) (ds_trans s)
              ++ match ds_acc s with
                 | DAnchored => [(length (d_states d) + 1, s2l "\$")]
                 | DAlways => [(length (d_states d) + 1, [])]
                 | DNone => []
                 end)
             (i =? 0) false)
      (enumerate (d_start d :: d_states d))
  ++ [accept_gstate].
Definition dfa_tikz (d : dfa) (include_doc : bool) : res (list N) := graph_tikz (dfa_graph d) include_doc.
