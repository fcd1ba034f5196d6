(** Drawings of automata: C40, C41, C42, C43, C44. *)
From Coq Require Import String ZArith.
From Verif Require Import PDraw PLabel Pick.
Open Scope nat_scope.
Open Scope list_scope.

(** C40.  The check before laying out a graph ends, and says yes exactly when the graph has layers. *)
Theorem C40_check : forall g, graph_ok g -> exists b, check_dag g = Ok b /\ (b = true <-> layered g).
Proof. exact check_dag_spec. Qed.
Print Assumptions C40_check.
Definition sample (l : list (list nat)) : graph := map (fun ts => mkG [] (map (fun t => (t, [])) ts) false false) l.
(** A node with a loop is no obstacle; a way round through two nodes is, and so is a node that is not reached. *)
Example C40_case :
  map check_dag [sample [[1; 2]; [2; 1]; [2; 3]; []]; sample [[1]; [2]; [1]]; sample [[1]; []; [1]]; sample [[0]]; []]
  = map Ok [true; false; false; true; false].
Proof. vm_compute. reflexivity. Qed.
Example C40_case_layered : layered (sample [[1; 2]; [2; 1]; [2; 3]; []]).
Proof.
  destruct (C40_check (sample [[1; 2]; [2; 1]; [2; 3]; []])) as (b & E & Hb); [|apply Hb; vm_compute in E; congruence].
  intros s y l Hs Hy. cbn in Hs. repeat destruct Hs as [<-|Hs]; cbn in Hy; repeat destruct Hy as [[= <- _]|Hy]; cbn; try destruct Hy; try destruct Hs; auto with arith.
Qed.

(** C41.  If the graph has layers, the layout succeeds: every node is put at the distance of the longest trail from the first
    node, so every arc leads to the right, and no two nodes are put at the same place.  If not, there is no layout. *)
Theorem C41_layout : forall g, graph_ok g -> layered g -> exists l ps, dag_new g = Ok (Some l) /\ dag_place l = Ok ps /\
  List.length ps = List.length g /\ NoDup ps /\ (forall x p, nth_error ps x = Some p -> longest g 0 x (fst p)) /\
  (forall x y p q, arc g x y -> nth_error ps x = Some p -> nth_error ps y = Some q -> fst p < fst q).
Proof. exact placed. Qed.
Print Assumptions C41_layout.
Theorem C41_none : forall g, graph_ok g -> ~ layered g -> dag_new g = Ok None.
Proof. exact dag_new_not. Qed.
Print Assumptions C41_none.
Example C41_case :
  (do l <- dag_new (sample [[3; 1; 2]; [2]; [3]; [3; 4]; []; []]); Ok l) = Ok None /\
  (do l <- dag_new (sample [[3; 1; 2; 5]; [2]; [3]; [3; 4]; []; [4]]); match l with Some l => do ps <- dag_place l; Ok ps | None => Panic end)
  = Ok [(0, (-1)%Z); (1, (-2)%Z); (2, (-1)%Z); (3, (-1)%Z); (4, (-1)%Z); (1, 0%Z)].
Proof. split; vm_compute; reflexivity. Qed.

(** C42.  An escaped text is set by LaTeX as the text itself; so different texts have different escaped forms. *)
Theorem C42_escape : forall s, prints (escape_latex s) s.
Proof. exact escape_prints. Qed.
Print Assumptions C42_escape.
Theorem C42_unique : forall s t t', prints s t -> prints s t' -> t = t'.
Proof. intros s t t' H1 H2. exact (prints_fun s t H1 t' H2). Qed.
Print Assumptions C42_unique.
Theorem C42_injective : forall s t, escape_latex s = escape_latex t -> s = t.
Proof. intros s t E. apply (C42_unique (escape_latex s)); [apply C42_escape|rewrite E; apply C42_escape]. Qed.
Print Assumptions C42_injective.
Example C42_case : escape_latex (s2l "a_b^{2}\$") = s2l "a\_b{\textasciicircum}\{2\}{\textbackslash}\$".
Proof. vm_compute. reflexivity. Qed.

(** C43.  The drawing of a graph never fails, and consists of one command for each node and one for each transition, in
    order, with the nodes placed as in C41, or on a line if there are no layers. *)
Theorem C43_drawing : forall g doc, graph_ok g -> exists pos nodes edges,
  graph_tikz g doc = Ok ((if doc then doc_head else []) ++ s2l "\begin{tikzpicture}[node distance=2cm, auto]" ++ newline ++ concat nodes ++ concat edges
                         ++ s2l "\end{tikzpicture}" ++ newline ++ (if doc then s2l "\end{document}" ++ newline else [])) /\
  positioned g pos /\
  Forall2 (fun '(i, s) t => exists p, nth_error pos i = Some p /\ node_cmd p i s t) (enumerate g) nodes /\
  Forall2 (fun '(i, tr) t => edge_cmd i tr t) (all_trans g) edges.
Proof. exact graph_tikz_spec. Qed.
Print Assumptions C43_drawing.
(** It applies to all automata made from patterns. *)
Theorem C43_patterns : forall s e n, G_ere e s -> Forall scalar s -> working_new (tree_of e) = Ok n -> n <> [] ->
  graph_ok (nfa_graph show_atom n) /\
  forall m, u8_new n = Ok m -> m <> [] -> graph_ok (nfa_graph show_u8_atom m) /\
    forall max d, tdfa_from_nfa m max = Ok (Some d) -> graph_ok (tdfa_graph d) /\
      forall d', dfa_from_tagged d = Ok d' -> graph_ok (dfa_graph d').
Proof.
  intros s e n Hg Hs En Hn. apply parse_iff in Hg. destruct (parsed_working_ne s e Hg Hs n En Hn) as [(Hok & _) _].
  split; [apply nfa_graph_ok, closed_wf, ok_wf; exact Hok|]. intros m Em Hm. destruct (parsed_u8_ne s e Hg Hs n m En Em Hm) as (Mok & _).
  assert (Hc := proj1 (closed_wf m) (ok_wf _ Mok)). assert (Hl : 1 <= List.length m) by (destruct m; [congruence|cbn; auto with arith]).
  split; [apply nfa_graph_ok; exact Hc|]. intros max d Ed. split; [apply tdfa_graph_ok; eapply tdfa_targets; eauto|].
  intros d' Ed'. apply dfa_graph_ok. eapply dfa_targets; eauto.
Qed.
Print Assumptions C43_patterns.
Example C43_case :
  with_ere (s2l "^a$") (fun e => do n <- working_new (tree_of e); working_tikz n false)
  = Ok (concat (map (fun t => s2l t ++ newline)
     ["\begin{tikzpicture}[node distance=2cm, auto]"; "\node[state, initial](q0) at (0, -1) {q0};"; "\node[state](q1) at (2, -1) {q1};";
      "\node[state](q2) at (4, -1) {q2};"; "\node[state](q3) at (6, -1) {q3};"; "\node[state](q4) at (8, -1) {q4};";
      "\node[state, accepting](q5) at (10, -1) {q5};"; "\path[->] (q0) edge node {$0(_{0}$} (q1);";
      "\path[->] (q1) edge node {{\textasciicircum}$_{0}$} (q2);"; "\path[->] (q2) edge node {a} (q3);";
      "\path[->] (q3) edge node {$\$_{0}$} (q4);"; "\path[->] (q4) edge node {$)0_{0}$} (q5);"; "\end{tikzpicture}"]%string)).
Proof. vm_compute. reflexivity. Qed.
Example C43_case_dfa : exists t,
  with_ere (s2l "^a|[b-d]$") (fun e => do n <- working_new (tree_of e); do m <- u8_new n; do o <- tdfa_from_nfa m 100;
    match o with None => NoCompile | Some d => do d' <- dfa_from_tagged d; dfa_tikz d' false end) = Ok t.
Proof. eexists. vm_compute. reflexivity. Qed.

(** C44.  Nothing is lost in a drawing: byte automata of patterns with the same graph are the same. *)
Theorem C44_bytes : forall r r', (fst r < 256 /\ snd r < 256)%N -> (fst r' < 256 /\ snd r' < 256)%N ->
  (escape_latex (show_u8_atom r) = escape_latex (show_u8_atom r') -> r = r') /\
  (escape_latex (show_byte_range r) = escape_latex (show_byte_range r') -> r = r').
Proof. intros r r' H H'. split; intros E; apply escape_inj in E; [now apply u8_label_inj|now apply range_label_inj]. Qed.
Print Assumptions C44_bytes.
Theorem C44_nfa : forall s e n m s' e' n' m', G_ere e s -> Forall scalar s -> working_new (tree_of e) = Ok n -> u8_new n = Ok m -> m <> [] ->
  G_ere e' s' -> Forall scalar s' -> working_new (tree_of e') = Ok n' -> u8_new n' = Ok m' -> m' <> [] ->
  nfa_graph show_u8_atom m = nfa_graph show_u8_atom m' -> m = m'.
Proof.
  intros s e n m s' e' n' m' Hg Hs En Em Hm Hg' Hs' En' Em' Hm'. apply parse_iff in Hg, Hg'.
  destruct (parsed_u8_ne s e Hg Hs n m En Em Hm) as (_ & _ & _ & _ & _ & B & _).
  destruct (parsed_u8_ne s' e' Hg' Hs' n' m' En' Em' Hm') as (_ & _ & _ & _ & _ & B' & _). apply nfa_graph_inj; apply byte_nfa_bytes; assumption.
Qed.
Print Assumptions C44_nfa.
Theorem C44_dfa : forall s e n m max d a s' e' n' m' max' d' a',
  G_ere e s -> Forall scalar s -> working_new (tree_of e) = Ok n -> u8_new n = Ok m -> m <> [] -> tdfa_from_nfa m max = Ok (Some d) -> dfa_from_tagged d = Ok a ->
  G_ere e' s' -> Forall scalar s' -> working_new (tree_of e') = Ok n' -> u8_new n' = Ok m' -> m' <> [] -> tdfa_from_nfa m' max' = Ok (Some d') -> dfa_from_tagged d' = Ok a' ->
  dfa_graph a = dfa_graph a' -> a = a'.
Proof.
  intros s e n m max d a s' e' n' m' max' d' a' Hg Hs En Em Hm Ed Ea Hg' Hs' En' Em' Hm' Ed' Ea' E. apply parse_iff in Hg, Hg'.
  destruct (parsed_u8_ne s e Hg Hs n m En Em Hm) as (M1 & _). destruct (parsed_u8_ne s' e' Hg' Hs' n' m' En' Em' Hm') as (M1' & _).
  assert (C := proj1 (closed_wf m) (ok_wf _ M1)). assert (C' := proj1 (closed_wf m') (ok_wf _ M1')).
  assert (L : 1 <= List.length m) by (destruct m; [congruence|cbn; auto with arith]). assert (L' : 1 <= List.length m') by (destruct m'; [congruence|cbn; auto with arith]).
  apply dfa_graph_inj in E.
  - destruct a, a'. cbn in E. destruct E as [-> ->]. reflexivity.
  - exact (dfa_bytes _ _ _ _ C L Ed Ea).
  - exact (dfa_bytes _ _ _ _ C' L' Ed' Ea').
  - apply Forall_forall. intros x Hx. apply Forall_forall. intros t Ht. exact (dfa_targets _ _ _ _ C L Ed Ea x t Hx Ht).
  - apply Forall_forall. intros x Hx. apply Forall_forall. intros t Ht. exact (dfa_targets _ _ _ _ C' L' Ed' Ea' x t Hx Ht).
Qed.
Print Assumptions C44_dfa.
Example C44_case : show_u8_atom (ch "[", ch "]") = s2l "[[-]]" /\ show_u8_atom (45, 92)%N = s2l "[--\\]" /\
  escape_latex (show_byte_range (0, ch "$")%N) = s2l "0x00..='\$'" /\
  with_ere (s2l "^a{2}$") (fun e => do n <- working_new (tree_of e); do m <- u8_new n; Ok (nfa_graph show_u8_atom m)) =
  with_ere (s2l "^aa$") (fun e => do n <- working_new (tree_of e); do m <- u8_new n; Ok (nfa_graph show_u8_atom m)).
Proof. repeat split; vm_compute; reflexivity. Qed.
