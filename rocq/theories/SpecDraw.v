(** Notions used in the statements about drawings: trails in a graph, and how LaTeX sets a piece of text. *)
From Coq Require Import String ZArith.
From Verif Require Export Layout SpecGrammar.
Open Scope nat_scope.
Open Scope list_scope.

(** An arc leads from a node to a different node. *)
Definition arc (g : graph) (x y : nat) : Prop :=
  x <> y /\ exists s l, nth_error g x = Some s /\ In (y, l) (g_trans s).
(** A trail of [k] arcs. *)
Inductive trail (g : graph) : nat -> nat -> nat -> Prop :=
| tr_nil : forall x, trail g x 0 x
| tr_cons : forall x y z k, arc g x y -> trail g y k z -> trail g x (S k) z.
(** Every transition leads to a node. *)
Definition graph_ok (g : graph) : Prop := forall s y l, In s g -> In (y, l) (g_trans s) -> y < List.length g.
(** Layers exist: every node is reached from the first one and, apart from loops at a single node, nothing goes round. *)
Definition layered (g : graph) : Prop :=
  g <> [] /\ (forall x, x < List.length g -> exists k, trail g 0 k x) /\ (forall x k, ~ trail g x (S k) x).
(** [k] is the length of the longest trail. *)
Definition longest (g : graph) (x y k : nat) : Prop := trail g x k y /\ forall k', trail g x k' y -> k' <= k.

(** What LaTeX prints in text mode for a source text, as far as it is plain: a control symbol for one of the characters with a
    special role prints that character, three control words in a group print the characters that have no control symbol, any other
    character without a special role prints itself, and the rest is not plain text. *)
Definition special (c : N) : bool := existsb (N.eqb c) (s2l "\&%$#_{}~^").
Inductive prints : list N -> list N -> Prop :=
| pr_nil : prints [] []
| pr_plain : forall c s t, special c = false -> prints s t -> prints (c :: s) (c :: t)
| pr_symbol : forall c s t, In c (s2l "&%$#_{}") -> prints s t -> prints (ch "\" :: c :: s) (c :: t)
| pr_word : forall w c s t, In (w, c) [(s2l "textbackslash", ch "\"); (s2l "textasciitilde", ch "~"); (s2l "textasciicircum", ch "^")] ->
    prints s t -> prints (s2l "{\" ++ w ++ s2l "}" ++ s) (c :: t).

(** ** Commands of a drawing *)
(** Decimal numbers *)
Definition decimal (n : N) (s : list N) : Prop := s <> [] /\ Forall is_digit s /\ digits_value s = n.
Definition signed (z : Z) (s : list N) : Prop :=
  ((0 <= z)%Z /\ decimal (Z.to_N z) s) \/ ((z < 0)%Z /\ exists t, s = ch "-" :: t /\ decimal (Z.to_N (- z)) t).
Definition style (s : gstate) : list N :=
  s2l "state" ++ (if g_initial s then s2l ", initial" else []) ++ (if g_accept s then s2l ", accepting" else []).
Definition newline : list N := [10%N].
(** The command for the node with a given number: at a position (in units of one half, the second coordinate of the drawing
    being twice a whole number), or on a line, to the right of the node before it. *)
Inductive node_cmd : option (nat * Z) -> nat -> gstate -> list N -> Prop :=
| nc_at : forall x y i s num nx ny label, decimal (N.of_nat i) num -> decimal (N.of_nat (2 * x)) nx -> signed y ny -> prints label (g_label s) ->
    node_cmd (Some (x, y)) i s (s2l "\node[" ++ style s ++ s2l "](q" ++ num ++ s2l ") at (" ++ nx ++ s2l ", " ++ ny ++ s2l ") {" ++ label ++ s2l "};" ++ newline)
| nc_first : forall s num label, decimal 0 num -> prints label (g_label s) ->
    node_cmd None 0 s (s2l "\node[" ++ style s ++ s2l "](q" ++ num ++ s2l "){" ++ label ++ s2l "};" ++ newline)
| nc_right : forall i s prev num label, decimal (N.of_nat i) prev -> decimal (N.of_nat (S i)) num -> prints label (g_label s) ->
    node_cmd None (S i) s (s2l "\node[" ++ style s ++ s2l ", right of=q" ++ prev ++ s2l "](q" ++ num ++ s2l "){" ++ label ++ s2l "};" ++ newline).
(** The command for a transition of a given node. *)
Inductive edge_cmd (from : nat) (tr : gtrans) : list N -> Prop :=
| ec : forall how nf nt, In how [s2l ""; s2l "[bend left]  "; s2l "[loop below] "] -> decimal (N.of_nat from) nf -> decimal (N.of_nat (fst tr)) nt ->
    (how = s2l "[loop below] " -> fst tr = from) ->
    edge_cmd from tr (s2l "\path[->] (q" ++ nf ++ s2l ") edge " ++ how ++ s2l "node {" ++ snd tr ++ s2l "} (q" ++ nt ++ s2l ");" ++ newline).
(** The positions of the nodes, as in C41 if the graph has layers; none otherwise. *)
Definition positioned (g : graph) (pos : list (option (nat * Z))) : Prop :=
  (~ layered g /\ pos = repeat None (length g)) \/
  (layered g /\ exists ps, pos = map Some ps /\ length ps = length g /\ NoDup ps /\ (forall x p, nth_error ps x = Some p -> longest g 0 x (fst p)) /\
    (forall x y p q, arc g x y -> nth_error ps x = Some p -> nth_error ps y = Some q -> fst p < fst q)).
(** All transitions, each with the number of its node, in order. *)
Definition all_trans (g : graph) : list (nat * gtrans) := flat_map (fun '(i, s) => map (pair i) (g_trans s)) (enumerate g).
(** What comes before the picture in a whole document. *)
Definition doc_head : list N := s2l "\documentclass{standalone}" ++ newline ++ s2l "\usepackage{tikz}" ++ newline
  ++ s2l "\usetikzlibrary{automata, positioning}" ++ newline ++ s2l "\begin{document}" ++ newline.
(** A drawing of a graph: one command for each node and one for each transition, in order. *)
Definition drawing (g : graph) (doc : bool) (t : list N) : Prop := exists pos nodes edges,
  t = (if doc then doc_head else []) ++ s2l "\begin{tikzpicture}[node distance=2cm, auto]" ++ newline ++ concat nodes ++ concat edges
      ++ s2l "\end{tikzpicture}" ++ newline ++ (if doc then s2l "\end{document}" ++ newline else []) /\
  positioned g pos /\
  Forall2 (fun '(i, s) t => exists p, nth_error pos i = Some p /\ node_cmd p i s t) (enumerate g) nodes /\
  Forall2 (fun '(i, tr) t => edge_cmd i tr t) (all_trans g) edges.
