(** The four [to_tikz] functions (C43), and what their texts determine (C83). *)
From Coq Require Import String.
From Verif Require Import PText PropDraw.
From Coq Require Import ZifyBool ZifyNat ZifyN.
Open Scope string_scope.
Open Scope nat_scope.
Open Scope list_scope.

Lemma tikz_drawing g doc : graph_ok g -> exists t, graph_tikz g doc = Ok t /\ drawing g doc t.
Proof. intros H. destruct (C43_drawing g doc H) as (pos & nodes & edges & E & R). eexists. split; [exact E|]. exists pos, nodes, edges. auto. Qed.
(** C43.  Every automaton made from a pattern is drawn, without fail. *)
Theorem C43_automata : forall s e n doc, G_ere e s -> Forall scalar s -> working_new (tree_of e) = Ok n -> n <> [] ->
  (exists t, working_tikz n doc = Ok t /\ drawing (nfa_graph show_atom n) doc t) /\
  forall m, u8_new n = Ok m -> m <> [] -> (exists t, u8_tikz m doc = Ok t /\ drawing (nfa_graph show_u8_atom m) doc t) /\
    forall max d, tdfa_from_nfa m max = Ok (Some d) -> (exists t, tdfa_tikz d doc = Ok t /\ drawing (tdfa_graph d) doc t) /\
      forall a, dfa_from_tagged d = Ok a -> exists t, dfa_tikz a doc = Ok t /\ drawing (dfa_graph a) doc t.
Proof.
  intros s e n doc Hg Hs En Hn. destruct (C43_patterns s e n Hg Hs En Hn) as [H1 H2]. split; [now apply tikz_drawing|]. intros m Em Hm. destruct (H2 m Em Hm) as [H3 H4]. split; [now apply tikz_drawing|].
  intros max d Ed. destruct (H4 max d Ed) as [H5 H6]. split; [now apply tikz_drawing|]. intros a Ea. now apply tikz_drawing, H6.
Qed.
Print Assumptions C43_automata.
(** C83.  Nothing is lost in the text either: automata with the same drawing are the same.  Of characters (also when a label has a newline in it), ... *)
Theorem C83_chars : forall s e n s' e' n' doc doc', G_ere e s -> Forall scalar s -> working_new (tree_of e) = Ok n -> n <> [] ->
  G_ere e' s' -> Forall scalar s' -> working_new (tree_of e') = Ok n' -> n' <> [] ->
  working_tikz n doc = working_tikz n' doc' -> n = n' /\ doc = doc'.
Proof.
  intros s e n s' e' n' doc doc' Hg Hs En Hn Hg' Hs' En' Hn' E. destruct (C43_automata s e n doc Hg Hs En Hn) as [(t & Et & _) _]. assert (Et' := Et). rewrite E in Et'.
  destruct (tikz_inj _ _ _ _ _ (proj1 (C43_patterns s e n Hg Hs En Hn)) (proj1 (C43_patterns s' e' n' Hg' Hs' En' Hn')) (nfa_legible _ _) (nfa_legible _ _) Et Et') as [Q ->]. split; [|reflexivity].
  apply char_graph_inj; [exact (pattern_atomic s e n Hg Hs En Hn)|exact (pattern_atomic s' e' n' Hg' Hs' En' Hn')|exact Q].
Qed.
Print Assumptions C83_chars.
(** ... of bytes, ... *)
Lemma u8_base s e n m : working_new (tree_of e) = Ok n -> u8_new n = Ok m -> G_ere e s -> m <> [] -> n <> [].
Proof. intros En Em _ Hm ->. discriminate Em. Qed.
Theorem C83_bytes : forall s e n m s' e' n' m' doc doc', G_ere e s -> Forall scalar s -> working_new (tree_of e) = Ok n -> u8_new n = Ok m -> m <> [] ->
  G_ere e' s' -> Forall scalar s' -> working_new (tree_of e') = Ok n' -> u8_new n' = Ok m' -> m' <> [] ->
  u8_tikz m doc = u8_tikz m' doc' -> m = m' /\ doc = doc'.
Proof.
  intros s e n m s' e' n' m' doc doc' Hg Hs En Em Hm Hg' Hs' En' Em' Hm' E. assert (Hn : n <> []) by exact (u8_base s e n m En Em Hg Hm). assert (Hn' : n' <> []) by exact (u8_base s' e' n' m' En' Em' Hg' Hm').
  destruct (proj2 (C43_automata s e n doc Hg Hs En Hn) m Em Hm) as [(t & Et & _) _]. assert (Et' := Et). rewrite E in Et'.
  destruct (tikz_inj _ _ _ _ _ (proj1 (proj2 (C43_patterns s e n Hg Hs En Hn) m Em Hm)) (proj1 (proj2 (C43_patterns s' e' n' Hg' Hs' En' Hn') m' Em' Hm')) (nfa_legible _ _) (nfa_legible _ _) Et Et') as [Q ->]. split; [|reflexivity].
  eapply C44_nfa; [exact Hg|exact Hs|exact En|exact Em|exact Hm|exact Hg'|exact Hs'|exact En'|exact Em'|exact Hm'|exact Q].
Qed.
Print Assumptions C83_bytes.
(** ... and DFAs; of tagged DFAs all that is in the graph. *)
Theorem C83_dfa : forall s e n m max d a s' e' n' m' max' d' a' doc doc',
  G_ere e s -> Forall scalar s -> working_new (tree_of e) = Ok n -> u8_new n = Ok m -> m <> [] -> tdfa_from_nfa m max = Ok (Some d) -> dfa_from_tagged d = Ok a ->
  G_ere e' s' -> Forall scalar s' -> working_new (tree_of e') = Ok n' -> u8_new n' = Ok m' -> m' <> [] -> tdfa_from_nfa m' max' = Ok (Some d') -> dfa_from_tagged d' = Ok a' ->
  (tdfa_tikz d doc = tdfa_tikz d' doc' -> tdfa_graph d = tdfa_graph d' /\ doc = doc') /\ (dfa_tikz a doc = dfa_tikz a' doc' -> a = a' /\ doc = doc').
Proof.
  intros s e n m max d a s' e' n' m' max' d' a' doc doc' Hg Hs En Em Hm Ed Ea Hg' Hs' En' Em' Hm' Ed' Ea'. assert (Hn : n <> []) by exact (u8_base s e n m En Em Hg Hm). assert (Hn' : n' <> []) by exact (u8_base s' e' n' m' En' Em' Hg' Hm').
  destruct (proj2 (proj2 (C43_automata s e n doc Hg Hs En Hn) m Em Hm) max d Ed) as [(t & Et & _) R]. destruct (R a Ea) as (u & Eu & _).
  destruct (proj2 (proj2 (C43_patterns s e n Hg Hs En Hn) m Em Hm) max d Ed) as [G1 G2]. destruct (proj2 (proj2 (C43_patterns s' e' n' Hg' Hs' En' Hn') m' Em' Hm') max' d' Ed') as [G1' G2']. split; intros E.
  - assert (Et' := Et). rewrite E in Et'. exact (tikz_inj _ _ _ _ _ G1 G1' (tdfa_legible _) (tdfa_legible _) Et Et').
  - assert (Eu' := Eu). rewrite E in Eu'. destruct (tikz_inj _ _ _ _ _ (G2 a Ea) (G2' a' Ea') (dfa_legible _) (dfa_legible _) Eu Eu') as [Q ->]. split; [|reflexivity].
    eapply C44_dfa; [exact Hg|exact Hs|exact En|exact Em|exact Hm|exact Ed|exact Ea|exact Hg'|exact Hs'|exact En'|exact Em'|exact Hm'|exact Ed'|exact Ea'|exact Q].
Qed.
Print Assumptions C83_dfa.
(** A label with a newline, a closing brace and a backslash. *)
Example C83_case : with_ere ([10; 92; 125; 92; 92; 112]%N) (fun e => do n <- working_new (tree_of e); working_tikz n true) <> with_ere ([10; 92; 125; 92; 92; 101]%N) (fun e => do n <- working_new (tree_of e); working_tikz n true) /\
  (exists e n t, parse_str [10; 92; 125; 92; 92; 112]%N = ROk e /\ working_new (tree_of e) = Ok n /\ n <> [] /\ working_tikz n true = Ok t) /\
  exists e n m d a t, parse_str (s2l "a|bc$") = ROk e /\ working_new (tree_of e) = Ok n /\ u8_new n = Ok m /\ m <> [] /\ tdfa_from_nfa m 100 = Ok (Some d) /\ dfa_from_tagged d = Ok a /\ dfa_tikz a false = Ok t.
Proof.
  split; [vm_compute; intros E; discriminate E|]. split.
  - eexists _, _, _. split; [vm_compute; reflexivity|]. split; [vm_compute; reflexivity|]. split; [discriminate|]. vm_compute. reflexivity.
  - eexists _, _, _, _, _, _. split; [vm_compute; reflexivity|]. split; [vm_compute; reflexivity|]. split; [vm_compute; reflexivity|]. split; [discriminate|]. split; [vm_compute; reflexivity|]. split; [vm_compute; reflexivity|]. vm_compute. reflexivity.
Qed.
