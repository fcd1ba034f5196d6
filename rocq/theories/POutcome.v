(** The outcome of every macro. *)
From Verif Require Export PAlive PRuns POptional PLazyAll.
From Coq Require Import Permutation ZifyBool ZifyNat ZifyN.
Open Scope nat_scope.
Open Scope list_scope.
Set Default Proof Using "Type".

Definition settled_as {A} (r : res A) : Prop := (exists x, r = Ok x) \/ r = NoCompile.
Lemma settled_bind {A B} (r : res A) (k : A -> res B) : settled_as r -> (forall x, r = Ok x -> settled_as (k x)) -> settled_as (bind r k).
Proof. intros [(x & ->)| ->] H; [now apply H|now right]. Qed.
Lemma settled_ok {A} (x : A) : settled_as (Ok x).
Proof. left. eauto. Qed.
Lemma settled_no {A} : settled_as (@NoCompile A).
Proof. now right. Qed.
Lemma settled_if {A} (b : bool) (r r' : res A) : settled_as r -> settled_as r' -> settled_as (if b then r else r').
Proof. destruct b; auto. Qed.
#[local] Hint Resolve settled_ok settled_no settled_if : core.
Lemma op_make_settled e m : byte_automaton_of e m -> settled_as (op_make m).
Proof.
  intros (M1 & M2 & M3 & M4 & M5 & M6 & M7). unfold op_make. rewrite (proj2 (wfb_iff m) (ok_wf _ M1)), (wfb_tags_ok m M5). cbn [andb guard bind].
  destruct (op_analyse_spec m (ok_wf _ M1) M6) as (o & -> & Htab). cbn [bind]. destruct o as [tab|]; [|auto].
  destruct (topological_spec m) as (o & -> & Hto); [now apply closed_wf, ok_wf|lia|]. cbn [bind]. destruct o as [ord|]; [|auto].
  destruct Hto as (P & Hord & Hfrom & _). destruct (ranked m ord P Hord) as [K1 K2].
  destruct (fun_compiles_spec m M1 ltac:(lia) M5 tab Htab (fun x => idx x ord) K1 K2 Hfrom) as (runs & -> & Hf). cbn [bind]. auto.
Qed.
Lemma fixed_settled e m : byte_automaton_of e m -> settled_as (fixed_offsets m).
Proof. intros (M1 & M2 & M3 & M4 & M5 & M6 & M7). destruct (fixed_offsets_spec m M6 (ok_wf _ M1) ltac:(lia) M5) as (o & -> & Ho). auto. Qed.
Lemma tdfa_settled e m k : byte_automaton_of e m -> settled_as (tdfa_from_nfa m k).
Proof. intros (M1 & M2 & M3 & M4 & M5 & M6 & M7). destruct (tdfa_from_nfa_spec m (ok_wf _ M1) ltac:(lia) k) as (o & -> & _). auto. Qed.
Lemma make_dfa_settled e m k d : byte_automaton_of e m -> tdfa_from_nfa m k = Ok (Some d) -> settled_as (make_dfa d).
Proof.
  intros (M1 & M2 & M3 & M4 & M5 & M6 & M7) Eo. destruct (dfa_engine_late m _ d [] (ok_wf _ M1) ltac:(lia) Eo ltac:(constructor)) as [(x & Ex & _) _]. unfold make_dfa. rewrite Ex. cbn [bind]. auto.
Qed.
Lemma make_flat_u8_settled e m : byte_automaton_of e m -> settled_as (make_flat_u8 m).
Proof. intros (M1 & M2 & M3 & M4 & M5 & M6 & M7). unfold make_flat_u8. destruct (flat_make_spec m (ok_wf _ M1) ltac:(lia) M5) as (tbl & -> & _). cbn [bind]. auto. Qed.
Lemma make_flat_settled e n : automaton_of e n -> groups_ok n -> settled_as (make_flat n).
Proof. intros (N1 & N2 & _) Hg. unfold make_flat. destruct (flat_make_spec n (ok_wf _ N1) ltac:(lia) Hg) as (tbl & -> & _). cbn [bind]. auto. Qed.

Section Outcome.
  Variables (s : list N) (e : ere).
  Hypothesis Hp : parse_str s = ROk e.
  Hypothesis Hs : Forall scalar s.
  (** Either the byte automaton has no states and the pattern matches nothing, or the pattern matches and there are automata. *)
  Lemma two_cases :
    ((forall T, Forall scalar T -> ~ occurs e T) /\ exists n, working_new (tree_of e) = Ok n /\ (n = [] \/ (n <> [] /\ u8_new n = Ok []))) \/
    ((exists T, Forall scalar T /\ occurs e T) /\ exists n m, working_new (tree_of e) = Ok n /\ automaton_of e n /\ groups_ok n /\ u8_new n = Ok m /\ byte_automaton_of e m).
  Proof using Hp Hs.
    destruct (working_new_spec e (parsed_ok s e Hp Hs)) as (n & En & [[-> Hn]|Hn]); [left; split; [assumption|exists []; auto]|].
    assert (Hne : n <> []) by (intros ->; destruct Hn as (_ & Hl & _); cbn in Hl; lia).
    destruct (parsed_u8 s e Hp Hs n En Hne) as (m & Em & [[-> Hm]|Hm]); [left; split; [assumption|exists n; auto]|]. right.
    assert (Hmne : m <> []) by (intros ->; destruct Hm as (_ & Hl & _); cbn in Hl; lia).
    split; [exact (byte_alive e n m (parsed_ok s e Hp Hs) En Em Hmne)|]. exists n, m. split; [assumption|]. split; [assumption|]. split; [now apply (parsed_working_ne s e Hp Hs n En Hne)|]. auto.
  Qed.
  Lemma base_settled : (exists T, Forall scalar T /\ occurs e T) -> settled_as (pick_base_engine e) /\ forall b u, pick_base_engine e = Ok (b, u) -> byte_automaton_of e u.
  Proof using Hp Hs.
    intros Hx. destruct two_cases as [[H _]|(_ & n & m & En & Hn & Hg & Em & Hm)]; [destruct Hx as (T & HT & Ho); destruct (H T HT Ho)|].
    unfold pick_base_engine. rewrite En. cbn [bind]. rewrite Em. cbn [bind]. split.
    - apply settled_bind; [now apply (op_make_settled e)|]. intros [op|] _; [auto|]. apply settled_bind; [now apply (tdfa_settled e)|]. intros [d|] Ed.
      + apply settled_bind; [now apply (make_dfa_settled e m _ d Hm Ed)|auto].
      + apply settled_bind; [|auto]. destruct (nfa_is_ascii n); [now apply (make_flat_u8_settled e)|now apply (make_flat_settled e)].
    - intros b u H. apply bind_ok in H as (o & _ & H). destruct o as [op|]; [injection H as <- <-; exact Hm|]. apply bind_ok in H as (o & _ & H). destruct o; apply bind_ok in H as (x & _ & H); injection H as <- <-; exact Hm.
  Qed.
  Lemma base_panics : (forall T, Forall scalar T -> ~ occurs e T) -> pick_base_engine e = Panic.
  Proof using Hp Hs.
    intros Hno. destruct two_cases as [(_ & n & En & Hn)|((T & HT & Ho) & _)]; [|destruct (Hno T HT Ho)]. unfold pick_base_engine. rewrite En. cbn [bind].
    destruct Hn as [->|[_ ->]]; reflexivity.
  Qed.
End Outcome.

(** The macros that build a byte automaton. *)
Definition byte_macro (c : list N -> res engine) : Prop :=
  c = compile_regex \/ c = compile_dfa \/ c = compile_flat_u8 \/ c = compile_one_pass \/ c = compile_fixed.
Lemma macro_settled c s e : byte_macro c -> parse_str s = ROk e -> Forall scalar s -> (exists T, Forall scalar T /\ occurs e T) -> settled_as (c s).
Proof.
  intros Hc Hp Hs Hx. destruct (base_settled s e Hp Hs Hx) as [Hb Hu].
  destruct (two_cases s e Hp Hs) as [[H _]|(_ & n & m & En & Hn & Hg & Em & Hm)]; [destruct Hx as (T & HT & Ho); destruct (H T HT Ho)|].
  destruct Hc as [->|[->|[->|[->| ->]]]].
  - unfold compile_regex. rewrite (parsed_with_ere s e _ Hp). unfold pick_engine. apply settled_bind; [assumption|]. intros [b u] Eb. apply settled_bind; [apply (fixed_settled e); eauto|]. intros [o|] _; auto.
  - unfold compile_dfa. rewrite (parsed_with_ere s e _ Hp), En. cbn [bind]. rewrite Em. cbn [bind]. apply settled_bind; [now apply (tdfa_settled e)|]. intros [d|] Ed; [|auto]. now apply (make_dfa_settled e m _ d Hm Ed).
  - unfold compile_flat_u8. rewrite (parsed_with_ere s e _ Hp), En. cbn [bind]. rewrite Em. cbn [bind]. now apply (make_flat_u8_settled e).
  - unfold compile_one_pass. rewrite (parsed_with_ere s e _ Hp), En. cbn [bind]. rewrite Em. cbn [bind]. apply settled_bind; [now apply (op_make_settled e)|]. intros [op|] _; auto.
  - unfold compile_fixed. rewrite (parsed_with_ere s e _ Hp). apply settled_bind; [assumption|]. intros [b u] Eb. apply settled_bind; [apply (fixed_settled e); eauto|]. intros [o|] _; auto.
Qed.
Lemma macro_panics c s e : byte_macro c -> parse_str s = ROk e -> Forall scalar s -> (forall T, Forall scalar T -> ~ occurs e T) -> c s = Panic.
Proof.
  intros Hc Hp Hs Hno. assert (Hb := base_panics s e Hp Hs Hno). destruct (two_cases s e Hp Hs) as [(_ & n & En & Hn)|((T & HT & Ho) & _)]; [|destruct (Hno T HT Ho)].
  destruct Hc as [->|[->|[->|[->| ->]]]].
  - unfold compile_regex. rewrite (parsed_with_ere s e _ Hp). unfold pick_engine. now rewrite Hb.
  - unfold compile_dfa. rewrite (parsed_with_ere s e _ Hp), En. cbn [bind]. destruct Hn as [->|[_ ->]]; reflexivity.
  - unfold compile_flat_u8. rewrite (parsed_with_ere s e _ Hp), En. cbn [bind]. destruct Hn as [->|[_ ->]]; reflexivity.
  - unfold compile_one_pass. rewrite (parsed_with_ere s e _ Hp), En. cbn [bind]. destruct Hn as [->|[_ ->]]; reflexivity.
  - unfold compile_fixed. rewrite (parsed_with_ere s e _ Hp). now rewrite Hb.
Qed.
Lemma macro_rejects {A} (k : ere -> res A) s : (forall e, ~ G_ere e s) -> with_ere s k = NoCompile.
Proof.
  intros H. unfold with_ere. destruct (parse_str s) as [e| |] eqn:E; [|reflexivity|].
  - apply parse_iff in E. destruct (H e E).
  - now apply parse_no_fuel in E.
Qed.

(** The character engine builds no byte automaton. *)
Lemma flat_settled s e : parse_str s = ROk e -> Forall scalar s -> exists n, working_new (tree_of e) = Ok n /\ (n <> [] -> settled_as (compile_flat s)) /\ (n = [] -> compile_flat s = Panic).
Proof.
  intros Hp Hs. destruct (working_new_spec e (parsed_ok s e Hp Hs)) as (n & En & Hn). exists n. split; [assumption|]. unfold compile_flat. rewrite (parsed_with_ere s e _ Hp), En. cbn [bind]. split.
  - intros Hne. destruct Hn as [[-> _]|Hn]; [congruence|]. apply (make_flat_settled e); [assumption|]. now apply (parsed_working_ne s e Hp Hs n En Hne).
  - intros ->. reflexivity.
Qed.
(** The attribute. *)
Lemma attr_settled s e : parse_str s = ROk e -> Forall scalar s -> (exists T, Forall scalar T /\ occurs e T) -> settled_as (attr_compile s).
Proof.
  intros Hp Hs Hx. destruct (two_cases s e Hp Hs) as [[H _]|(_ & n & m & En & Hn & Hg & Em & Hm)]; [destruct Hx as (T & HT & Ho); destruct (H T HT Ho)|].
  unfold attr_compile. rewrite (parsed_with_ere s e _ Hp), En. cbn [bind]. assert (Hne : n <> []) by (intros ->; destruct Hn as (_ & Hl & _); cbn in Hl; lia).
  apply settled_bind.
  - left. generalize (seq 0 (num_capture_groups n)). intros l. induction l as [|k l (x & IH)]; [exists []; reflexivity|]. destruct (optional_total e n k (parsed_ok s e Hp Hs) En Hne) as (b & Eb).
    exists (b :: x). cbn [mapM]. rewrite Eb. cbn [bind]. rewrite IH. reflexivity.
  - intros opts _. apply settled_bind; [|auto]. assert (X := macro_settled compile_regex s e (or_introl eq_refl) Hp Hs Hx). unfold compile_regex in X. now rewrite (parsed_with_ere s e _ Hp) in X.
Qed.
Lemma attr_panics s e : parse_str s = ROk e -> Forall scalar s -> (forall T, Forall scalar T -> ~ occurs e T) -> attr_compile s = Panic.
Proof.
  intros Hp Hs Hno. destruct (two_cases s e Hp Hs) as [(_ & n & En & Hn)|((T & HT & Ho) & _)]; [|destruct (Hno T HT Ho)].
  unfold attr_compile. rewrite (parsed_with_ere s e _ Hp), En. cbn [bind]. assert (X := macro_panics compile_regex s e (or_introl eq_refl) Hp Hs Hno). unfold compile_regex in X. rewrite (parsed_with_ere s e _ Hp) in X. rewrite X.
  destruct Hn as [->|[Hne _]]; [reflexivity|].
  assert (Y : exists x, mapM (capture_group_is_optional n) (seq 0 (num_capture_groups n)) = Ok x).
  { generalize (seq 0 (num_capture_groups n)). intros l. induction l as [|k l (x & IH)]; [exists []; reflexivity|]. destruct (optional_total e n k (parsed_ok s e Hp Hs) En Hne) as (b & Eb).
    exists (b :: x). cbn [mapM]. rewrite Eb. cbn [bind]. rewrite IH. reflexivity. }
  destruct Y as (x & ->). reflexivity.
Qed.
Lemma outcome_iff {A} (c : list N -> res A) s : Forall scalar s -> (forall k, (forall e, ~ G_ere e s) -> c s = k -> k = NoCompile) ->
  (forall e, parse_str s = ROk e -> (exists T, Forall scalar T /\ occurs e T) -> settled_as (c s)) ->
  (forall e, parse_str s = ROk e -> (forall T, Forall scalar T -> ~ occurs e T) -> c s = Panic) ->
  c s <> Fuel /\ (c s = Panic <-> exists e, G_ere e s /\ forall T, Forall scalar T -> ~ occurs e T).
Proof.
  intros Hs H1 H2 H3. destruct (parse_str s) as [e| |] eqn:E.
  - destruct (two_cases s e E Hs) as [[Hn _]|[Hx _]].
    + rewrite (H3 e eq_refl Hn). split; [discriminate|]. split; [|reflexivity]. intros _. exists e. split; [now apply parse_iff|assumption].
    + specialize (H2 e eq_refl Hx). split; [destruct H2 as [(x & ->)| ->]; discriminate|]. split; [destruct H2 as [(x & ->)| ->]; discriminate|].
      intros (e' & Hg & Hno). apply parse_iff in Hg. rewrite E in Hg. injection Hg as <-. destruct Hx as (T & HT & Ho). destruct (Hno T HT Ho).
  - assert (X : forall e, ~ G_ere e s) by (intros e' Hg; apply parse_iff in Hg; congruence). rewrite (H1 _ X eq_refl). split; [discriminate|]. split; [discriminate|]. intros (e' & Hg & _). destruct (X e' Hg).
  - now apply parse_no_fuel in E.
Qed.
Lemma compiled_test s e en T : compiled s en -> Forall scalar s -> Forall scalar T -> G_ere e s -> not_dfa en \/ caret_ok e = true -> exists b, engine_test en T = Ok b /\ (b = true <-> occurs e T).
Proof.
  intros H Hs HT Hg N. destruct (compiled_right s en H Hs) as (e' & G & _ & R). assert (e' = e) as -> by (apply parse_iff in Hg; apply parse_iff in G; congruence).
  destruct (R N T HT) as [X _]. unfold test_right in X. destruct (engine_test en T) as [b| | |]; try contradiction. eauto.
Qed.
