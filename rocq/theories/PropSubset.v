(** The labels of the nodes in the drawing of a tagged DFA: C72. *)
From Coq Require Import String.
From Verif Require Import PSubset PCaret PStrip PRun Pick.
From Coq Require Import ZifyBool ZifyNat ZifyN Sorted.
Open Scope nat_scope.
Open Scope list_scope.

(** C72.  Reading bytes in the drawing of the tagged DFA leads to the node whose label lists, once each, the nodes of the drawing of the byte
    automaton where reading the same bytes ends; if there are none it leads nowhere. *)
Theorem C72_labels : forall s e n m max d, G_ere e s -> Forall scalar s -> working_new (tree_of e) = Ok n -> u8_new n = Ok m -> m <> [] -> tdfa_from_nfa m max = Ok (Some d) ->
  forall bytes, Forall (fun b => (b < 256)%N) bytes -> bytes <> [] ->
  (forall x y st, initial (tdfa_graph d) x -> byte_walk (tdfa_graph d) x bytes y -> nth_error (tdfa_graph d) y = Some st ->
     exists l, listing (g_label st) l /\ NoDup l /\ forall q, In q l <-> lands (nfa_graph show_u8_atom m) bytes q) /\
  ((exists x y, initial (tdfa_graph d) x /\ byte_walk (tdfa_graph d) x bytes y) <-> exists q, lands (nfa_graph show_u8_atom m) bytes q).
Proof.
  intros s e n m max d Hg Hs En Em Hm Ed bytes Hby Hne. apply parse_iff in Hg. destruct (parsed_u8_ne s e Hg Hs n m En Em Hm) as (M1 & _ & _ & _ & _ & M6 & _).
  assert (C := proj1 (closed_wf m) (ok_wf _ M1)). assert (L : 1 <= List.length m) by (destruct m; [congruence|cbn; auto with arith]). assert (BB := base_bytes m max d C L Ed).
  apply byte_nfa_bytes in M6. apply closed_wf in C. destruct (tdfa_from_nfa_spec m C L max) as (o & E & Ho). rewrite Ed in E. injection E as <-.
  assert (HT : Forall (fun b => (b <= 255)%N) bytes) by (eapply Forall_impl; [|exact Hby]; cbv beta; intros; lia).
  assert (LI := lands_iff m L M6 bytes). assert (S := subset m C L max d Ho BB bytes HT (List.length bytes) (le_n _)). rewrite firstn_all in S.
  assert (I0 : forall x, initial (tdfa_graph d) x <-> x = 0) by (intros x; destruct (tdfa_same d) as (_ & S2 & _); rewrite S2; apply dfa_initial).
  destruct S as [(st & H1 & H2 & H3)|(_ & H2 & H3)].
  - assert (R : match st with None => False | Some i => i < List.length (td_states d) end) by (destruct st; [apply H1|destruct bytes; [congruence|discriminate H1]]).
    destruct st as [i|]; [|contradiction]. assert (X : In (ts_nfa (td_get d (Some i))) (names (td_states d))) by (unfold names; apply in_map; now apply nth_In).
    assert (N : ts_nfa (td_get d (Some i)) <> []) by (apply (reached_ne m); assert (Y := b_reached _ _ _ Ho); rewrite Forall_forall in Y; now apply Y).
    split.
    + intros x y st Hx Hw Hy. apply I0 in Hx. subst x. apply H2 in Hw. subst y. destruct (g_node m L d (Some i)) as (st' & E & Hl); [cbn; lia|]. rewrite Hy in E. injection E as <-.
      exists (ts_nfa (td_get d (Some i))). rewrite Hl. split; [now apply join_listing|]. split; [assert (Y := b_in _ _ _ Ho); rewrite Forall_forall in Y; now apply Y|].
      intros q. rewrite H3, LI. tauto.
    + split.
      * intros _. destruct (ts_nfa (td_get d (Some i))) as [|q l] eqn:Eq; [congruence|]. exists q. apply LI. split; [exact Hne|]. apply H3. now left.
      * intros _. exists 0, (S i). split; [now apply I0|]. now apply H2.
  - split.
    + intros x y st Hx Hw _. apply I0 in Hx. subst x. destruct (H2 _ Hw).
    + split; [intros (x & y & Hx & Hw); apply I0 in Hx; subst x; destruct (H2 _ Hw)|]. intros (q & Hq). apply LI in Hq as [_ Hq]. destruct (H3 _ Hq).
Qed.
Print Assumptions C72_labels.
(** A label stands for one list. *)
Theorem C72_unique : forall t l l', listing t l -> listing t l' -> l = l'.
Proof. intros t l l' H H'. exact (listing_fun t l H l' H'). Qed.
Print Assumptions C72_unique.
(** Different nodes have different labels, except that the first one may share its label with another.  Bytes lead to every node but the last,
    the accepting one. *)
Theorem C72_nodes : forall s e n m max d, G_ere e s -> Forall scalar s -> working_new (tree_of e) = Ok n -> u8_new n = Ok m -> m <> [] -> tdfa_from_nfa m max = Ok (Some d) ->
  (forall x y st st', 0 < x -> 0 < y -> nth_error (tdfa_graph d) x = Some st -> nth_error (tdfa_graph d) y = Some st' -> g_label st = g_label st' -> x = y) /\
  (forall y, S y < List.length (tdfa_graph d) -> exists x bytes, initial (tdfa_graph d) x /\ Forall (fun b => (b < 256)%N) bytes /\ byte_walk (tdfa_graph d) x bytes y).
Proof.
  intros s e n m max d Hg Hs En Em Hm Ed. apply parse_iff in Hg. destruct (parsed_u8_ne s e Hg Hs n m En Em Hm) as (M1 & _).
  assert (C := proj1 (closed_wf m) (ok_wf _ M1)). assert (L : 1 <= List.length m) by (destruct m; [congruence|cbn; auto with arith]). assert (BB := base_bytes m max d C L Ed).
  apply closed_wf in C. destruct (tdfa_from_nfa_spec m C L max) as (o & E & Ho). rewrite Ed in E. injection E as <-.
  assert (X : forall i, i < List.length (td_states d) -> nth_error (names (td_states d)) i = Some (ts_nfa (td_get d (Some i)))).
  { intros i Hi. cbn [td_get]. unfold names. rewrite (nth_error_nth' (map ts_nfa (td_states d)) (ts_nfa (stub []))) by (now rewrite map_length). now rewrite map_nth. }
  assert (R : forall i, i < List.length (td_states d) -> reached m (ts_nfa (td_get d (Some i)))) by (intros i Hi; assert (Y := b_reached _ _ _ Ho); rewrite Forall_forall in Y; apply Y; eapply nth_error_In; exact (X i Hi)).
  assert (A : forall i, i < List.length (td_states d) -> listing (join_comma (map show_nat (ts_nfa (td_get d (Some i))))) (ts_nfa (td_get d (Some i)))) by (intros i Hi; apply join_listing, (reached_ne m), R, Hi).
  assert (Z : forall i t, i < List.length (td_states d) -> join_comma (map show_nat (ts_nfa (td_get d (Some i)))) = t -> t <> s2l "accept").
  { intros i t Hi <- Ht. destruct (listing_digit _ _ (A i Hi)) as (c & t' & Ec & Hc). rewrite Ht in Ec. injection Ec as <- _. destruct Hc as [Hc1 Hc2]. vm_compute in Hc2. now apply Hc2. }
  assert (U : forall i j, i < List.length (td_states d) -> j < List.length (td_states d) -> ts_nfa (td_get d (Some i)) = ts_nfa (td_get d (Some j)) -> i = j).
  { intros i j Hi Hj E. assert (Y := b_nodup _ _ _ Ho). eapply NoDup_nth_error; [exact Y| |now rewrite (X i Hi), (X j Hj), E]. unfold names. now rewrite map_length. }
  assert (I0 : initial (tdfa_graph d) 0) by (destruct (tdfa_same d) as (_ & S2 & _); apply S2; now apply dfa_initial).
  split.
  - intros x y st st' Hx Hy Ex Ey El. destruct (nth_node m L max d Ho x st Ex) as [[-> _]|[(i & -> & Hi & Hl)|[-> Hl]]]; [lia| |];
      (destruct (nth_node m L max d Ho y st' Ey) as [[-> _]|[(j & -> & Hj & Hl')|[-> Hl']]]; [lia| |]).
    + f_equal. apply U; [exact Hi|exact Hj|]. apply (C72_unique (g_label st)); [rewrite Hl; now apply A|rewrite El, Hl'; now apply A].
    + exfalso. apply (Z i _ Hi eq_refl). congruence.
    + exfalso. apply (Z j _ Hj eq_refl). congruence.
    + reflexivity.
  - intros y Hy. exists 0. unfold tdfa_graph in Hy. rewrite app_length, map_length, enumerate_length in Hy. cbn [List.length] in Hy. destruct y as [|i]; [exists []; repeat split; [exact I0|constructor|constructor]|].
    assert (Hi : i < List.length (td_states d)) by lia. destruct (node_reached m L max d Ho BB _ (R i Hi)) as (u & j & _ & U2 & U3 & U4 & U5).
    exists u. split; [exact I0|]. split; [exact U2|]. now rewrite <- (U j i U4 Hi U5).
Qed.
Print Assumptions C72_nodes.
(** The labels and arrows for a pattern: after "a" the byte automaton is in its states 5 and 7, after "aa" in 7, after "ab" or "aad" in 9. *)
Example C72_case :
  with_ere (s2l "^(ab|a+[cd])$") (fun e => do n <- working_new (tree_of e); do m <- u8_new n; do o <- tdfa_from_nfa m 100;
    match o with
    | None => NoCompile
    | Some d => Ok (map g_label (tdfa_graph d), map g_trans (tdfa_graph d), negb (List.length m =? 0))
    end) =
  Ok (map s2l ["0"; "5,7"; "7"; "9"; "accept"]%string,
      map (map (fun t => (fst t, s2l (snd t)))) [[(1, "'a'")]; [(2, "'a'"); (3, "'b'"); (3, "'c'..='d'")]; [(2, "'a'"); (3, "'c'..='d'")]; [(4, "\$")]; []]%string, true).
Proof. vm_compute. reflexivity. Qed.
Example C72_case_lands : exists s e n m max d, G_ere e s /\ Forall scalar s /\ working_new (tree_of e) = Ok n /\ u8_new n = Ok m /\ m <> [] /\ tdfa_from_nfa m max = Ok (Some d) /\
  byte_walk (tdfa_graph d) 0 (s2l "a") 1 /\ (forall q, lands (nfa_graph show_u8_atom m) (s2l "a") q <-> q = 5 \/ q = 7) /\ ~ exists q, lands (nfa_graph show_u8_atom m) (s2l "b") q.
Proof.
  assert (H := C72_case). apply with_ere_ok in H as (e & He & H). apply bind_ok in H as (n & En & H). apply bind_ok in H as (m & Em & H). apply bind_ok in H as (o & Eo & H).
  destruct o as [d|]; [|discriminate H]. assert (H1 : map g_label (tdfa_graph d) = map s2l ["0"; "5,7"; "7"; "9"; "accept"]%string) by congruence.
  assert (H2 : nth_error (map g_trans (tdfa_graph d)) 0 = Some [(1, s2l "'a'")]).
  { assert (X : map g_trans (tdfa_graph d) = map (map (fun t => (fst t, s2l (snd t)))) [[(1, "'a'")]; [(2, "'a'"); (3, "'b'"); (3, "'c'..='d'")]; [(2, "'a'"); (3, "'c'..='d'")]; [(4, "\$")]; []]%string) by congruence. rewrite X. reflexivity. }
  assert (Hm : m <> []) by (intros ->; assert (X : negb (List.length (@nil (state range)) =? 0) = true) by congruence; discriminate X). clear H.
  apply parse_iff in He. assert (Hs : Forall scalar (s2l "^(ab|a+[cd])$")) by repeat constructor.
  rewrite nth_error_map in H2. destruct (nth_error (tdfa_graph d) 0) as [st|] eqn:E0; [|discriminate H2]. injection H2 as H2.
  assert (I0 : forall x, initial (tdfa_graph d) x <-> x = 0) by (intros x; destruct (tdfa_same d) as (_ & S2 & _); rewrite S2; apply dfa_initial).
  assert (BT : byte_text (s2l "'a'") 97) by (apply (bt_char 97%N); [reflexivity|discriminate|discriminate]).
  assert (PR : prints (s2l "'a'") (s2l "'a'")) by (apply pr_plain; [reflexivity|]; apply pr_plain; [reflexivity|]; apply pr_plain; [reflexivity|constructor]).
  assert (W : byte_walk (tdfa_graph d) 0 (s2l "a") 1).
  { eapply wk_byte; [exists st; split; [exact E0|rewrite H2; left; reflexivity]|exact PR|apply rt_one; exact BT|split; apply N.le_refl|constructor]. }
  exists (s2l "^(ab|a+[cd])$"), e, n, m, 100, d. do 6 (split; [assumption|]). split; [exact W|]. split.
  - destruct (C72_labels _ e n m 100 d He Hs En Em Hm Eo (s2l "a")) as [P _]; [repeat constructor|discriminate|].
    assert (H3 : nth_error (map g_label (tdfa_graph d)) 1 = Some (s2l "5,7")) by (rewrite H1; reflexivity). rewrite nth_error_map in H3. destruct (nth_error (tdfa_graph d) 1) as [st1|] eqn:E1; [|discriminate H3]. injection H3 as H3.
    destruct (P 0 1 st1 (proj2 (I0 0) eq_refl) W E1) as (l & Hl & _ & Hq). rewrite H3 in Hl.
    assert (L57 : listing (s2l "5,7") [5; 7]) by exact (join_listing [5; 7] ltac:(discriminate)). rewrite (C72_unique _ _ _ Hl L57) in Hq.
    intros q. rewrite <- Hq. cbn. intuition.
  - destruct (C72_labels _ e n m 100 d He Hs En Em Hm Eo (s2l "b")) as [_ P]; [repeat constructor|discriminate|]. rewrite <- P. intros (x & y & Hx & Hw). apply I0 in Hx. subst x.
    inversion Hw as [|? l y' t lo hi ? ? ? (st' & E' & Hin) Hp Hr Hlh _]; subst. rewrite E0 in E'. injection E' as <-. rewrite H2 in Hin. destruct Hin as [Hin|[]]. injection Hin as <- <-.
    rewrite (prints_fun _ _ Hp _ PR) in Hr. destruct (range_text_fun _ _ _ _ _ Hr (rt_one _ _ BT)) as [-> ->]. destruct Hlh as [_ Hlh]. vm_compute in Hlh. now apply Hlh.
Qed.
