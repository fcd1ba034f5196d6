(** The trie of byte sequences built by [U8NFA::nfa_symbol] holds exactly the sequences inserted, and the
    automaton of an atom reads exactly the encodings of its characters. *)
From Verif Require Export PUtf8 U8Nfa PWorking.
From Coq Require Import ZifyBool ZifyNat.
Open Scope nat_scope.
Open Scope list_scope.
Set Default Proof Using "Type".

(** ** Prefixes and words of a trie *)
Inductive at_ (t : trie) : nat -> list range -> Prop :=
| at_root : at_ t 0 []
| at_step : forall k p j r, at_ t k p -> In (Some j, r) (nth k t []) -> at_ t j (p ++ [r]).
Definition holds (t : trie) (q : list range) : Prop :=
  exists k p r, at_ t k p /\ In (None, r) (nth k t []) /\ q = p ++ [r].
(** The shape kept by insertion, while [s] is being inserted. *)
Record tinv (P : range -> Prop) (t : trie) (s : list range) : Prop := {
  ti_len : 1 <= length t;
  ti_tgt : forall k j r, In (Some j, r) (nth k t []) -> 1 <= j < length t;
  ti_lab : forall k j r, In (j, r) (nth k t []) -> P r;
  ti_uniq : forall k p p', at_ t k p -> at_ t k p' -> p = p';
  ti_ext : forall k p, at_ t k p -> (exists q, q <> [] /\ holds t (p ++ q)) \/ (exists q, q <> [] /\ s = p ++ q)
}.
Lemma at_lt P t s k p : tinv P t s -> at_ t k p -> k < length t.
Proof. intros H Hat. destruct Hat as [|k p j r Hk Hj]; [apply H|]. now apply (ti_tgt _ _ _ H) in Hj. Qed.

Lemma nth_push {A} (f : list A -> list A) k i (t : list (list A)) : k < length t ->
  nth i (modify k f t) [] = if i =? k then f (nth i t []) else nth i t [].
Proof. intros H. rewrite nth_modify. apply Nat.ltb_lt in H. rewrite H, andb_true_r. reflexivity. Qed.

Section Insert.
  Variable P : range -> Prop.
  Variable s : list range.
  Hypothesis Hs : good_seq s.
  Hypothesis HP : Forall P s.
  Notation inv_t := (fun t => tinv P t s).

  Section Leaf.
    Variables (t : trie) (k : nat) (p : list range) (r : range).
    Hypothesis Ht : tinv P t s.
    Hypothesis Hk : at_ t k p.
    Let t1 := modify k (fun ts => ts ++ [(None, r)]) t.
    Lemma leaf_In i x : In x (nth i t1 []) <-> In x (nth i t []) \/ (i = k /\ x = (None, r)).
    Proof using Ht Hk.
      unfold t1. rewrite nth_push by (eapply at_lt; eauto). destruct (Nat.eqb_spec i k) as [->|H].
      - rewrite in_app_iff. cbn. intuition.
      - intuition.
    Qed.
    Lemma leaf_at i q : at_ t1 i q <-> at_ t i q.
    Proof using Ht Hk.
      split; induction 1 as [|i q j x H IH Hj].
      - constructor.
      - apply leaf_In in Hj as [Hj|[_ E]]; [econstructor; eauto|discriminate].
      - constructor.
      - econstructor; eauto. apply leaf_In. auto.
    Qed.
    Lemma leaf_holds q : holds t1 q <-> holds t q \/ q = p ++ [r].
    Proof using Ht Hk.
      split.
      - intros (i & pi & x & Hi & Hx & ->). apply leaf_at in Hi. apply leaf_In in Hx as [Hx|[-> E]].
        + left. exists i, pi, x. auto.
        + injection E as ->. right. now rewrite (ti_uniq _ _ _ Ht _ _ _ Hi Hk).
      - intros [(i & pi & x & Hi & Hx & ->)| ->].
        + exists i, pi, x. split; [now apply leaf_at|]. split; [apply leaf_In; auto|reflexivity].
        + exists k, p, r. split; [now apply leaf_at|]. split; [apply leaf_In; auto|reflexivity].
    Qed.
  End Leaf.

  Section Node.
    Variables (t : trie) (k : nat) (p : list range) (r : range).
    Hypothesis Ht : tinv P t s.
    Hypothesis Hk : at_ t k p.
    Let t1 := modify k (fun ts => ts ++ [(Some (length t), r)]) (t ++ [[]]).
    Lemma node_length : length t1 = S (length t).
    Proof. unfold t1. rewrite modify_length, app_length. cbn. lia. Qed.
    Lemma node_In i x : In x (nth i t1 []) <-> In x (nth i t []) \/ (i = k /\ x = (Some (length t), r)).
    Proof using Ht Hk.
      assert (Hl := at_lt _ _ _ _ _ Ht Hk). unfold t1. rewrite nth_push by (rewrite app_length; lia).
      assert (E : nth i (t ++ [[]]) [] = nth i t []).
      { destruct (Nat.lt_ge_cases i (length t)); [now apply app_nth1|]. rewrite app_nth2 by assumption. rewrite (nth_overflow t) by assumption.
        destruct (i - length t) as [|[|]]; reflexivity. }
      rewrite E. destruct (Nat.eqb_spec i k) as [->|H].
      - rewrite in_app_iff. cbn. intuition.
      - intuition.
    Qed.
    Lemma node_at i q : at_ t1 i q <-> at_ t i q \/ (i = length t /\ q = p ++ [r]).
    Proof using Ht Hk.
      assert (Hl := at_lt _ _ _ _ _ Ht Hk). split.
      - induction 1 as [|i q j x H IH Hj]; [left; constructor|]. apply node_In in Hj as [Hj|[-> E]].
        + destruct IH as [IH|[-> _]]; [left; econstructor; eauto|]. rewrite nth_overflow in Hj by lia. destruct Hj.
        + injection E as -> ->. destruct IH as [IH|[E _]]; [|lia]. right. split; [reflexivity|]. now rewrite (ti_uniq _ _ _ Ht _ _ _ IH Hk).
      - assert (G : forall i q, at_ t i q -> at_ t1 i q).
        { clear i q. induction 1; [constructor|]. econstructor; eauto. apply node_In. auto. }
        intros [H|[-> ->]]; [auto|]. apply at_step with k; [auto|]. apply node_In. auto.
    Qed.
    Lemma node_holds q : holds t1 q <-> holds t q.
    Proof using Ht Hk.
      split.
      - intros (i & pi & x & Hi & Hx & ->). apply node_In in Hx as [Hx|[-> E]]; [|discriminate]. apply node_at in Hi as [Hi|[-> _]].
        + exists i, pi, x. auto.
        + rewrite nth_overflow in Hx by lia. destruct Hx.
      - intros (i & pi & x & Hi & Hx & ->). exists i, pi, x. split; [apply node_at; auto|]. split; [apply node_In; auto|reflexivity].
    Qed.
    Lemma node_inv rest : rest <> [] -> s = p ++ r :: rest -> tinv P t1 s.
    Proof using Ht Hk HP.
      intros Hr Es. assert (Hl := at_lt _ _ _ _ _ Ht Hk). split.
      - rewrite node_length. lia.
      - intros i j x Hx. rewrite node_length. apply node_In in Hx as [Hx|[_ E]].
        + apply (ti_tgt _ _ _ Ht) in Hx. lia.
        + injection E as -> _. assert (Hn := ti_len _ _ _ Ht). lia.
      - intros i j x Hx. apply node_In in Hx as [Hx|[_ E]]; [now apply (ti_lab _ _ _ Ht) in Hx|]. injection E as _ ->.
        rewrite Es in HP. apply Forall_app in HP as [_ HQ]. now inversion HQ.
      - intros i q q' H1 H2. apply node_at in H1, H2. destruct H1 as [H1|[-> ->]], H2 as [H2|[E ->]].
        + eapply (ti_uniq _ _ _ Ht); eauto.
        + subst i. eapply at_lt in H1; eauto. lia.
        + eapply at_lt in H2; eauto. lia.
        + reflexivity.
      - intros i q Hq. apply node_at in Hq as [Hq|[-> ->]].
        + destruct (ti_ext _ _ _ Ht _ _ Hq) as [(x & Hx & Hh)|Hx]; [left|right; assumption]. exists x. split; [assumption|]. now apply node_holds.
        + right. exists rest. split; [assumption|]. rewrite Es, <- app_assoc. reflexivity.
    Qed.
  End Node.

  Lemma insert_spec rest : forall t k p, tinv P t s -> at_ t k p -> s = p ++ rest -> rest <> [] ->
    (forall q, holds t q -> good_seq q) ->
    exists t', trie_insert t (Some k) rest = Ok t' /\ tinv P t' s /\ (forall q, holds t' q <-> holds t q \/ q = s).
  Proof using Hs HP.
    induction rest as [|r rest IH]; intros t k p Ht Hk Es Hr Hg; [congruence|]. cbn [trie_insert].
    destruct (find (fun x => range_eqb (snd x) r) (nth k t [])) as [[nx r0]|] eqn:Ef.
    - apply find_some in Ef as [Hin Er]. cbn [snd] in Er. apply range_eqb_eq in Er. subst r0. destruct nx as [nx|].
      + assert (Hnx : at_ t nx (p ++ [r])) by (econstructor; eauto). destruct rest as [|r' rest'].
        * exfalso. destruct (ti_ext _ _ _ Ht _ _ Hnx) as [(q & Hq & Hh)|(q & Hq & E)].
          -- apply Hg in Hh. rewrite <- Es in Hh. now apply good_prefix in Hh.
          -- rewrite <- Es in E. apply (f_equal (@length _)) in E. rewrite app_length in E. destruct q; [congruence|cbn in E; lia].
        * apply (IH t nx (p ++ [r])); auto; [now rewrite <- app_assoc|discriminate].
      + destruct rest as [|r' rest'].
        * exists t. cbn [trie_insert]. split; [reflexivity|]. split; [assumption|]. intros q. split; [auto|]. intros [H| ->]; [assumption|].
          exists k, p, r. auto.
        * exfalso. assert (Hh : holds t (p ++ [r])) by (exists k, p, r; auto). apply Hg in Hh.
          assert (E : s = (p ++ [r]) ++ (r' :: rest')) by (now rewrite <- app_assoc). rewrite E in Hs. now apply good_prefix in Hs.
    - destruct rest as [|r' rest'].
      + eexists; split; [reflexivity|]. split; [|intros q; rewrite Es; now apply leaf_holds].
        split.
        * rewrite modify_length. apply Ht.
        * intros i j x Hx. rewrite modify_length. rewrite (leaf_In t k p r Ht Hk) in Hx. destruct Hx as [Hx|[_ E]]; [now apply (ti_tgt _ _ _ Ht) in Hx|discriminate].
        * intros i j x Hx. rewrite (leaf_In t k p r Ht Hk) in Hx. destruct Hx as [Hx|[_ E]]; [now apply (ti_lab _ _ _ Ht) in Hx|]. injection E as _ ->.
          rewrite Es in HP. apply Forall_app in HP as [_ HQ]. now inversion HQ.
        * intros i q q' H1 H2. rewrite (leaf_at t k p r Ht Hk) in H1, H2. eapply (ti_uniq _ _ _ Ht); eauto.
        * intros i q Hq. rewrite (leaf_at t k p r Ht Hk) in Hq. destruct (ti_ext _ _ _ Ht _ _ Hq) as [(x & Hx & Hh)|Hx]; [left|right; assumption].
          exists x. split; [assumption|]. apply (leaf_holds t k p r Ht Hk). auto.
      + destruct (IH (modify k (fun ts => ts ++ [(Some (length t), r)]) (t ++ [[]])) (length t) (p ++ [r])) as (t' & E & T1 & T2).
        * apply node_inv with p (r' :: rest'); auto. discriminate.
        * apply (node_at t k p r Ht Hk). auto.
        * now rewrite <- app_assoc.
        * discriminate.
        * intros q Hq. apply (node_holds t k p r Ht Hk) in Hq. auto.
        * exists t'. split; [exact E|]. split; [assumption|]. intros q. rewrite T2, (node_holds t k p r Ht Hk). reflexivity.
  Qed.
End Insert.

(** The shape between insertions. *)
Definition whole (P : range -> Prop) (t : trie) : Prop := forall s, good_seq s -> Forall P s -> tinv P t s.
Lemma good_nonempty s : good_seq s -> s <> [].
Proof. intros [H _] ->. destruct H. Qed.
Lemma fold_insert_spec P seqs : forall t, whole P t -> (forall q, holds t q -> good_seq q) -> Forall good_seq seqs -> Forall (Forall P) seqs ->
  exists t', foldM (fun st s => trie_insert st (Some 0) s) seqs t = Ok t' /\ whole P t' /\ (forall q, holds t' q <-> holds t q \/ In q seqs).
Proof.
  induction seqs as [|s seqs IH]; intros t Ht Hg HG HL; cbn [foldM].
  - exists t. split; [reflexivity|]. split; [assumption|]. intros q. cbn. tauto.
  - inversion HG as [|? ? G1 G2]; subst. inversion HL as [|? ? L1 L2]; subst.
    destruct (insert_spec P s G1 L1 s t 0 [] (Ht s G1 L1) (at_root t) eq_refl (good_nonempty _ G1) Hg) as (t1 & -> & I1 & H1). cbn [bind].
    destruct (IH t1) as (t' & E & I' & H'); auto.
    + intros s' G' L'. destruct I1 as [a b c d e]. split; auto. intros k p Hp. left. destruct (e k p Hp) as [?|(q & Hq & Es)]; [assumption|].
      exists q. split; [assumption|]. apply H1. auto.
    + intros q Hq. apply H1 in Hq as [Hq| ->]; auto.
    + exists t'. split; [exact E|]. split; [assumption|]. intros q. rewrite H', H1. cbn. intuition.
Qed.
Lemma start_inv P : whole P [[]].
Proof.
  assert (E : forall k, nth k ([[]] : trie) [] = []) by (intros [|[|k]]; reflexivity).
  intros s Hs HP. split.
  - cbn. lia.
  - intros k j r H. rewrite E in H. destruct H.
  - intros k j r H. rewrite E in H. destruct H.
  - intros k p p' H H'. destruct H as [|? ? ? ? _ H]; [|rewrite E in H; destruct H]. inversion H' as [|? ? ? ? _ H]; [reflexivity|rewrite E in H; destruct H].
  - intros k p H. destruct H as [|? ? ? ? _ H]; [|rewrite E in H; destruct H]. right. exists s. split; [now apply good_nonempty|reflexivity].
Qed.

(** ** The automaton of an atom *)
Definition byte_ok (r : range) : Prop := (fst r <= snd r /\ snd r <= 255)%N.
Definition trie_state (z : nat) (ts : list (option nat * range)) : state range :=
  mkState (map (fun x => (match fst x with Some k => k | None => z end, snd x)) ts) [].
Definition of_trie (t : trie) : nfa range := map (trie_state (length t)) t ++ [empty_state].
Section OfTrie.
  Variable P : range -> Prop.
  Variable t : trie.
  Hypothesis Ht : whole P t.
  Hypothesis Hex : exists s, good_seq s /\ Forall P s.
  Let Hinv : exists s, tinv P t s.
  Proof using Ht Hex. destruct Hex as (s & H1 & H2). exists s. auto. Qed.
  Lemma of_trie_length : length (of_trie t) = S (length t).
  Proof. unfold of_trie. rewrite app_length, map_length. cbn. lia. Qed.
  Lemma of_trie_eps k : eps (get (of_trie t) k) = [].
  Proof.
    unfold get, of_trie. destruct (Nat.lt_ge_cases k (length t)).
    - rewrite app_nth1 by (now rewrite map_length). rewrite nth_indep with (d' := trie_state (length t) []) by (now rewrite map_length).
      rewrite map_nth. reflexivity.
    - rewrite app_nth2 by (now rewrite map_length). destruct (k - _) as [|[|]]; reflexivity.
  Qed.
  Lemma of_trie_trans k j r : In (j, r) (trans (get (of_trie t) k)) <->
    (j = length t /\ In (None, r) (nth k t [])) \/ In (Some j, r) (nth k t []).
  Proof.
    unfold get, of_trie. destruct (Nat.lt_ge_cases k (length t)).
    - rewrite app_nth1 by (now rewrite map_length). rewrite nth_indep with (d' := trie_state (length t) []) by (now rewrite map_length).
      rewrite map_nth. unfold trie_state. cbn [trans]. rewrite in_map_iff. split.
      + intros ([[x|] y] & E & Hy); cbn in E; injection E as <- <-; auto.
      + intros [[-> Hy]|Hy]; eexists; (split; [|exact Hy]); reflexivity.
    - rewrite app_nth2 by (now rewrite map_length). rewrite nth_overflow with (n := k) by assumption. split; [|intros [[_ []]|[]]].
      destruct (k - _) as [|[|]]; intros [].
  Qed.
  Lemma of_trie_target k j r : In (j, r) (trans (get (of_trie t) k)) -> 1 <= j <= length t /\ k < length t /\ P r.
  Proof using Ht Hex.
    destruct Hinv as (s & Hi). intros H. apply of_trie_trans in H.
    assert (Hk : k < length t). { destruct (Nat.lt_ge_cases k (length t)); [assumption|]. rewrite nth_overflow in H by assumption. destruct H as [[_ []]|[]]. }
    destruct H as [[-> H]|H].
    - assert (L := ti_len _ _ _ Hi). split; [lia|]. split; [assumption|]. now apply (ti_lab _ _ _ Hi) in H.
    - assert (L := ti_tgt _ _ _ Hi _ _ _ H). split; [lia|]. split; [assumption|]. now apply (ti_lab _ _ _ Hi) in H.
  Qed.
  Lemma trie_path_from k W : path byte_check (of_trie t) k W (length t) -> forall p, at_ t k p ->
    exists q bs, holds t (p ++ q) /\ fits q bs /\ W = map IC bs.
  Proof using Ht Hex.
    destruct Hinv as (s & Hi). remember (length t) as z eqn:Ez. induction 1 as [k|k j e w u He Hp IH|k j a c w u He Hc Hp IH]; intros p Hat.
    - eapply at_lt in Hat; eauto. lia.
    - rewrite of_trie_eps in He. destruct He.
    - apply of_trie_trans in He as [[E He]|He].
      + subst j. exists [a], [c]. split; [exists k, p, a; auto|]. split; [repeat constructor; assumption|]. clear IH. subst u.
        inversion Hp as [|? ? ? ? ? H|? ? ? ? ? ? H]; subst; [reflexivity| |].
        * rewrite of_trie_eps in H. destruct H.
        * apply of_trie_target in H. lia.
      + destruct (IH Ez (p ++ [a])) as (q & bs & Hq & Hf & ->); [econstructor; eauto|]. exists (a :: q), (c :: bs).
        split; [now rewrite <- app_assoc in Hq|]. split; [now constructor|reflexivity].
  Qed.
  Lemma trie_path_to k p : at_ t k p -> forall bs, fits p bs -> path byte_check (of_trie t) 0 (map IC bs) k.
  Proof.
    induction 1 as [|k p j r H IH Hj]; intros bs Hf.
    - inversion Hf; subst. constructor.
    - apply Forall2_app_inv_l in Hf as (b1 & b2 & H1 & H2 & ->). inversion H2 as [|? b ? ? Hb H3]; subst. inversion H3; subst.
      rewrite map_app. eapply path_app; [now apply IH|]. cbn. eapply path_sym1; [apply of_trie_trans; right; exact Hj|exact Hb].
  Qed.
  Lemma trie_lang W : path byte_check (of_trie t) 0 W (length t) <-> exists q bs, holds t q /\ fits q bs /\ W = map IC bs.
  Proof using Ht Hex.
    split.
    - intros H. exact (trie_path_from 0 W H [] (at_root t)).
    - intros (q & bs & (k & p & r & Hat & Hin & ->) & Hf & ->). apply Forall2_app_inv_l in Hf as (b1 & b2 & H1 & H2 & ->). inversion H2 as [|? b ? ? Hb H3]; subst. inversion H3; subst.
      rewrite map_app. apply path_app with k; [exact (trie_path_to k p Hat b1 H1)|]. cbn. apply path_sym1 with r; [apply of_trie_trans; left; split; [reflexivity|exact Hin]|exact Hb].
  Qed.
End OfTrie.

(** What the construction needs to know about the automaton of an atom. *)
Record symbol_ok (a : atom) (sym : nfa range) : Prop := {
  so_len : 2 <= length sym;
  so_eps : forall k, eps (get sym k) = [];
  so_tgt : forall k j r, In (j, r) (trans (get sym k)) -> 1 <= j <= length sym - 1 /\ k < length sym - 1 /\ byte_ok r;
  so_lang : forall W, path byte_check sym 0 W (length sym - 1) <-> exists c, acheck a c = true /\ W = map IC (encode c)
}.
Lemma mapM_sequences rs : Forall (fun r => (snd r <= 0x10FFFF)%N) rs -> exists ls, mapM utf8_sequences rs = Ok ls /\
  Forall2 (fun r l => seqs_ok (fst r) (snd r) l) rs ls.
Proof.
  induction 1 as [|r rs Hr H (ls & E & IH)]; cbn [mapM]; [exists []; split; [reflexivity|constructor]|].
  destruct (utf8_sequences_spec r Hr) as (l & -> & Hl). cbn [bind]. rewrite E. cbn [bind]. exists (l :: ls). split; [reflexivity|]. constructor; assumption.
Qed.
Lemma ascii_good : good_seq [(0%N, 0%N)] /\ Forall byte_ok [(0%N, 0%N)].
Proof. split; [split; [reflexivity|]|]; repeat constructor; cbn; discriminate. Qed.
Theorem u8_symbol_spec a : atom_ok a -> exists sym, u8_symbol a = Ok sym /\ symbol_ok a sym.
Proof.
  intros Ha. assert (HR := to_ranges_ok a Ha). destruct (mapM_sequences (to_ranges a)) as (ls & E & Hls).
  { eapply Forall_impl; [|exact HR]. intros r [_ H]. apply scalar_iff in H. lia. }
  assert (HG : Forall good_seq (concat ls)).
  { clear - Hls. induction Hls as [|r l rs ls Hl H IH]; [constructor|]. cbn. apply Forall_app. split; [apply Hl|exact IH]. }
  assert (HL : Forall (Forall byte_ok) (concat ls)).
  { eapply Forall_impl; [|exact HG]. intros q Hq. apply Hq. }
  destruct (fold_insert_spec byte_ok (concat ls) [[]] (start_inv byte_ok)) as (t & Et & It & Ht); auto.
  { intros q (k & p & r & _ & H & _). destruct k as [|[|]]; destruct H. }
  unfold u8_symbol, symbol_trie. rewrite E. cbn [bind]. rewrite Et. cbn [bind]. exists (of_trie t). split; [reflexivity|].
  assert (Hex : exists s, good_seq s /\ Forall byte_ok s) by (eexists; apply ascii_good).
  assert (Hlen : 1 <= length t) by (destruct ascii_good as [X Y]; apply (ti_len _ _ _ (It _ X Y))).
  assert (El : length (of_trie t) - 1 = length t) by (rewrite of_trie_length; lia).
  split.
  - rewrite of_trie_length. lia.
  - apply of_trie_eps.
  - intros k j r H. rewrite El. now apply (of_trie_target byte_ok t It Hex) in H.
  - intros W. rewrite El, (trie_lang byte_ok t It Hex).
    assert (HS : forall q, holds t q <-> exists r l, In r (to_ranges a) /\ In (r, l) (combine (to_ranges a) ls) /\ In q l).
    { intros q. rewrite Ht. split.
      - intros [(k & p & r & _ & H & _)|H]; [destruct k as [|[|]]; destruct H|].
        clear - Hls H. induction Hls as [|r l rs ls Hl HF IH]; [destruct H|]. cbn in H. apply in_app_or in H as [H|H].
        + exists r, l. cbn. auto.
        + destruct (IH H) as (r' & l' & H1 & H2 & H3). exists r', l'. cbn. auto.
      - intros (r & l & _ & H1 & H2). right. apply in_combine_r in H1. apply in_concat. eauto. }
    assert (HF : forall r l, In (r, l) (combine (to_ranges a) ls) -> seqs_ok (fst r) (snd r) l).
    { clear - Hls. induction Hls as [|r l rs ls Hl HF IH]; intros r' l' H; [destruct H|]. cbn in H. destruct H as [H|H]; [injection H as <- <-; assumption|auto]. }
    assert (HC : forall r, In r (to_ranges a) -> exists l, In (r, l) (combine (to_ranges a) ls)).
    { clear - Hls. induction Hls as [|r l rs ls Hl HF IH]; intros r' H; [destruct H|]. cbn. destruct H as [->|H]; [eauto|]. destruct (IH _ H) as (l' & ?). eauto. }
    split.
    + intros (q & bs & Hq & Hf & ->). apply HS in Hq as (r & l & Hr & Hrl & Hq). destruct (HF _ _ Hrl) as [_ HB].
      destruct (proj1 (HB bs)) as (c & Hc & Hrg & Eb); [eauto|]. exists c. subst bs. split; [|reflexivity]. unfold acheck.
      rewrite Hc, andb_true_r. apply atom_check_iff. apply to_ranges_iff; auto. exists r. auto.
    + intros (c & Hc & ->). unfold acheck in Hc. apply andb_true_iff in Hc as [H1 Hc]. apply atom_check_iff, to_ranges_iff in H1; auto.
      destruct H1 as (r & Hr & Hrg). destruct (HC r Hr) as (l & Hl). destruct (HF _ _ Hl) as [_ HB].
      destruct (proj2 (HB (encode c))) as (q & Hq & Hf); [eauto|]. exists q, (encode c). split; [apply HS; eauto|]. auto.
Qed.
