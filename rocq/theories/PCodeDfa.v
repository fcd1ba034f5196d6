(** The size of the code of the DFA engine (C88). *)
From Verif Require Export PCodeBig.
From Verif Require Import PEmitAll PCount PDfa PBlow PAtom.
From Coq Require Import Lia ZifyNat ZifyN Sorting.Sorted Sorting.Permutation.
Open Scope nat_scope.
Open Scope list_scope.

Lemma bounded_len (l : list nat) k : Forall (fun x => x < k) l -> NoDup l -> length l <= k.
Proof. intros H N. rewrite <- (seq_length k 0). apply NoDup_incl_length; [assumption|]. intros x Hx. rewrite Forall_forall in H. specialize (H x Hx). apply in_seq. lia. Qed.
Lemma ranges_few256 (out : list (range * list cand)) : Forall (fun x => (fst (fst x) <= snd (fst x))%N /\ (snd (fst x) <= 255)%N) out -> StronglySorted capart out -> length out <= 256.
Proof.
  intros H1 H2. assert (G : forall a, a <= 256 -> Forall (fun x : range * list cand => a <= N.to_nat (fst (fst x))) out -> length out + a <= 256).
  { revert H1. induction H2 as [|x l Hs IH Hf]; intros H1 a Ha H; [cbn; lia|]. inversion H1 as [|y l' [A1 A2] A3]; subst. inversion H as [|y l' B1 B2]; subst. unfold range in *.
    specialize (IH A3 (S (N.to_nat (snd (fst x)))) ltac:(lia)). cbn [length]. assert (length l + S (N.to_nat (snd (fst x))) <= 256); [apply IH|lia].
    eapply Forall_impl; [|exact Hf]. unfold capart. intros y Hy. unfold range in *. lia. }
  specialize (G 0 ltac:(lia) ltac:(apply Forall_forall; intros; lia)). lia.
Qed.
Lemma tags_len (G : nat) (l : list tag) : NoDup l -> (forall x, In x l -> tag_group x < G) -> length l <= 2 * G.
Proof.
  intros N H. assert (I : incl l (all_tags G)) by (intros x Hx; apply all_tags_In; auto). apply NoDup_incl_length in I; [|assumption]. unfold all_tags in I. rewrite app_length, !map_length, seq_length in I. lia.
Qed.
Section Few.
  Variable n : nfa range.
  Hypothesis Hwf : wf n.
  Hypothesis Hlen : 1 <= length n.
  Variable G : nat.
  Hypothesis Hg : forall s t k, In (t, ESC k) (eps (get n s)) \/ In (t, EEC k) (eps (get n s)) -> k < G.
  Lemma path_tags s w t : zpath n s w t -> length (tags_of w) <= 2 * G.
  Proof using Hg.
    intros Hz. apply tags_len.
    - apply tags_NoDup. constructor.
    - intros x Hx. apply tags_of_In in Hx as [[]|(i & Hi & Ht)]. destruct i as [c|e]; [destruct Ht|].
      destruct (zpath_items n _ _ _ Hz e Hi) as (q & v & He). destruct e; cbn in Ht; try tauto; destruct Ht as [<-|[]]; cbn; eauto.
  Qed.
  Lemma cands_few keep nfas r cl : in_n n nfas -> In (r, cl) (cand_ranges (all_cands n keep nfas)) -> length cl <= length n /\ Forall (fun c => length (c_tags c) <= 2 * G) cl.
  Proof using Hwf Hlen Hg.
    intros Hin H. split.
    - destruct (cands_targets n Hwf Hlen keep nfas r cl Hin H) as [A B]. rewrite <- (map_length c_to). now apply bounded_len.
    - destruct (cand_ranges_ok (all_cands n keep nfas)) as [O1 O2 O3 O4]. rewrite Forall_forall in O1. specialize (O1 _ H). cbn [fst] in O1.
      assert (Hr : in_range (fst r) r = true) by (apply in_range_iff; lia). rewrite (O3 r cl (fst r) H Hr). apply Forall_forall. intros c Hc.
      apply PDfa.dedup_In in Hc as [Hc _]. apply byte_cands_In in Hc as (r0 & Hc & _). apply (all_cands_In n Hwf) in Hc as (k & t & w & _ & Hz & _ & -> & _); [|assumption]. eapply path_tags; eauto.
  Qed.
  Definition acc_small (a : tacc) : Prop :=
    match a with AAnch a | AUnan a => length (at_tags a) <= 2 * G | ABoth a b => length (at_tags a) <= 2 * G /\ length (at_tags b) <= 2 * G | ANone => True end.
  Lemma props_small local ps k : (forall p, In p ps -> length (ep_tags p) <= 2 * G) -> acc_small (acc_from_props local ps k).
  Proof using.
    clear Hwf Hlen Hg. intros H. unfold acc_from_props. set (l := filter _ ps). assert (T : forall i, length (ep_tags (nth i l (mkEp 0 [] false false))) <= 2 * G).
    { intros i. destruct (nth_in_or_default i l (mkEp 0 [] false false)) as [Hi| ->]; [|cbn; lia]. apply H. apply filter_In in Hi. tauto. }
    destruct (index_of ep_end l), (index_of _ l); cbn [acc_small at_tags]; auto. destruct (_ <? _); cbn [acc_small at_tags]; auto.
  Qed.
  Lemma update_small a b : acc_small a -> acc_small b -> acc_small (acc_update a b).
  Proof using. clear Hwf Hlen Hg. destruct a, b; cbn; tauto. Qed.
  Lemma all_acc_small nfas : in_n n nfas -> acc_small (all_acc n nfas).
  Proof using Hwf Hg.
    intros [Hin _]. unfold all_acc. assert (S0 : forall l a, acc_small a -> (forall x, In x l -> snd x < length n) -> acc_small (fold_left (fun a (x : nat * nat) => acc_update a (acc_from_props (fst x) (props n (snd x)) (length n - 1))) l a)).
    { induction l as [|x l IH]; intros a Ha Hx; [assumption|]. cbn [fold_left]. apply IH; [|intros; apply Hx; now right]. apply update_small; [assumption|]. apply props_small. intros p Hp.
      apply (props_spec n Hwf) in Hp as (t & w & Hz & ->); [|apply Hx; now left]. cbn [ep_of ep_tags]. eapply path_tags; eauto. }
    apply S0; [exact I|]. intros [i k] Hk. apply In_enumerate in Hk. rewrite Forall_forall in Hin. apply Hin. eapply nth_error_In; eauto.
  Qed.
  Lemma adds_len cl : Forall (fun c => length (c_tags c) <= 2 * G) cl -> length (adds cl) <= length cl * (2 * G).
  Proof using.
    clear Hwf Hlen Hg. intros H. unfold adds, enumerate. revert H. set (K := 2 * G). clearbody K. generalize 0. intros k0 H. revert k0. induction H as [|c l H _ IH]; intros k; [cbn; lia|]. cbn [length seq combine map concat]. rewrite app_length, map_length. specialize (IH (S k)). lia.
  Qed.
  Lemma state_few ns keep st : in_n n (ts_nfa st) -> expanded n ns keep st -> length (ts_trans st) <= 256 /\ td_entries st <= 257 * (S (length n) * (1 + 2 * G)).
  Proof using Hwf Hlen Hg.
    intros Hin [E1 E2]. assert (Ha := all_acc_small (ts_nfa st) Hin). rewrite <- E1 in Ha. destruct (cand_ranges_ok (all_cands n keep (ts_nfa st))) as [O1 O2 _ _]. assert (L := ranges_few256 _ O1 O2).
    assert (Hl := Forall2_length _ _ _ E2). split; [lia|]. unfold td_entries.
    assert (T : list_sum (map (fun t => S (length (tt_copy t) + length (tt_add t))) (ts_trans st)) <= length (ts_trans st) * S (length n + length n * (2 * G))).
    { assert (C : forall r cl, In (r, cl) (cand_ranges (all_cands n keep (ts_nfa st))) -> length cl <= length n /\ Forall (fun c => length (c_tags c) <= 2 * G) cl) by (intros r cl; now apply cands_few).
      clear - E2 C. induction E2 as [|[r cl] t l l' (_ & Q2 & Q3 & _) _ IH]; [cbn; lia|]. cbn [map length]. rewrite lsum_cons, Q2, Q3, map_length. cbn [snd].
      destruct (C r cl (or_introl eq_refl)) as [C1 C2]. apply adds_len in C2. specialize (IH (fun r' cl' H => C r' cl' (or_intror H))). assert (length cl * (2 * G) <= length n * (2 * G)) by (apply Nat.mul_le_mono_r; assumption). lia. }
    assert (A : acc_entries (ts_acc st) <= 2 * G) by (clear - Ha; destruct (ts_acc st); cbn [acc_entries acc_small] in *; [exact Ha|exact (proj1 Ha)|exact Ha|lia]).
    assert (M : length (ts_trans st) * S (length n + length n * (2 * G)) <= 256 * S (length n + length n * (2 * G))) by (apply Nat.mul_le_mono_r; lia).
    assert (Q : S (length n) * (1 + 2 * G) = 1 + 2 * G + (length n + length n * (2 * G))) by (generalize (2 * G); intros; lia). rewrite Q. clear - T A M. set (X := length n + length n * (2 * G)) in *. clearbody X. lia.
  Qed.
End Few.

(** Minimisation *)
Definition few (k b : nat) (d : dfa) : Prop := Forall (fun s => length (ds_trans s) <= b) (d_start d :: d_states d) /\ length (d_states d) <= k.
Lemma remove_Forall {X} (P : X -> Prop) l : forall i, Forall P l -> Forall P (remove_at i l) /\ length (remove_at i l) <= length l.
Proof. induction l as [|x l IH]; intros [|i] H; cbn [remove_at length]; try (split; [assumption|lia]). { inversion H; subst. split; [assumption|lia]. } inversion H; subst. destruct (IH i) as [A B]; [assumption|]. split; [now constructor|cbn; lia]. Qed.
Lemma merge_few k b d p d' : few k b d -> merge_checked d p = Ok d' -> few k b d'.
Proof.
  intros [H1 H2] H. unfold merge_checked in H. destruct (guard _) as [[]| | |]; cbn [bind] in H; try discriminate H. injection H as <-. inversion H1 as [|x l A B]; subst. destruct (remove_Forall _ (d_states d) (fst p) B) as [C D].
  unfold few, merge_states. cbn [d_start d_states]. split; [|rewrite map_length; lia]. constructor; [cbn [map_dtrans ds_trans]; rewrite map_length; exact A|]. apply Forall_map. eapply Forall_impl; [|exact C]. intros s Hs. cbn [map_dtrans ds_trans]. now rewrite map_length.
Qed.
Lemma merges_few k b ps : forall d d', few k b d -> foldM merge_checked ps d = Ok d' -> few k b d'.
Proof. induction ps as [|p ps IH]; intros d d' H E; cbn in E; [injection E as <-; exact H|]. destruct (merge_checked d p) as [x| | |] eqn:Ex; cbn [bind] in E; try discriminate E. eapply IH; [|exact E]. eapply merge_few; eauto. Qed.
Lemma minimise_few k b f : forall d m, few k b d -> minimise f d = Ok m -> few k b m.
Proof.
  induction f as [|f IH]; intros d m H E; cbn [minimise] in E; destruct (merges (d_states d)) as [|p ps] eqn:Em; try (injection E as <-; exact H); [discriminate E|].
  destruct (guard _) as [[]| | |]; cbn [bind] in E; try discriminate E. destruct (foldM merge_checked (rev (p :: ps)) d) as [x| | |] eqn:Ex; cbn [bind] in E; try discriminate E. eapply IH; [|exact E]. eapply merges_few; eauto.
Qed.
Lemma tagged_few d m b : Forall (fun s => length (ts_trans s) <= b) (td_start d :: td_states d) -> dfa_from_tagged d = Ok m -> few (length (td_states d)) b m.
Proof.
  intros H E. unfold dfa_from_tagged in E. destruct (dfa_validate _); [|discriminate E]. destruct (minimise _ _) as [x| | |] eqn:Ex; cbn [bind] in E; try discriminate E. destruct (guard _) as [[]| | |]; cbn [bind] in E; try discriminate E. injection E as <-.
  eapply minimise_few; [|exact Ex]. unfold few. cbn [d_start d_states]. split; [|now rewrite map_length].
  assert (S0 : forall s, length (ts_trans s) <= b -> length (ds_trans (dstate_of s)) <= b) by (intros s Hs; cbn [dstate_of ds_trans]; rewrite <- (Permutation_length (sort_perm _ _)), map_length; exact Hs).
  inversion H; subst. constructor; [auto|]. apply Forall_map. eapply Forall_impl; [|eassumption]. auto.
Qed.
Lemma lsum_bound {X} (f : X -> nat) c l : Forall (fun x => f x <= c) l -> list_sum (map f l) <= length l * c.
Proof. induction 1 as [|x l H _ IH]; [cbn; lia|]. cbn [map length]. rewrite lsum_cons. lia. Qed.

Theorem dfa_code s p : Forall scalar s -> gen_dfa s = Ok (Some p) -> exists e n u d m, parse_str s = ROk e /\ working_new (tree_of e) = Ok n /\ u8_new n = Ok u /\ p = program_of (WDfa d m) /\
  entries (WDfa d m) <= S (default_bound (length u)) * (514 * (S (length u) * (1 + 2 * S (groups e)))).
Proof.
  intros Hs H. apply with_ere_ok in H as (e & Hp & H). destruct (working_new (tree_of e)) as [n| | |] eqn:En; cbn [bind] in H; try discriminate H. destruct (u8_new n) as [u| | |] eqn:Em; cbn [bind] in H; try discriminate H.
  destruct (tdfa_from_nfa u (default_bound (length u))) as [[d|]| | |] eqn:Ed; cbn [bind] in H; try discriminate H. destruct (dfa_from_tagged d) as [m| | |] eqn:Et; cbn [bind] in H; try discriminate H. injection H as <-.
  exists e, n, u, d, m. do 3 (split; [assumption || reflexivity|]). split; [reflexivity|]. cbn [entries].
  assert (Hu : u <> []) by (intros ->; discriminate Ed). assert (Ha := parsed_u8_ne s e Hp Hs n u En Em Hu). assert (Hc := byte_count e u Ha). destruct Ha as (M1 & M2 & _ & _ & M5 & _). assert (Hw := ok_wf _ M1).
  assert (Hl : 1 <= length u) by (destruct u; [congruence|cbn; lia]).
  assert (Hg : forall s t k, In (t, ESC k) (eps (get u s)) \/ In (t, EEC k) (eps (get u s)) -> k < S (groups e)) by (intros s0 t k Hk; apply M5 in Hk; lia).
  destruct (tdfa_from_nfa_spec u Hw Hl (default_bound (length u))) as (o & Eo & Ho). rewrite Ed in Eo. injection Eo as <-. destruct Ho as [B1 B2 B3 B4 B5 B6 B7].
  assert (Hin0 : in_n u [0]) by (split; [constructor; [lia|constructor]|constructor; [intros []|constructor]]).
  assert (F : Forall (fun st => length (ts_trans st) <= 256 /\ td_entries st <= 257 * (S (length u) * (1 + 2 * S (groups e)))) (td_start d :: td_states d)).
  { constructor; [eapply state_few; eauto; now rewrite B1|]. apply Forall_forall. intros st Hst. eapply state_few; eauto. rewrite Forall_forall in B5. apply B5. apply in_map. exact Hst. }
  assert (F1 : Forall (fun st => length (ts_trans st) <= 256) (td_start d :: td_states d)) by (eapply Forall_impl; [|exact F]; cbv beta; tauto).
  assert (F2 : Forall (fun st => td_entries st <= 257 * (S (length u) * (1 + 2 * S (groups e)))) (td_start d :: td_states d)) by (eapply Forall_impl; [|exact F]; cbv beta; tauto).
  apply lsum_bound in F2. destruct (tagged_few d m 256 F1 Et) as [F3 F4].
  assert (F5 : Forall (fun st => d_entries st <= 257) (d_start m :: d_states m)) by (eapply Forall_impl; [|exact F3]; cbv beta; intros st Q; unfold d_entries; lia).
  apply lsum_bound in F5. cbn [length] in F2, F5. set (P := S (length u) * (1 + 2 * S (groups e))) in *. assert (HP : 1 <= P) by (unfold P; lia). clearbody P. set (B := default_bound (length u)) in *. clearbody B.
  assert (X1 : S (length (td_states d)) * (257 * P) <= S B * (257 * P)) by (apply Nat.mul_le_mono_r; lia). assert (X2 : S (length (d_states m)) * 257 <= S B * (257 * P)) by (apply Nat.mul_le_mono; lia). lia.
Qed.
