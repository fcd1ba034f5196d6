(** Splitting byte ranges. *)
From Verif Require Export PEngines.
From Coq Require Import ZifyBool ZifyNat ZifyN Sorted.
Open Scope nat_scope.
Open Scope list_scope.
Set Default Proof Using "Type".

Definition apart (x y : range * list nat) : Prop := (snd (fst x) < fst (fst y))%N.
Section Split.
  Variable f : N -> list nat.
  Definition from (lo : N) (k : nat) : list (N * list nat) := map (fun b => (b, f b)) (map N.of_nat (seq (N.to_nat lo) k)).
  Record pieces (lo hi : N) (out : list (range * list nat)) : Prop := {
    pc_in : Forall (fun x => (lo <= fst (fst x) /\ fst (fst x) <= snd (fst x) /\ snd (fst x) <= hi)%N) out;
    pc_sorted : StronglySorted apart out;
    pc_val : forall r is b, In (r, is) out -> in_range b r = true -> is = f b;
    pc_ne : forall r is, In (r, is) out -> is <> [];
    pc_all : forall b, (lo <= b <= hi)%N -> f b <> [] -> exists r is, In (r, is) out /\ in_range b r = true }.
  Lemma nats_dec (l m : list nat) : list_eqb Nat.eqb l m = true <-> l = m.
  Proof. apply list_eqb_eq. apply Nat.eqb_eq. Qed.
  (** The loop, with the bytes below [k] done. *)
  Lemma split_loop_spec cnt : forall k prev start, (k + N.of_nat cnt = 256)%N ->
    (prev <> [] -> (start < k)%N /\ forall b, (start <= b < k)%N -> f b = prev) ->
    pieces (match prev with [] => k | _ => start end) 255 (split_loop prev start (from k cnt)).
  Proof.
    induction cnt as [|cnt IH]; intros k prev start Hk Hp.
    - cbn. destruct prev as [|p prev].
      + split; cbn; try constructor; try (intros; contradiction). intros b Hb. lia.
      + destruct (Hp ltac:(discriminate)) as [Hs Hf]. split.
        * constructor; [cbn; lia|constructor].
        * constructor; constructor.
        * intros r is b [E|[]] Hb. injection E as <- <-. apply in_range_iff in Hb. cbn [fst snd] in Hb. symmetry. apply Hf. lia.
        * intros r is [E|[]]. injection E as <- <-. discriminate.
        * intros b Hb _. exists (start, 255%N), (p :: prev). split; [now left|]. apply in_range_iff. cbn [fst snd]. lia.
    - assert (E : from k (S cnt) = (k, f k) :: from (k + 1)%N cnt).
      { unfold from. cbn [seq map]. rewrite N2Nat.id. do 4 f_equal. lia. }
      rewrite E. cbn [split_loop]. destruct (list_eqb Nat.eqb (f k) prev) eqn:Ee.
      + apply nats_dec in Ee. destruct prev as [|p prev].
        * specialize (IH (k + 1)%N [] start ltac:(lia) ltac:(congruence)). destruct IH as [I1 I2 I3 I4 I5]. split; auto.
          -- eapply Forall_impl; [|exact I1]. cbn. intros x Hx. lia.
          -- intros b Hb Hne. destruct (N.eq_dec b k) as [->|Hbk]; [congruence|]. apply I5; [lia|assumption].
        * destruct (Hp ltac:(discriminate)) as [Hs Hf].
          specialize (IH (k + 1)%N (p :: prev) start ltac:(lia)). apply IH. intros _. split; [lia|]. intros b Hb.
          destruct (N.eq_dec b k) as [->|Hbk]; [assumption|]. apply Hf. lia.
      + assert (Hne : f k <> prev) by (intros X; apply nats_dec in X; congruence).
        assert (IH' := IH (k + 1)%N (f k) k ltac:(lia)). 
        assert (P : (f k <> [] -> (k < k + 1)%N /\ (forall b, (k <= b < k + 1)%N -> f b = f k))) by (intros _; split; [lia|]; intros b Hb; f_equal; lia).
        specialize (IH' P). destruct prev as [|p prev].
        * destruct (f k) as [|x l] eqn:Efk; [congruence|]. exact IH'.
        * destruct (Hp ltac:(discriminate)) as [Hs Hf]. destruct IH' as [I1 I2 I3 I4 I5].
          assert (I1' : Forall (fun x => (k <= fst (fst x) /\ fst (fst x) <= snd (fst x) /\ snd (fst x) <= 255)%N) (split_loop (f k) k (from (k + 1)%N cnt))).
          { eapply Forall_impl; [|exact I1]. cbn. intros x. destruct (f k); lia. }
          split.
          -- constructor; [cbn [fst snd]; lia|]. eapply Forall_impl; [|exact I1']. cbv beta. intros x Hx. lia.
          -- constructor; [assumption|]. eapply Forall_impl; [|exact I1']. unfold apart. cbn [fst snd]. intros [[x1 x2] x3] Hx. cbn [fst snd] in *. lia.
          -- intros r is b [E1|Hin] Hb; [|eauto]. injection E1 as <- <-. apply in_range_iff in Hb. cbn [fst snd] in Hb. symmetry. apply Hf. lia.
          -- intros r is [E1|Hin]; [|eauto]. injection E1 as <- <-. discriminate.
          -- intros b Hb Hnb. destruct (N.lt_ge_cases b k) as [Hlt|Hge].
             ++ exists (start, (k - 1)%N), (p :: prev). split; [now left|]. apply in_range_iff. cbn [fst snd]. lia.
             ++ destruct (I5 b) as (r & is & Hin & Hr); [|assumption|exists r, is; split; [now right|assumption]].
                destruct (f k) eqn:Efk; [|lia]. destruct (N.eq_dec b k) as [->|]; [congruence|]. lia.
  Qed.
End Split.
(** The positions of the ranges a byte is in. *)
Definition positions (rs : list range) (b : N) : list nat :=
  filter (fun i => (fst (nth i rs (1, 0)%N) <=? b)%N && (b <=? snd (nth i rs (1, 0)%N))%N) (seq 0 (length rs)).
Lemma filter_positions {A} (g : A -> bool) (d : A) l : forall k, map fst (filter (fun p => g (snd p)) (combine (seq k (length l)) l)) = filter (fun i => g (nth (i - k) l d)) (seq k (length l)).
Proof.
  induction l as [|r l IH]; intros k; [reflexivity|]. cbn [length seq combine filter snd]. rewrite Nat.sub_diag. change (nth 0 (r :: l) d) with r.
  assert (E : filter (fun i => g (nth (i - k) (r :: l) d)) (seq (S k) (length l)) = filter (fun i => g (nth (i - S k) l d)) (seq (S k) (length l))).
  { apply filter_ext_in. intros i Hi. apply in_seq in Hi. replace (i - k) with (S (i - S k)) by lia. reflexivity. }
  rewrite E, <- IH. destruct (g r); reflexivity.
Qed.
Lemma items_at_positions rs b : items_at rs b = positions rs b.
Proof.
  unfold items_at, positions, enumerate. rewrite (filter_positions (in_range b) (1, 0)%N). apply filter_ext_in. intros i _. now rewrite Nat.sub_0_r.
Qed.
Lemma split_ranges_spec rs : pieces (items_at rs) 0 255 (split_ranges rs).
Proof.
  assert (H := split_loop_spec (items_at rs) 256 0%N [] 0%N eq_refl ltac:(congruence)). exact H.
Qed.
