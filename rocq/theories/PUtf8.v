(** The byte-range sequences of a range of characters describe exactly the encodings of its scalars. *)
From Verif Require Export PAtom Utf8Seq.
From Coq Require Import ZifyBool ZifyN.
Open Scope N_scope.
Open Scope list_scope.
Set Default Proof Using "Type".

(** ** Base 64 digits *)
Lemma div_digit a b p : 0 < p -> b < p -> (p * a + b) / p = a.
Proof. intros Hp Hb. symmetry. apply (N.div_unique _ p a b); lia. Qed.
Lemma mod_digit a b p : 0 < p -> b < p -> (p * a + b) mod p = b.
Proof. intros Hp Hb. symmetry. apply (N.mod_unique _ p a b); lia. Qed.
Definition num (d3 d2 d1 d0 : N) : N := 262144 * d3 + 4096 * d2 + 64 * d1 + d0.
Lemma num_digits d3 d2 d1 d0 : d2 < 64 -> d1 < 64 -> d0 < 64 -> let x := num d3 d2 d1 d0 in
  x / 262144 = d3 /\ x / 4096 = 64 * d3 + d2 /\ x / 64 = 4096 * d3 + 64 * d2 + d1 /\
  x mod 64 = d0 /\ (x / 64) mod 64 = d1 /\ (x / 4096) mod 64 = d2 /\
  x mod 4096 = 64 * d1 + d0 /\ x mod 262144 = 4096 * d2 + 64 * d1 + d0.
Proof.
  intros H2 H1 H0 x.
  assert (E1 : x = 262144 * d3 + (4096 * d2 + 64 * d1 + d0)) by (unfold x, num; lia).
  assert (E2 : x = 4096 * (64 * d3 + d2) + (64 * d1 + d0)) by (unfold x, num; lia).
  assert (E3 : x = 64 * (4096 * d3 + 64 * d2 + d1) + d0) by (unfold x, num; lia).
  assert (D1 : x / 64 = 4096 * d3 + 64 * d2 + d1) by (rewrite E3; apply div_digit; lia).
  assert (D2 : x / 4096 = 64 * d3 + d2) by (rewrite E2; apply div_digit; lia).
  assert (F : 4096 * d3 + 64 * d2 + d1 = 64 * (64 * d3 + d2) + d1) by lia.
  repeat split; auto.
  - rewrite E1. apply div_digit; lia.
  - rewrite E3. apply mod_digit; lia.
  - rewrite D1, F. apply mod_digit; lia.
  - rewrite D2. apply mod_digit; lia.
  - rewrite E2. apply mod_digit; lia.
  - rewrite E1. apply mod_digit; lia.
Qed.
Lemma digits_of x : exists d3 d2 d1 d0, d2 < 64 /\ d1 < 64 /\ d0 < 64 /\ x = num d3 d2 d1 d0.
Proof.
  exists (x / 64 / 64 / 64), ((x / 64 / 64) mod 64), ((x / 64) mod 64), (x mod 64).
  assert (H := fun y => N.mod_lt y 64 ltac:(lia)). repeat split; auto.
  assert (E0 := N.div_mod x 64 ltac:(lia)). assert (E1 := N.div_mod (x / 64) 64 ltac:(lia)). assert (E2 := N.div_mod (x / 64 / 64) 64 ltac:(lia)).
  unfold num. lia.
Qed.

(** ** Sequences *)
Definition fits (q : list range) (bs : list N) : Prop := Forall2 (fun r b => in_range b r = true) q bs.
Lemma in_range_iff b r : in_range b r = true <-> fst r <= b <= snd r.
Proof. unfold in_range. lia. Qed.
(** Number of bytes announced by a leading byte. *)
Definition lead (b : N) : nat := if b <? 0x80 then 1%nat else if b <? 0xE0 then 2%nat else if b <? 0xF0 then 3%nat else 4%nat.
Lemma lead2 b : 0x80 <= b < 0xE0 -> lead b = 2%nat.
Proof. intros [H1 H2]. unfold lead. destruct (N.ltb_spec b 0x80); [lia|]. destruct (N.ltb_spec b 0xE0); [reflexivity|lia]. Qed.
Lemma lead3 b : 0xE0 <= b < 0xF0 -> lead b = 3%nat.
Proof. intros [H1 H2]. unfold lead. destruct (N.ltb_spec b 0x80); [lia|]. destruct (N.ltb_spec b 0xE0); [lia|]. destruct (N.ltb_spec b 0xF0); [reflexivity|lia]. Qed.
Lemma lead4 b : 0xF0 <= b -> lead b = 4%nat.
Proof. intros H1. unfold lead. destruct (N.ltb_spec b 0x80); [lia|]. destruct (N.ltb_spec b 0xE0); [lia|]. destruct (N.ltb_spec b 0xF0); [lia|reflexivity]. Qed.
Definition good_seq (q : list range) : Prop :=
  match q with [] => False | r :: _ => length q = lead (fst r) end /\ Forall (fun r => fst r <= snd r /\ snd r <= 255) q.

Definition aligned (p s e : N) : Prop := s / p = e / p \/ (s mod p = 0 /\ e mod p = p - 1).
Lemma high_eq m s e : high m s = high m e <-> s / (m + 1) = e / (m + 1).
Proof.
  unfold high. assert (E1 := N.div_mod s (m + 1) ltac:(lia)). assert (E2 := N.div_mod e (m + 1) ltac:(lia)).
  assert (s - s mod (m + 1) = (m + 1) * (s / (m + 1))) by (rewrite E1 at 1; apply N.add_sub).
  assert (e - e mod (m + 1) = (m + 1) * (e / (m + 1))) by (rewrite E2 at 1; apply N.add_sub).
  rewrite H, H0. split; [|intros ->; reflexivity]. intros E. apply N.mul_cancel_l in E; [assumption|lia].
Qed.
Lemma block_none ms s e : block_split ms s e = None -> forall m, In m ms -> aligned (m + 1) s e.
Proof.
  induction ms as [|m ms IH]; intros H m' Hm; [destruct Hm|]. cbn [block_split] in H.
  destruct (high m s =? high m e) eqn:E.
  - destruct Hm as [<-|Hm]; [|auto]. left. apply high_eq. lia.
  - destruct (negb (low m s =? 0)) eqn:E1; [discriminate|]. destruct (negb (low m e =? m)) eqn:E2; [discriminate|].
    destruct Hm as [<-|Hm]; [|auto]. right. unfold low in *. split; lia.
Qed.

Lemma scalar_iff c : scalar c <-> c < 0xD800 \/ (0xE000 <= c /\ c <= 0x10FFFF).
Proof. unfold scalar, scalarb, char_max. lia. Qed.

Definition same_class (s e : N) : Prop := forall b, In b length_bounds -> ~ (s <= b /\ b < e).

Section Box.
  Variables s3 s2 s1 s0 e3 e2 e1 e0 : N.
  Hypotheses (Ls2 : s2 < 64) (Ls1 : s1 < 64) (Ls0 : s0 < 64) (Le2 : e2 < 64) (Le1 : e1 < 64) (Le0 : e0 < 64).
  Hypothesis B0 : (s3 = e3 /\ s2 = e2 /\ s1 = e1) \/ (s0 = 0 /\ e0 = 63).
  Hypothesis B1 : (s3 = e3 /\ s2 = e2) \/ (s1 = 0 /\ s0 = 0 /\ e1 = 63 /\ e0 = 63).
  Hypothesis B2 : s3 = e3 \/ (s2 = 0 /\ s1 = 0 /\ s0 = 0 /\ e2 = 63 /\ e1 = 63 /\ e0 = 63).
  Lemma box_iff c3 c2 c1 c0 : c2 < 64 -> c1 < 64 -> c0 < 64 ->
    num s3 s2 s1 s0 <= num c3 c2 c1 c0 <= num e3 e2 e1 e0 <-> s3 <= c3 <= e3 /\ s2 <= c2 <= e2 /\ s1 <= c1 <= e1 /\ s0 <= c0 <= e0.
  Proof using B0 B1 B2 Ls0 Ls1 Ls2 Le0 Le1 Le2.
    intros H2 H1 H0. unfold num. destruct B2 as [E3|(Z2 & Z1 & Z0 & M2 & M1 & M0)]; [|subst; clear B0 B1 B2; lia].
    destruct B1 as [[_ E2]|(Z1 & Z0 & M1 & M0)]; [|subst; clear B0 B1 B2; lia].
    destruct B0 as [(_ & _ & E1)|[Z0 M0]]; [|subst; clear B0 B1 B2; lia]. subst; clear B0 B1 B2; lia.
  Qed.
End Box.

(** The encoding in terms of digits. *)
Lemma encode2 d1 d0 : d1 < 64 -> d0 < 64 -> 0x80 <= num 0 0 d1 d0 < 0x800 -> encode (num 0 0 d1 d0) = [0xC0 + d1; 0x80 + d0].
Proof.
  intros H1 H0 [L U]. destruct (num_digits 0 0 d1 d0) as (_ & _ & G3 & G4 & _); [reflexivity|assumption|assumption|]. unfold encode.
  rewrite G3, G4. clear G3 G4. destruct (N.ltb_spec (num 0 0 d1 d0) 0x80) as [X|_]; [exfalso; apply (N.lt_irrefl 0x80); eapply N.le_lt_trans; eauto|].
  apply N.ltb_lt in U. rewrite U. reflexivity.
Qed.
Lemma encode3 d2 d1 d0 : d2 < 64 -> d1 < 64 -> d0 < 64 -> 0x800 <= num 0 d2 d1 d0 < 0x10000 -> encode (num 0 d2 d1 d0) = [0xE0 + d2; 0x80 + d1; 0x80 + d0].
Proof.
  intros H2 H1 H0 [L U]. destruct (num_digits 0 d2 d1 d0) as (_ & G2 & _ & G4 & G5 & _); [assumption|assumption|assumption|]. unfold encode.
  rewrite G2, G4, G5. clear G2 G4 G5. assert (X : (num 0 d2 d1 d0 <? 0x80) = false) by (apply N.ltb_ge; eapply N.le_trans; [|exact L]; discriminate).
  assert (Y : (num 0 d2 d1 d0 <? 0x800) = false) by (now apply N.ltb_ge). rewrite X, Y. apply N.ltb_lt in U. rewrite U. reflexivity.
Qed.
Lemma encode4 d3 d2 d1 d0 : d2 < 64 -> d1 < 64 -> d0 < 64 -> 0x10000 <= num d3 d2 d1 d0 -> encode (num d3 d2 d1 d0) = [0xF0 + d3; 0x80 + d2; 0x80 + d1; 0x80 + d0].
Proof.
  intros H2 H1 H0 L. destruct (num_digits d3 d2 d1 d0) as (G1 & _ & _ & G4 & G5 & G6 & _); [assumption|assumption|assumption|]. unfold encode.
  rewrite G1, G4, G5, G6. clear G1 G4 G5 G6. assert (X : (num d3 d2 d1 d0 <? 0x80) = false) by (apply N.ltb_ge; eapply N.le_trans; [|exact L]; discriminate).
  assert (Y : (num d3 d2 d1 d0 <? 0x800) = false) by (apply N.ltb_ge; eapply N.le_trans; [|exact L]; discriminate).
  assert (Z : (num d3 d2 d1 d0 <? 0x10000) = false) by (now apply N.ltb_ge). now rewrite X, Y, Z.
Qed.
Lemma fits_cons k a b q bs : fits ((k + a, k + b) :: q) bs <-> exists c bs', bs = (k + c) :: bs' /\ a <= c <= b /\ fits q bs'.
Proof.
  split.
  - intros H. inversion H as [|? x ? bs' Hx Hq]; subst. apply in_range_iff in Hx. cbn [fst snd] in Hx. exists (x - k), bs'.
    split; [f_equal; clear - Hx; lia|]. split; [clear - Hx; lia|assumption].
  - intros (c & bs' & -> & Hc & Hq). constructor; [|assumption]. apply in_range_iff. cbn [fst snd]. clear - Hc. lia.
Qed.
Lemma fits_nil bs : fits [] bs <-> bs = [].
Proof. split; [intros H; now inversion H|intros ->; constructor]. Qed.

Definition box (s3 s2 s1 s0 e3 e2 e1 e0 : N) : Prop := forall c3 c2 c1 c0, c2 < 64 -> c1 < 64 -> c0 < 64 ->
    num s3 s2 s1 s0 <= num c3 c2 c1 c0 <= num e3 e2 e1 e0 <-> s3 <= c3 <= e3 /\ s2 <= c2 <= e2 /\ s1 <= c1 <= e1 /\ s0 <= c0 <= e0.
Lemma box_le s3 s2 s1 s0 e3 e2 e1 e0 : s2 < 64 -> s1 < 64 -> s0 < 64 -> box s3 s2 s1 s0 e3 e2 e1 e0 -> num s3 s2 s1 s0 <= num e3 e2 e1 e0 ->
  s3 <= e3 /\ s2 <= e2 /\ s1 <= e1 /\ s0 <= e0.
Proof. intros H2 H1 H0 B L. destruct (B s3 s2 s1 s0 H2 H1 H0) as [B1 _]. destruct B1 as (? & ? & ? & ?); [split; [apply N.le_refl|assumption]|]. tauto. Qed.
Definition enc_of (s e : N) : Prop :=
  good_seq (combine (encode s) (encode e)) /\ forall bs, fits (combine (encode s) (encode e)) bs <-> exists c, s <= c <= e /\ encode c = bs.

Lemma base4 s3 s2 s1 s0 e3 e2 e1 e0 : s2 < 64 -> s1 < 64 -> s0 < 64 -> e2 < 64 -> e1 < 64 -> e0 < 64 -> box s3 s2 s1 s0 e3 e2 e1 e0 ->
  num s3 s2 s1 s0 <= num e3 e2 e1 e0 -> 0x10000 <= num s3 s2 s1 s0 -> num e3 e2 e1 e0 <= 0x10FFFF -> enc_of (num s3 s2 s1 s0) (num e3 e2 e1 e0).
Proof.
  intros Ls2 Ls1 Ls0 Le2 Le1 Le0 B L Lo Hi. unfold enc_of. rewrite (encode4 s3 s2 s1 s0), (encode4 e3 e2 e1 e0) by (auto; eapply N.le_trans; eauto). cbn [combine].
  destruct (box_le _ _ _ _ _ _ _ _ Ls2 Ls1 Ls0 B L) as (M3 & M2 & M1 & M0).
  assert (E3 : e3 <= 4) by (clear - Hi; unfold num in Hi; lia). split; [split|].
  - cbn [length fst]. symmetry. apply lead4. clear. lia.
  - clear - M3 M2 M1 M0 Le2 Le1 Le0 E3. repeat constructor; cbn [fst snd]; lia.
  - intros bs. repeat setoid_rewrite fits_cons. split.
    + intros (c3 & ? & -> & R3 & c2 & ? & -> & R2 & c1 & ? & -> & R1 & c0 & ? & -> & R0 & H). apply fits_nil in H as ->.
      assert (L2 : c2 < 64) by (clear - R2 Le2; lia). assert (L1 : c1 < 64) by (clear - R1 Le1; lia). assert (L0 : c0 < 64) by (clear - R0 Le0; lia).
      exists (num c3 c2 c1 c0). assert (Hc : num s3 s2 s1 s0 <= num c3 c2 c1 c0 <= num e3 e2 e1 e0) by (apply B; auto). split; [exact Hc|].
      apply encode4; auto. eapply N.le_trans; [exact Lo|apply Hc].
    + intros (c & Hc & <-). destruct (digits_of c) as (c3 & c2 & c1 & c0 & L2 & L1 & L0 & ->).
      rewrite encode4 by first [assumption|eapply N.le_trans; [exact Lo|apply Hc]]. apply B in Hc as (R3 & R2 & R1 & R0); auto.
      do 2 eexists; split; [reflexivity|]. split; [exact R3|]. do 2 eexists; split; [reflexivity|]. split; [exact R2|].
      do 2 eexists; split; [reflexivity|]. split; [exact R1|]. do 2 eexists; split; [reflexivity|]. split; [exact R0|constructor].
Qed.
Lemma base3 s3 s2 s1 s0 e3 e2 e1 e0 : s2 < 64 -> s1 < 64 -> s0 < 64 -> e2 < 64 -> e1 < 64 -> e0 < 64 -> box s3 s2 s1 s0 e3 e2 e1 e0 ->
  num s3 s2 s1 s0 <= num e3 e2 e1 e0 -> 0x800 <= num s3 s2 s1 s0 -> num e3 e2 e1 e0 < 0x10000 -> enc_of (num s3 s2 s1 s0) (num e3 e2 e1 e0).
Proof.
  intros Ls2 Ls1 Ls0 Le2 Le1 Le0 B L Lo Hi.
  destruct (box_le _ _ _ _ _ _ _ _ Ls2 Ls1 Ls0 B L) as (M3 & M2 & M1 & M0).
  assert (E3 : e3 = 0) by (clear - Hi; unfold num in Hi; lia). assert (S3 : s3 = 0) by (clear - E3 M3; lia). subst s3 e3.
  unfold enc_of. rewrite (encode3 s2 s1 s0) by first [assumption|split; [assumption|eapply N.le_lt_trans; eauto]].
  rewrite (encode3 e2 e1 e0) by first [assumption|split; [eapply N.le_trans; eauto|assumption]]. cbn [combine].
  assert (E2 : e2 < 16) by (clear - Hi; unfold num in Hi; lia). split; [split|].
  - cbn [length fst]. symmetry. apply lead3. clear - E2 M2. lia.
  - clear - M2 M1 M0 Le2 Le1 Le0 E2. repeat constructor; cbn [fst snd]; lia.
  - intros bs. repeat setoid_rewrite fits_cons. split.
    + intros (c2 & ? & -> & R2 & c1 & ? & -> & R1 & c0 & ? & -> & R0 & H). apply fits_nil in H as ->.
      assert (L2 : c2 < 64) by (clear - R2 Le2; lia). assert (L1 : c1 < 64) by (clear - R1 Le1; lia). assert (L0 : c0 < 64) by (clear - R0 Le0; lia).
      exists (num 0 c2 c1 c0). assert (Hc : num 0 s2 s1 s0 <= num 0 c2 c1 c0 <= num 0 e2 e1 e0) by (apply B; auto; repeat split; try tauto; apply N.le_refl). split; [exact Hc|].
      apply encode3; auto. split; [eapply N.le_trans; [exact Lo|apply Hc]|eapply N.le_lt_trans; [apply Hc|exact Hi]].
    + intros (c & Hc & <-). destruct (digits_of c) as (c3 & c2 & c1 & c0 & L2 & L1 & L0 & ->). assert (Hb := Hc). apply B in Hb as (R3 & R2 & R1 & R0); auto.
      assert (c3 = 0) by (clear - R3; lia). subst c3.
      rewrite encode3 by first [assumption|split; [eapply N.le_trans; [exact Lo|apply Hc]|eapply N.le_lt_trans; [apply Hc|exact Hi]]].
      do 2 eexists; split; [reflexivity|]. split; [exact R2|].
      do 2 eexists; split; [reflexivity|]. split; [exact R1|]. do 2 eexists; split; [reflexivity|]. split; [exact R0|constructor].
Qed.
Lemma base2 s3 s2 s1 s0 e3 e2 e1 e0 : s2 < 64 -> s1 < 64 -> s0 < 64 -> e2 < 64 -> e1 < 64 -> e0 < 64 -> box s3 s2 s1 s0 e3 e2 e1 e0 ->
  num s3 s2 s1 s0 <= num e3 e2 e1 e0 -> 0x80 <= num s3 s2 s1 s0 -> num e3 e2 e1 e0 < 0x800 -> enc_of (num s3 s2 s1 s0) (num e3 e2 e1 e0).
Proof.
  intros Ls2 Ls1 Ls0 Le2 Le1 Le0 B L Lo Hi.
  destruct (box_le _ _ _ _ _ _ _ _ Ls2 Ls1 Ls0 B L) as (M3 & M2 & M1 & M0).
  assert (E3 : e3 = 0) by (clear - Hi; unfold num in Hi; lia). assert (S3 : s3 = 0) by (clear - E3 M3; lia). subst s3 e3.
  assert (E2 : e2 = 0) by (clear - Hi; unfold num in Hi; lia). assert (S2 : s2 = 0) by (clear - E2 M2; lia). subst s2 e2.
  unfold enc_of. rewrite (encode2 s1 s0) by first [assumption|split; [assumption|eapply N.le_lt_trans; eauto]].
  rewrite (encode2 e1 e0) by first [assumption|split; [eapply N.le_trans; eauto|assumption]]. cbn [combine].
  assert (E1 : e1 < 32) by (clear - Hi; unfold num in Hi; lia). split; [split|].
  - cbn [length fst]. symmetry. apply lead2. clear - E1 M1. lia.
  - clear - M1 M0 Le1 Le0 E1. repeat constructor; cbn [fst snd]; lia.
  - intros bs. repeat setoid_rewrite fits_cons. split.
    + intros (c1 & ? & -> & R1 & c0 & ? & -> & R0 & H). apply fits_nil in H as ->.
      assert (L1 : c1 < 64) by (clear - R1 Le1; lia). assert (L0 : c0 < 64) by (clear - R0 Le0; lia).
      exists (num 0 0 c1 c0). assert (Hc : num 0 0 s1 s0 <= num 0 0 c1 c0 <= num 0 0 e1 e0) by (apply B; auto; repeat split; try tauto; apply N.le_refl). split; [exact Hc|].
      apply encode2; auto. split; [eapply N.le_trans; [exact Lo|apply Hc]|eapply N.le_lt_trans; [apply Hc|exact Hi]].
    + intros (c & Hc & <-). destruct (digits_of c) as (c3 & c2 & c1 & c0 & L2 & L1 & L0 & ->). assert (Hb := Hc). apply B in Hb as (R3 & R2 & R1 & R0); auto.
      assert (c3 = 0) by (clear - R3; lia). assert (c2 = 0) by (clear - R2; lia). subst c3 c2.
      rewrite encode2 by first [assumption|split; [eapply N.le_trans; [exact Lo|apply Hc]|eapply N.le_lt_trans; [apply Hc|exact Hi]]].
      do 2 eexists; split; [reflexivity|]. split; [exact R1|]. do 2 eexists; split; [reflexivity|]. split; [exact R0|constructor].
Qed.

Lemma base_seq s e : s <= e -> e <= 0x10FFFF -> ~ (s < 0xE000 /\ 0xD7FF < e) -> same_class s e -> 0x7F < e ->
  (forall m, In m block_masks -> aligned (m + 1) s e) ->
  good_seq (combine (encode s) (encode e)) /\
  forall bs, fits (combine (encode s) (encode e)) bs <-> exists c, scalar c /\ s <= c <= e /\ encode c = bs.
Proof.
  intros Hse Hmax Hsur Hcls Hasc Hal.
  assert (SC : forall c, s <= c <= e -> scalar c) by (clear - Hsur Hmax; intros c Hc; apply scalar_iff; lia).
  assert (G : enc_of s e).
  { assert (C1 := Hcls 0x7F ltac:(cbn; auto)). assert (C2 := Hcls 0x7FF ltac:(cbn; auto)). assert (C3 := Hcls 0xFFFF ltac:(cbn; auto)).
    assert (A1 := Hal 0x3F ltac:(cbn; auto)). assert (A2 := Hal 0xFFF ltac:(cbn; auto)). assert (A3 := Hal 0x3FFFF ltac:(cbn; auto)).
    change (0x3F + 1) with 64 in A1. change (0xFFF + 1) with 4096 in A2. change (0x3FFFF + 1) with 262144 in A3. clear Hal Hcls.
    destruct (digits_of s) as (s3 & s2 & s1 & s0 & Ls2 & Ls1 & Ls0 & ->).
    destruct (digits_of e) as (e3 & e2 & e1 & e0 & Le2 & Le1 & Le0 & ->).
    assert (SD := num_digits s3 s2 s1 s0 Ls2 Ls1 Ls0). cbn zeta in SD. destruct SD as (S1 & S2 & S3 & S4 & S5 & S6 & S7 & S8).
    assert (FD := num_digits e3 e2 e1 e0 Le2 Le1 Le0). cbn zeta in FD. destruct FD as (F1 & F2 & F3 & F4 & F5 & F6 & F7 & F8).
    unfold aligned in *. rewrite S3, F3, S4, F4 in A1. rewrite S2, F2, S7, F7 in A2. rewrite S1, F1, S8, F8 in A3.
    assert (B : box s3 s2 s1 s0 e3 e2 e1 e0).
    { unfold box. intros. apply box_iff; auto.
      - clear - A1 Ls2 Ls1 Le2 Le1. destruct A1; [left|right]; lia.
      - clear - A2 Ls2 Ls1 Le2 Le1 Ls0 Le0. destruct A2; [left|right]; lia.
      - clear - A3 Ls2 Ls1 Le2 Le1 Ls0 Le0. destruct A3; [left|right]; lia. }
    clear S1 S2 S3 S4 S5 S6 S7 S8 F1 F2 F3 F4 F5 F6 F7 F8 A1 A2 A3 SC.
    set (s := num s3 s2 s1 s0) in *. set (e := num e3 e2 e1 e0) in *.
    destruct (N.lt_ge_cases e 0x800) as [H|H]; [apply base2; auto; fold s; clear - C1 Hasc; lia|].
    destruct (N.lt_ge_cases e 0x10000) as [H'|H']; [apply base3; auto; fold s; clear - C2 H; lia|].
    apply base4; auto. fold s. clear - C3 H'. lia. }
  destruct G as [G1 G2]. split; [exact G1|]. intros bs. rewrite G2. split; intros (c & H); exists c; [split; [apply SC|]; tauto|tauto].
Qed.

(** ** Termination and correctness of the splitting *)
Definition al (p x : N) : bool := x mod p =? 0.
Definition ind (p s e : N) : nat :=
  if s / p =? e / p then 0%nat else ((if al p s then 0 else 1) + (if al p (e + 1) then 0 else 1))%nat.
Definition strad (b s e : N) : nat := if (s <=? b) && (b <? e) then 1%nat else 0%nat.
Definition sur (s e : N) : nat := if (s <? 0xE000) && (0xD7FF <? e) then 1%nat else 0%nat.
Definition mu (s e : N) : nat :=
  (7 * (sur s e + strad 0x7F s e + strad 0x7FF s e + strad 0xFFFF s e)
   + ind 64 s e + ind 4096 s e + ind 262144 s e)%nat.
Lemma ind_le p s e : (ind p s e <= 2)%nat.
Proof. unfold ind. destruct (_ =? _), (al p s), (al p (e + 1)); lia. Qed.
Lemma al_iff p x : 0 < p -> al p x = true <-> exists k, x = p * k.
Proof.
  intros Hp. unfold al. rewrite N.eqb_eq. split.
  - intros H. exists (x / p). assert (E := N.div_mod x p ltac:(lia)). rewrite H in E. lia.
  - intros (k & ->). rewrite N.mul_comm. apply N.mod_mul. lia.
Qed.
Lemma al_div p q k x : 0 < p -> 0 < k -> q = p * k -> al q x = true -> al p x = true.
Proof. intros Hp Hk -> H. apply al_iff in H as (j & ->); [|nia]. apply al_iff; [assumption|]. exists (k * j). lia. Qed.
Lemma div_same p q k x y : 0 < p -> 0 < k -> q = p * k -> x / p = y / p -> x / q = y / q.
Proof. intros Hp Hk -> E. rewrite <- !N.div_div by lia. now rewrite E. Qed.
Lemma div_between p s s' e' e : 0 < p -> s <= s' -> s' <= e' -> e' <= e -> s / p = e / p -> s' / p = e' / p.
Proof.
  intros Hp H1 H2 H3 E. assert (A1 := N.div_le_mono s s' p ltac:(lia) H1). assert (A2 := N.div_le_mono s' e' p ltac:(lia) H2). assert (A3 := N.div_le_mono e' e p ltac:(lia) H3). lia.
Qed.
Lemma ind_mono p s e s' e' : 0 < p -> s <= s' -> s' <= e' -> e' <= e -> (al p s = true -> al p s' = true) -> (al p (e + 1) = true -> al p (e' + 1) = true) ->
  (ind p s' e' <= ind p s e)%nat.
Proof.
  intros Hp H1 H2 H3 H4 H5. unfold ind. destruct (N.eqb_spec (s' / p) (e' / p)) as [E|E]; [lia|].
  destruct (N.eqb_spec (s / p) (e / p)) as [E'|E'].
  - exfalso. apply E. eapply div_between; eauto.
  - destruct (al p s), (al p (e + 1)), (al p s'), (al p (e' + 1)); try lia; try (specialize (H4 eq_refl); discriminate); try (specialize (H5 eq_refl); discriminate).
Qed.

(** How a split at [t] on a block of size [p] was chosen. *)
Definition split_at (p s e t : N) : Prop :=
  s < t /\ t <= e /\ al p t = true /\ s / p <> e / p /\
  ((al p s = false /\ (t - 1) / p = s / p) \/ (al p (e + 1) = false /\ t / p = e / p)).
Lemma block_some ms s e p1 p2 : s <= e -> block_split ms s e = Some (p1, p2) ->
  exists m t, In m ms /\ split_at (m + 1) s e t /\ p1 = (s, t - 1) /\ p2 = (t, e).
Proof.
  intros Hse. induction ms as [|m ms IH]; intros H; cbn [block_split] in H; [discriminate|].
  assert (Rec : block_split ms s e = Some (p1, p2) -> exists m0 t, In m0 (m :: ms) /\ split_at (m0 + 1) s e t /\ p1 = (s, t - 1) /\ p2 = (t, e)).
  { intros H'. destruct (IH H') as (m0 & t & Hm & R). exists m0, t. split; [now right|exact R]. }
  destruct (high m s =? high m e) eqn:E; [auto|]. apply N.eqb_neq in E. rewrite high_eq in E.
  unfold low, high in *. remember (m + 1) as p eqn:Ep. assert (Hp : 0 < p) by (rewrite Ep; clear; lia).
  assert (E1 := N.div_mod s p ltac:(lia)). assert (E2 := N.div_mod e p ltac:(lia)).
  assert (L1 := N.mod_lt s p ltac:(lia)). assert (L2 := N.mod_lt e p ltac:(lia)).
  assert (M := N.div_le_mono s e p ltac:(lia) Hse).
  assert (Hs : s - s mod p = p * (s / p)) by (rewrite E1 at 1; apply N.add_sub).
  assert (He : e - e mod p = p * (e / p)) by (rewrite E2 at 1; apply N.add_sub). rewrite Hs, He in H. clear Hs He.
  assert (Hlt : p * (s / p) + p <= p * (e / p)).
  { clear - M E. set (a := s / p) in *. set (b := e / p) in *. clearbody a b. nia. }
  set (a := s / p) in *. set (b := e / p) in *. assert (Da : (p * a + (p - 1)) / p = a) by (apply div_digit; clear - Hp; lia).
  assert (Db : (p * b) / p = b) by (rewrite N.mul_comm; apply N.div_mul; clear - Hp; lia).
  assert (Pa : p * (a + 1) = p * a + p) by (clear; lia).
  set (x := p * a) in *. set (y := p * b) in *. destruct (negb (s mod p =? 0)) eqn:N1.
  - injection H as <- <-. exists m, (x + m + 1). split; [now left|]. rewrite <- Ep. split; [split; [|split; [|split; [|split; [|left; split]]]]|split].
    + clear - Ep E1 L1. clearbody x. lia.
    + clear - Ep E2 Hlt. clearbody x y. lia.
    + apply al_iff; [assumption|]. exists (a + 1). clear - Pa Ep. clearbody x. lia.
    + exact E.
    + unfold al. clear - N1. lia.
    + replace (x + m + 1 - 1) with (x + (p - 1)) by (clear - Ep; lia). exact Da.
    + f_equal. clear. lia.
    + reflexivity.
  - destruct (negb (e mod p =? m)) eqn:N2; [|auto]. injection H as <- <-. exists m, y. split; [now left|]. rewrite <- Ep. split; [split; [|split; [|split; [|split; [|right; split]]]]|auto].
    + clear - E1 N1 Hlt Hp. clearbody x y. lia.
    + clear - E2. clearbody y. lia.
    + apply al_iff; [assumption|]. exists b. reflexivity.
    + exact E.
    + unfold al. assert (X : (e + 1) mod p = e mod p + 1).
      { rewrite E2 at 1. rewrite <- N.add_assoc. apply mod_digit; [assumption|]. clear - N2 L2 Ep. lia. }
      rewrite X. clear. lia.
    + exact Db.
Qed.
Lemma ind_split p q s e t : 0 < p -> 0 < q -> (exists k, 0 < k /\ q = p * k) \/ (exists k, 0 < k /\ p = q * k) -> split_at p s e t ->
  (ind q s (t - 1) <= ind q s e)%nat /\ (ind q t e <= ind q s e)%nat.
Proof.
  intros Hp Hq Hd (H1 & H2 & H3 & H4 & H5). assert (T : t - 1 + 1 = t) by lia. destruct Hd as [(k & Hk & E)|(k & Hk & E)].
  - destruct H5 as [[A B]|[A B]].
    + split.
      * assert (Z : ind q s (t - 1) = 0%nat); [|lia]. unfold ind. rewrite (div_same p q k s (t - 1)) by auto. now rewrite N.eqb_refl.
      * apply ind_mono; try lia. intros X. apply (al_div p q k) in X; auto. congruence.
    + split.
      * apply ind_mono; try lia. intros X. apply (al_div p q k) in X; auto. congruence.
      * assert (Z : ind q t e = 0%nat); [|lia]. unfold ind. rewrite (div_same p q k t e) by auto. now rewrite N.eqb_refl.
  - assert (X : al q t = true) by (eapply al_div; eauto). split; apply ind_mono; try lia; auto. now rewrite T.
Qed.
Lemma ind_split_lt p s e t : 0 < p -> split_at p s e t -> (ind p s (t - 1) < ind p s e)%nat /\ (ind p t e < ind p s e)%nat.
Proof.
  intros Hp (H1 & H2 & H3 & H4 & H5). assert (T : t - 1 + 1 = t) by lia. apply N.eqb_neq in H4.
  unfold ind. rewrite H4, T, H3. destruct H5 as [[A B]|[A B]].
  - rewrite B, N.eqb_refl, A. split; [destruct (al p (e + 1)); lia|]. destruct (t / p =? e / p), (al p (e + 1)); lia.
  - rewrite B, N.eqb_refl, A. split; [|destruct (al p s); lia]. destruct (s / p =? (t - 1) / p), (al p s); lia.
Qed.
Lemma mu_block m s e t : In m block_masks -> split_at (m + 1) s e t -> (mu s (t - 1) < mu s e)%nat /\ (mu t e < mu s e)%nat.
Proof.
  intros Hm Hs. assert (H0 : 0 < m + 1) by lia. destruct (ind_split_lt _ _ _ _ H0 Hs) as [L1 L2].
  assert (D : forall q, In q [64; 4096; 262144] -> (exists k, 0 < k /\ q = (m + 1) * k) \/ (exists k, 0 < k /\ m + 1 = q * k)).
  { intros q Hq. cbn in Hm, Hq. destruct Hm as [<-|[<-|[<-|[]]]], Hq as [<-|[<-|[<-|[]]]];
      first [left; eexists 1; split; reflexivity|left; exists 64; split; reflexivity|left; exists 4096; split; reflexivity
            |right; exists 64; split; reflexivity|right; exists 4096; split; reflexivity]. }
  destruct (ind_split (m + 1) 64 s e t H0 ltac:(lia) (D 64 ltac:(cbn; auto)) Hs) as [A1 A2].
  destruct (ind_split (m + 1) 4096 s e t H0 ltac:(lia) (D 4096 ltac:(cbn; auto)) Hs) as [B1 B2].
  destruct (ind_split (m + 1) 262144 s e t H0 ltac:(lia) (D 262144 ltac:(cbn; auto)) Hs) as [C1 C2].
  destruct Hs as (S1 & S2 & _). clear D.
  assert (ST : forall b, (strad b s (t - 1) <= strad b s e)%nat /\ (strad b t e <= strad b s e)%nat).
  { intros b. unfold strad. split.
    - destruct ((s <=? b) && (b <? t - 1)) eqn:X; [|lia]. assert (Y : (s <=? b) && (b <? e) = true) by lia. now rewrite Y.
    - destruct ((t <=? b) && (b <? e)) eqn:X; [|lia]. assert (Y : (s <=? b) && (b <? e) = true) by lia. now rewrite Y. }
  assert (SU : (sur s (t - 1) <= sur s e)%nat /\ (sur t e <= sur s e)%nat).
  { unfold sur. split.
    - destruct ((s <? 0xE000) && (0xD7FF <? t - 1)) eqn:X; [|lia]. assert (Y : (s <? 0xE000) && (0xD7FF <? e) = true) by lia. now rewrite Y.
    - destruct ((t <? 0xE000) && (0xD7FF <? e)) eqn:X; [|lia]. assert (Y : (s <? 0xE000) && (0xD7FF <? e) = true) by lia. now rewrite Y. }
  destruct (ST 0x7F), (ST 0x7FF), (ST 0xFFFF), SU. clear ST. unfold mu.
  change block_masks with [64 - 1; 4096 - 1; 262144 - 1] in Hm.
  cbn [In] in Hm. destruct Hm as [<-|[<-|[<-|[]]]].
  - change (64 - 1 + 1) with 64 in *. split; lia.
  - change (4096 - 1 + 1) with 4096 in *. split; lia.
  - change (262144 - 1 + 1) with 262144 in *. split; lia.
Qed.
Lemma ind_sum s e : (ind 64 s e + ind 4096 s e + ind 262144 s e <= 6)%nat.
Proof. assert (A := ind_le 64 s e). assert (B := ind_le 4096 s e). assert (C := ind_le 262144 s e). lia. Qed.
Lemma strad_mono b s e s' e' : s <= s' -> e' <= e -> (strad b s' e' <= strad b s e)%nat.
Proof. intros H1 H2. unfold strad. destruct ((s' <=? b) && (b <? e')) eqn:X; [|lia]. assert (Y : (s <=? b) && (b <? e) = true) by lia. now rewrite Y. Qed.
Lemma sur_mono s e s' e' : s <= s' -> e' <= e -> (sur s' e' <= sur s e)%nat.
Proof. intros H1 H2. unfold sur. destruct ((s' <? 0xE000) && (0xD7FF <? e')) eqn:X; [|lia]. assert (Y : (s <? 0xE000) && (0xD7FF <? e) = true) by lia. now rewrite Y. Qed.
Lemma mu_straddle s e s' e' : s <= s' -> e' <= e ->
  ((sur s' e' < sur s e)%nat \/ exists b, In b length_bounds /\ (strad b s' e' < strad b s e)%nat) -> (mu s' e' < mu s e)%nat.
Proof.
  intros H1 H2 H. assert (A := ind_sum s' e'). assert (S0 := sur_mono _ _ _ _ H1 H2).
  assert (S1 := strad_mono 0x7F _ _ _ _ H1 H2). assert (S2 := strad_mono 0x7FF _ _ _ _ H1 H2). assert (S3 := strad_mono 0xFFFF _ _ _ _ H1 H2).
  unfold mu. destruct H as [H|(b & Hb & H)]; [lia|]. cbn in Hb. destruct Hb as [<-|[<-|[<-|[]]]]; lia.
Qed.

Definition seqs_ok (s e : N) (l : list (list range)) : Prop :=
  Forall good_seq l /\ forall bs, (exists q, In q l /\ fits q bs) <-> exists c, scalar c /\ s <= c <= e /\ encode c = bs.
Lemma seqs_union s e s1 e1 s2 e2 l1 l2 : (forall c, scalar c -> s <= c <= e <-> (s1 <= c <= e1 \/ s2 <= c <= e2)) ->
  seqs_ok s1 e1 l1 -> seqs_ok s2 e2 l2 -> seqs_ok s e (l1 ++ l2).
Proof.
  intros H [G1 H1] [G2 H2]. split; [now apply Forall_app|]. intros bs. split.
  - intros (q & Hq & Hf). apply in_app_or in Hq as [Hq|Hq].
    + destruct (proj1 (H1 bs)) as (c & Hc & R & E); [eauto|]. exists c. split; [assumption|]. split; [apply (H c Hc); auto|assumption].
    + destruct (proj1 (H2 bs)) as (c & Hc & R & E); [eauto|]. exists c. split; [assumption|]. split; [apply (H c Hc); auto|assumption].
  - intros (c & Hc & R & E). apply (H c Hc) in R as [R|R].
    + destruct (proj2 (H1 bs)) as (q & Hq & Hf); [eauto|]. exists q. split; [apply in_or_app; auto|assumption].
    + destruct (proj2 (H2 bs)) as (q & Hq & Hf); [eauto|]. exists q. split; [apply in_or_app; auto|assumption].
Qed.
Lemma length_split_spec s e : match length_split s e with
  | Some p => exists b, In b length_bounds /\ s <= b < e /\ p = ((s, b), (b + 1, e))
  | None => same_class s e
  end.
Proof.
  unfold length_split. destruct (find _ length_bounds) as [b|] eqn:E.
  - apply find_some in E as [H1 H2]. exists b. split; [assumption|]. split; [lia|reflexivity].
  - intros b Hb H. apply (find_none _ _ E) in Hb. lia.
Qed.
Lemma utf8_seqs_spec fuel : forall s e, e <= 0x10FFFF -> (mu s e < fuel)%nat -> exists l, utf8_seqs fuel s e = Ok l /\ seqs_ok s e l.
Proof.
  induction fuel as [|f IH]; intros s e He Hmu; [lia|]. cbn [utf8_seqs].
  assert (Both : forall s1 e1 s2 e2, e1 <= 0x10FFFF -> e2 <= 0x10FFFF -> (mu s1 e1 < mu s e)%nat -> (mu s2 e2 < mu s e)%nat ->
     (forall c, scalar c -> s <= c <= e <-> (s1 <= c <= e1 \/ s2 <= c <= e2)) ->
     exists l, (do a <- utf8_seqs f s1 e1; do b <- utf8_seqs f s2 e2; Ok (a ++ b)) = Ok l /\ seqs_ok s e l).
  { intros s1 e1 s2 e2 L1 L2 M1 M2 H. destruct (IH s1 e1 L1 ltac:(lia)) as (l1 & -> & O1). destruct (IH s2 e2 L2 ltac:(lia)) as (l2 & -> & O2).
    cbn [bind]. exists (l1 ++ l2). split; [reflexivity|]. eapply seqs_union; eauto. }
  destruct ((s <? 0xE000) && (0xD7FF <? e)) eqn:Esur.
  - apply Both; cbn [fst snd]; try lia.
    + apply mu_straddle; [lia|lia|]. left. unfold sur. rewrite Esur. replace ((s <? 0xE000) && (0xD7FF <? 0xD7FF)) with false by lia. lia.
    + apply mu_straddle; [lia|lia|]. left. unfold sur. rewrite Esur. replace ((0xE000 <? 0xE000) && (0xD7FF <? e)) with false by lia. lia.
    + intros c Hc. apply scalar_iff in Hc. lia.
  - destruct (e <? s) eqn:Ees.
    + exists []. split; [reflexivity|]. split; [constructor|]. intros bs. split; [intros (q & [] & _)|]. intros (c & _ & H & _). lia.
    + assert (LS := length_split_spec s e). destruct (length_split s e) as [p|].
      * destruct LS as (b & Hb & Hse & ->). cbn [fst snd]. apply Both; try lia.
        -- apply mu_straddle; [lia|lia|]. right. exists b. split; [assumption|]. unfold strad. replace ((s <=? b) && (b <? b)) with false by lia. replace ((s <=? b) && (b <? e)) with true by lia. lia.
        -- apply mu_straddle; [lia|lia|]. right. exists b. split; [assumption|]. unfold strad. replace ((b + 1 <=? b) && (b <? e)) with false by lia. replace ((s <=? b) && (b <? e)) with true by lia. lia.
      * destruct (e <=? 0x7F) eqn:Easc.
        -- eexists; split; [reflexivity|]. split.
           ++ repeat constructor; cbn [fst snd length]; try lia. unfold lead. replace (s <? 0x80) with true by lia. reflexivity.
           ++ intros bs. split.
              ** intros (q & [<-|[]] & Hf). inversion Hf as [|? x ? ? Hx Hr]; subst. inversion Hr; subst. apply in_range_iff in Hx. cbn [fst snd] in Hx. exists x.
                 split; [apply scalar_iff; lia|]. split; [assumption|]. unfold encode. replace (x <? 0x80) with true by lia. reflexivity.
              ** intros (c & _ & Hc & <-). eexists; split; [now left|]. unfold encode. replace (c <? 0x80) with true by lia. constructor; [apply in_range_iff; cbn [fst snd]; lia|constructor].
        -- destruct (block_split block_masks s e) as [[p1 p2]|] eqn:Eb.
           ++ destruct (block_some block_masks s e p1 p2) as (m & t & Hm & Hs & -> & ->); [lia|assumption|]. cbn [fst snd].
              destruct (mu_block m s e t Hm Hs) as [M1 M2]. destruct Hs as (S1 & S2 & _). apply Both; try lia.
           ++ destruct (base_seq s e) as [G1 G2]; try lia.
              ** exact LS.
              ** apply block_none. exact Eb.
              ** eexists; split; [reflexivity|]. split; [repeat constructor; apply G1|]. intros bs. rewrite <- G2. split.
                 --- intros (q & [<-|[]] & Hf). exact Hf.
                 --- intros Hf. eexists; split; [now left|exact Hf].
Qed.
Lemma mu_bound s e : (mu s e <= 34)%nat.
Proof.
  assert (A := ind_sum s e). assert (B : forall b, (strad b s e <= 1)%nat) by (intros b; unfold strad; destruct (_ && _); lia).
  assert (B1 := B 0x7F). assert (B2 := B 0x7FF). assert (B3 := B 0xFFFF). assert (C : (sur s e <= 1)%nat) by (unfold sur; destruct (_ && _); lia). unfold mu. lia.
Qed.
Theorem utf8_sequences_spec r : snd r <= 0x10FFFF -> exists l, utf8_sequences r = Ok l /\ seqs_ok (fst r) (snd r) l.
Proof. intros H. apply utf8_seqs_spec; [assumption|]. assert (M := mu_bound (fst r) (snd r)). unfold utf8_fuel. lia. Qed.

(** Good sequences sharing their first range have the same length. *)
Lemma good_prefix q r : good_seq q -> good_seq (q ++ r) -> r = [].
Proof.
  intros [H1 _] [H2 _]. destruct q as [|x q]; [destruct H1|]. cbn [app] in *. rewrite <- H1 in H2. cbn in H2. rewrite app_length in H2.
  destruct r; [reflexivity|cbn in H2; lia].
Qed.

(** ** Encodings *)
Lemma encode_length c : length (encode c) = len_utf8 c.
Proof. unfold encode, len_utf8. destruct (c <? 0x80), (c <? 0x800), (c <? 0x10000); reflexivity. Qed.

Lemma encode_lead c x : exists b bs, encode c ++ x = b :: bs ++ x /\ encode c = b :: bs /\ lead b = len_utf8 c.
Proof.
  unfold encode, len_utf8. destruct (N.ltb_spec c 0x80) as [H|H].
  - exists c, []. split; [reflexivity|]. split; [reflexivity|]. unfold lead. apply N.ltb_lt in H. now rewrite H.
  - destruct (N.ltb_spec c 0x800) as [H1|H1].
    + eexists _, _. split; [reflexivity|]. split; [reflexivity|]. assert (c / 64 < 32) by (apply N.div_lt_upper_bound; [discriminate|exact H1]). apply lead2. lia.
    + destruct (N.ltb_spec c 0x10000) as [H2|H2].
      * eexists _, _. split; [reflexivity|]. split; [reflexivity|]. assert (c / 4096 < 16) by (apply N.div_lt_upper_bound; [discriminate|exact H2]). apply lead3. lia.
      * eexists _, _. split; [reflexivity|]. split; [reflexivity|]. apply lead4. apply N.le_add_r.
Qed.
Lemma cons_eq {A} (x y : A) l m : x :: l = y :: m -> x = y /\ l = m.
Proof. intros E. now injection E. Qed.
Lemma encode_inj c d : encode c = encode d -> c = d.
Proof.
  intros E. assert (L : len_utf8 c = len_utf8 d) by (rewrite <- !encode_length; now rewrite E).
  assert (E0c := N.div_mod c 64 ltac:(lia)). assert (E0d := N.div_mod d 64 ltac:(lia)).
  assert (E1c := N.div_mod (c / 64) 64 ltac:(lia)). assert (E1d := N.div_mod (d / 64) 64 ltac:(lia)).
  assert (E2c := N.div_mod (c / 4096) 64 ltac:(lia)). assert (E2d := N.div_mod (d / 4096) 64 ltac:(lia)).
  assert (F : forall x, x / 64 / 64 = x / 4096) by (intros x; now rewrite N.div_div by discriminate).
  assert (F' : forall x, x / 4096 / 64 = x / 262144) by (intros x; now rewrite N.div_div by discriminate).
  rewrite F in E1c, E1d. rewrite F' in E2c, E2d.
  clear L. unfold encode in E.
  assert (P : forall k a b, k + a = k + b -> a = b) by (intros k a b H; now apply N.add_cancel_l in H).
  destruct (c <? 0x80), (d <? 0x80); [now injection E| | |];
  (destruct (c <? 0x800); [|destruct (c <? 0x10000)]); (destruct (d <? 0x800); [|destruct (d <? 0x10000)]); try discriminate E.
  - apply cons_eq in E as [A E]. apply cons_eq in E as [B _]. apply P in A, B. congruence.
  - apply cons_eq in E as [A E]. apply cons_eq in E as [B E]. apply cons_eq in E as [C _]. apply P in A, B, C. congruence.
  - apply cons_eq in E as [A E]. apply cons_eq in E as [B E]. apply cons_eq in E as [C E]. apply cons_eq in E as [D _]. apply P in A, B, C, D. congruence.
Qed.
Lemma encode_app_inj c d x y : encode c ++ x = encode d ++ y -> c = d /\ x = y.
Proof.
  intros E. destruct (encode_lead c x) as (b & bs & E1 & E2 & E3). destruct (encode_lead d y) as (b' & bs' & F1 & F2 & F3).
  assert (b = b') by congruence. subst b'.
  assert (L : length (encode c) = length (encode d)) by (rewrite !encode_length; congruence).
  assert (G : encode c = encode d /\ x = y).
  { clear - E L. revert E L. generalize (encode c) (encode d). induction l as [|a l IH]; intros [|a' l'] E L; cbn in *; try discriminate; [auto|].
    injection E as -> E. injection L as L. destruct (IH _ E L) as [-> ->]. auto. }
  destruct G as [G ->]. split; [now apply encode_inj|reflexivity].
Qed.
Lemma utf8_inj l m : utf8 l = utf8 m -> l = m.
Proof.
  revert m; induction l as [|c l IH]; intros [|d m] E; cbn in E; [reflexivity| | |].
  - destruct (encode_lead d (flat_map encode m)) as (b & bs & E1 & _). congruence.
  - destruct (encode_lead c (flat_map encode l)) as (b & bs & E1 & _). congruence.
  - apply encode_app_inj in E as [-> E]. f_equal. auto.
Qed.
