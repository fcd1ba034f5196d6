(** Two patterns from the README of the crate, for all texts. *)
From Coq Require Import String.
From Verif Require Import PAll PStrip PCount PLiteral PTemplate PLoose SpecTemplate SpecGroups SpecReadme.
From Coq Require Import ZifyBool ZifyNat ZifyN.
Open Scope nat_scope.
Open Scope list_scope.
Local Notation length := List.length.

Lemma compiled_groups s en n : compiled s en ->
  (let g r := match r with Ok x => engine_groups x = n | _ => True end in
   g (compile_regex s) /\ g (compile_dfa s) /\ g (compile_flat s) /\ g (compile_flat_u8 s) /\ g (compile_one_pass s) /\ g (compile_fixed s)) -> engine_groups en = n.
Proof. cbv zeta. intros [E|[E|[E|[E|[E|E]]]]] (H1 & H2 & H3 & H4 & H5 & H6); rewrite E in *; assumption. Qed.
Lemma Forall2_repeat {A B} (P : A -> B -> Prop) a n l : Forall2 P (repeat a n) l <-> length l = n /\ Forall (P a) l.
Proof.
  revert l. induction n as [|n IH]; intros l; cbn; split.
  - intros H; inversion H; now split.
  - intros [H _]. destruct l; [constructor|discriminate].
  - intros H. inversion H as [|? ? ? ? H1 H2]; subst. apply IH in H2 as [<- H2]. split; [reflexivity|now constructor].
  - intros [H1 H2]. destruct l as [|x l]; [discriminate|]. inversion H2; subst. constructor; [assumption|]. apply IH. split; [now injection H1|assumption].
Qed.
Lemma nth_same {A} (l m : list (option A)) : length l = length m -> (forall k, nth k l None = nth k m None) -> l = m.
Proof. intros H1 H2. apply (nth_ext _ _ None None H1). intros k _. apply H2. Qed.

Definition D : atom := MatchingList [Range 48 57].
Definition phone_branch : branch :=
  [PQuant (XSub [[PSingle (XAtom (NormalChar 43)); PSingle (XAtom (NormalChar 49)); PSingle (XAtom (NormalChar 32))]]) {| q_type := QQuestion; q_alt := false |};
   PQuant (XAtom D) {| q_type := QMultiple 3; q_alt := false |}; PSingle (XAtom (NormalChar 45));
   PQuant (XAtom D) {| q_type := QMultiple 3; q_alt := false |}; PSingle (XAtom (NormalChar 45));
   PQuant (XAtom D) {| q_type := QMultiple 4; q_alt := false |}].
Definition phone_with (n : nat) : branch :=
  [PQuant (XSub [[PSingle (XAtom (NormalChar 43)); PSingle (XAtom (NormalChar 49)); PSingle (XAtom (NormalChar 32))]]) {| q_type := QMultiple (N.of_nat n); q_alt := false |};
   PQuant (XAtom D) {| q_type := QMultiple 3; q_alt := false |}; PSingle (XAtom (NormalChar 45));
   PQuant (XAtom D) {| q_type := QMultiple 3; q_alt := false |}; PSingle (XAtom (NormalChar 45));
   PQuant (XAtom D) {| q_type := QMultiple 4; q_alt := false |}].
Lemma phone_parse : parse_str phone = ROk (template true true phone_branch).
Proof. vm_compute. reflexivity. Qed.
Lemma D_has c : atom_has D c <-> digit c.
Proof. unfold D, digit. cbn. split; [intros (t & [<-|[]] & H); exact H|]. intros H. exists (Range 48 57). split; [now left|exact H]. Qed.
Lemma Ds n x : Forall2 atom_has (repeat D n) x <-> some_of digit n x.
Proof. rewrite Forall2_repeat. unfold some_of. split; intros [H1 H2]; (split; [assumption|]); eapply Forall_impl; try eassumption; intros c; apply D_has. Qed.
Lemma phone_counts ks b' : counted_as phone_branch ks b' <-> exists n, n <= 1 /\ ks = [n; 3; 3; 4] /\ b' = phone_with n.
Proof.
  split.
  - intros H. unfold phone_branch in H. repeat match goal with X : counted_as (_ :: _) _ _ |- _ => inversion X; clear X; subst end. match goal with X : counted_as [] _ _ |- _ => inversion X; subst end.
    cbn in *. exists n. split; [lia|]. assert (n0 = 3) as -> by lia. assert (n1 = 3) as -> by lia. assert (n2 = 4) as -> by lia. split; reflexivity.
  - intros (n & Hn & -> & ->). unfold phone_branch, phone_with. apply ca_quant; [cbn; lia|].
    apply (ca_quant (XAtom D) {| q_type := QMultiple 3; q_alt := false |} 3); [reflexivity|]. apply ca_single.
    apply (ca_quant (XAtom D) {| q_type := QMultiple 3; q_alt := false |} 3); [reflexivity|]. apply ca_single.
    apply (ca_quant (XAtom D) {| q_type := QMultiple 4; q_alt := false |} 4); [reflexivity|]. apply ca_nil.
Qed.
Definition phone_tail : list atom := repeat D 3 ++ [NormalChar 45] ++ repeat D 3 ++ [NormalChar 45] ++ repeat D 4.
Lemma phone_shape n T : n <= 1 -> (shaped (phone_with n) T <-> exists P, phone_number P T /\ length P = 3 * n).
Proof.
  intros Hn. unfold shaped, phone_number.
  assert (S : forall y, Forall2 atom_has phone_tail y <-> exists x1 x2 x3, y = x1 ++ s2l "-" ++ x2 ++ s2l "-" ++ x3 /\ some_of digit 3 x1 /\ some_of digit 3 x2 /\ some_of digit 4 x3).
  { intros y. unfold phone_tail. split.
    - intros H. apply Forall2_app_inv_l in H as (x1 & y1 & H1 & H & ->). apply Forall2_app_inv_l in H as (m1 & y2 & Hm1 & H & ->). apply Forall2_app_inv_l in H as (x2 & y3 & H2 & H & ->). apply Forall2_app_inv_l in H as (m2 & x3 & Hm2 & H3 & ->).
      apply Ds in H1, H2, H3. exists x1, x2, x3. inversion Hm1 as [|? c ? ? E N1]; subst. inversion N1; subst. inversion Hm2 as [|? c2 ? ? E2 N2]; subst. inversion N2; subst. cbn in E, E2. subst. auto.
    - intros (x1 & x2 & x3 & -> & H1 & H2 & H3). apply Forall2_app; [now apply Ds|]. apply Forall2_app; [repeat constructor|]. apply Forall2_app; [now apply Ds|]. apply Forall2_app; [repeat constructor|]. now apply Ds. }
  destruct n as [|[|]]; [| |lia].
  - replace (shapes_branch (phone_with 0)) with [phone_tail] by reflexivity. split.
    + intros (sh & [<-|[]] & H). apply S in H as (x1 & x2 & x3 & -> & H). exists []. split; [|reflexivity]. exists x1, x2, x3. auto.
    + intros (P & (x1 & x2 & x3 & -> & HP & H) & E). destruct HP as [->| ->]; [|discriminate E]. exists phone_tail. split; [now left|]. apply S. now exists x1, x2, x3.
  - replace (shapes_branch (phone_with 1)) with [[NormalChar 43; NormalChar 49; NormalChar 32] ++ phone_tail] by reflexivity. split.
    + intros (sh & [<-|[]] & H). apply Forall2_app_inv_l in H as (P & y & H1 & H2 & ->). apply S in H2 as (x1 & x2 & x3 & -> & H). exists (s2l "+1 "). split; [|reflexivity]. exists x1, x2, x3. split; [|auto].
      f_equal. inversion H1 as [|? c1 ? ? E1 N1]; subst. inversion N1 as [|? c2 ? ? E2 N2]; subst. inversion N2 as [|? c3 ? ? E3 N3]; subst. inversion N3; subst. cbn in E1, E2, E3. now subst.
    + intros (P & (x1 & x2 & x3 & -> & HP & H) & E). destruct HP as [->| ->]; [discriminate E|]. eexists. split; [now left|]. apply Forall2_app; [repeat constructor|]. apply S. now exists x1, x2, x3.
Qed.
Lemma digits_low n x : some_of digit n x -> Forall (fun c => (c < 128)%N) x.
Proof. intros [_ H]. eapply Forall_impl; [|exact H]. unfold digit. intros c Hc. lia. Qed.
Lemma phone_low P T : phone_number P T -> Forall (fun c => (c < 128)%N) T.
Proof.
  intros (x1 & x2 & x3 & -> & HP & H1 & H2 & H3). apply digits_low in H1, H2, H3. repeat (apply Forall_app; split); auto; try (repeat constructor; fail). destruct HP as [->| ->]; repeat constructor.
Qed.
Lemma phone_length P T : phone_number P T -> length T = length P + 12.
Proof. intros (x1 & x2 & x3 & -> & HP & [H1 _] & [H2 _] & [H3 _]). rewrite !app_length. cbn [List.length s2l]. change (length (s2l "-")) with 1. lia. Qed.
Lemma phone_once P Q T : phone_number P T -> phone_number Q T -> P = Q.
Proof.
  intros HP HQ. assert (E := phone_length _ _ HP). assert (E' := phone_length _ _ HQ). destruct HP as (? & ? & ? & _ & HP & _), HQ as (? & ? & ? & _ & HQ & _). destruct HP as [->| ->], HQ as [->| ->]; try reflexivity; cbn in E, E'; lia.
Qed.
Lemma phone_scalar : Forall scalar phone.
Proof. repeat constructor. Qed.
Lemma phone_answer en T : compiled phone en -> Forall scalar T ->
  (forall P, phone_number P T -> engine_test en T = Ok true /\ engine_exec en T = Ok (Some [Some (0, length T); if Nat.eqb (length P) 0 then None else Some (0, 3)])) /\
  ((forall P, ~ phone_number P T) -> engine_test en T = Ok false /\ engine_exec en T = Ok None).
Proof.
  intros H HT. assert (Hg : G_ere (template true true phone_branch) phone) by (apply parse_iff; exact phone_parse).
  destruct (loose_finds true true phone_branch phone en T H phone_scalar Hg eq_refl HT) as (o & E1 & E2 & Ho).
  assert (Fit : forall P, phone_number P T -> fits_at true true (phone_with (length P / 3)) T [] T).
  { intros P HP. split; [exists []; cbn; rewrite app_nil_r; auto|]. apply phone_shape; [|exists P; split; [assumption|]]; destruct HP as (? & ? & ? & _ & [->| ->] & _); cbn; lia. }
  destruct o as [cs|].
  - destruct Ho as (ks & b' & U & R & C & HU & _ & _ & Hn & Hr). apply phone_counts in C as (n & Hn1 & -> & ->). destruct HU as ((V & ET & HU & HV) & Hsh). rewrite (HU eq_refl) in *. rewrite (HV eq_refl) in *. cbn in ET. rewrite app_nil_r in ET. subst R.
    apply phone_shape in Hsh as (Q & HQ & EQ); [|assumption]. split; [|intros Hno; now apply Hno in HQ]. intros P HP. rewrite (phone_once _ _ _ HP HQ). rewrite E1, E2. split; [reflexivity|]. do 2 f_equal.
    rewrite (compiled_groups phone en 2 H) in Hn by (vm_compute; repeat split). apply nth_same; [exact Hn|]. intros k. rewrite Hr. assert (Lo := ascii_pos T (phone_low _ _ HQ)). assert (Le := phone_length _ _ HQ).
    destruct n as [|[|]]; [| |lia].
    + cbn [List.length] in *. change (all_places (phone_with 0)) with [Some (0, 12); @None (nat * nat)]. rewrite EQ in *. cbn [Nat.mul Nat.eqb].
      destruct k as [|[|[|]]]; cbn [nth in_bytes moved map option_map fst snd]; try reflexivity. rewrite !Lo by lia. do 2 f_equal. lia.
    + change (all_places (phone_with 1)) with [Some (0, 15); Some (0, 3)]. rewrite EQ in *. cbn [Nat.mul Nat.add Nat.eqb].
      destruct k as [|[|[|]]]; cbn [nth in_bytes moved map option_map fst snd List.length]; try reflexivity; rewrite !Lo by lia; do 2 f_equal; lia.
  - split; [|intros _; now rewrite E1, E2]. intros P HP. exfalso. refine (Ho [length P / 3; 3; 3; 4] _ [] T _ (Fit P HP)). apply phone_counts. exists (length P / 3). split; [|auto]. destruct HP as (? & ? & ? & _ & [->| ->] & _); cbn; lia.
Qed.

Definition H : atom := MatchingList [Class HexDigit].
Definition pair_of (n : nat) : part := PQuant (XAtom H) {| q_type := QMultiple (N.of_nat n); q_alt := false |}.
Definition colour_branch : branch :=
  [PQuant (XAtom (NormalChar 35)) {| q_type := QQuestion; q_alt := false |}; PSingle (XSub [[pair_of 2]]); PSingle (XSub [[pair_of 2]]); PSingle (XSub [[pair_of 2]]);
   PQuant (XSub [[pair_of 2]]) {| q_type := QQuestion; q_alt := false |}].
Definition colour_with (n m : nat) : branch :=
  [PQuant (XAtom (NormalChar 35)) {| q_type := QMultiple (N.of_nat n); q_alt := false |}; PSingle (XSub [[pair_of 2]]); PSingle (XSub [[pair_of 2]]); PSingle (XSub [[pair_of 2]]);
   PQuant (XSub [[pair_of 2]]) {| q_type := QMultiple (N.of_nat m); q_alt := false |}].
Lemma colour_parse : parse_str colour = ROk (template true true colour_branch).
Proof. vm_compute. reflexivity. Qed.
Lemma H_has c : atom_has H c <-> hex_digit c.
Proof.
  unfold H, hex_digit. cbn. split.
  - intros (t & [<-|[]] & X). cbn in X. unfold sp_xdigit, sp_digit, SpecAtom.between in X. cbn in X. lia.
  - intros X. exists (Class HexDigit). split; [now left|]. cbn. unfold sp_xdigit, sp_digit, SpecAtom.between. cbn. lia.
Qed.
Lemma Hs n x : Forall2 atom_has (repeat H n) x <-> some_of hex_digit n x.
Proof. rewrite Forall2_repeat. unfold some_of. split; intros [H1 H2]; (split; [assumption|]); eapply Forall_impl; try eassumption; intros c; apply H_has. Qed.
Lemma colour_counts ks b' : counted_as colour_branch ks b' <-> exists n m, n <= 1 /\ m <= 1 /\ ks = [n; m] /\ b' = colour_with n m.
Proof.
  split.
  - intros X. unfold colour_branch in X. repeat match goal with X : counted_as (_ :: _) _ _ |- _ => inversion X; clear X; subst end. match goal with X : counted_as [] _ _ |- _ => inversion X; subst end.
    cbn in *. exists n, n0. repeat (split; [assumption|]). split; reflexivity.
  - intros (n & m & Hn & Hm & -> & ->). unfold colour_branch, colour_with. apply ca_quant; [cbn; lia|]. repeat apply ca_single. apply ca_quant; [cbn; lia|]. apply ca_nil.
Qed.
Lemma Forall2_rep1 c P : Forall2 atom_has [NormalChar c] P <-> P = [c].
Proof. split; [|intros ->; repeat constructor]. intros X. inversion X as [|? d ? ? E N1]; subst. inversion N1; subst. cbn in E. now subst. Qed.
Lemma colour_shape n m T : n <= 1 -> m <= 1 -> (shaped (colour_with n m) T <-> exists P A, colour_code P A T /\ length P = n /\ length A = 2 * m).
Proof.
  intros Hn Hm. unfold shaped, colour_code.
  assert (S : shapes_branch (colour_with n m) = [repeat (NormalChar 35) n ++ repeat H 2 ++ repeat H 2 ++ repeat H 2 ++ repeat H (2 * m)]) by (destruct n as [|[|]], m as [|[|]]; try lia; reflexivity).
  rewrite S. clear S. split.
  - intros (sh & [<-|[]] & X). apply Forall2_app_inv_l in X as (P & y & HP & X & ->). apply Forall2_app_inv_l in X as (x1 & y1 & H1 & X & ->). apply Forall2_app_inv_l in X as (x2 & y2 & H2 & X & ->). apply Forall2_app_inv_l in X as (x3 & A & H3 & HA & ->).
    apply Hs in H1, H2, H3, HA. exists P, A. assert (LP : length P = n /\ (P = [] \/ P = s2l "#")).
    { destruct n as [|[|]]; [| |lia]; cbn in HP; [inversion HP; subst; auto|]. apply Forall2_rep1 in HP as ->. auto. }
    destruct LP as [LP HP']. split; [|split; [assumption|apply HA]]. exists x1, x2, x3. repeat (split; [auto; fail|]). destruct m as [|[|]]; [left|right; exact HA|lia]. destruct HA as [HA _]. now destruct A.
  - intros (P & A & (x1 & x2 & x3 & -> & HP & H1 & H2 & H3 & HA) & LP & LA). eexists. split; [now left|]. apply Forall2_app; [|apply Forall2_app; [now apply Hs|apply Forall2_app; [now apply Hs|apply Forall2_app; [now apply Hs|]]]].
    + destruct HP as [->| ->]; cbn in LP; subst n; repeat constructor.
    + apply Hs. split; [assumption|]. destruct HA as [->|[_ HA]]; auto.
Qed.
Lemma hex_low n x : some_of hex_digit n x -> Forall (fun c => (c < 128)%N) x.
Proof. intros [_ X]. eapply Forall_impl; [|exact X]. unfold hex_digit. intros c Hc. lia. Qed.
Lemma colour_low P A T : colour_code P A T -> Forall (fun c => (c < 128)%N) T.
Proof.
  intros (x1 & x2 & x3 & -> & HP & H1 & H2 & H3 & HA). apply hex_low in H1, H2, H3. assert (HA' : Forall (fun c => (c < 128)%N) A) by (destruct HA as [->|HA]; [constructor|now apply hex_low in HA]).
  repeat (apply Forall_app; split); auto. destruct HP as [->| ->]; repeat constructor.
Qed.
Lemma colour_length P A T : colour_code P A T -> length T = length P + 6 + length A.
Proof. intros (x1 & x2 & x3 & -> & HP & [H1 _] & [H2 _] & [H3 _] & _). rewrite !app_length. lia. Qed.
Lemma colour_ends P A T : colour_code P A T -> length P <= 1 /\ (length A = 0 \/ length A = 2) /\ P = firstn (length P) T /\ A = skipn (length P + 6) T.
Proof.
  intros X. assert (L := colour_length _ _ _ X). destruct X as (x1 & x2 & x3 & -> & HP & [H1 _] & [H2 _] & [H3 _] & HA). split; [destruct HP as [->| ->]; cbn; lia|]. split; [destruct HA as [->|[HA _]]; auto|]. split.
  - rewrite firstn_app, Nat.sub_diag, firstn_all. cbn. now rewrite app_nil_r.
  - rewrite skipn_app, skipn_all2 by lia. replace (length P + 6 - length P) with 6 by lia. cbn [app]. destruct x1 as [|? [|? [|]]], x2 as [|? [|? [|]]], x3 as [|? [|? [|]]]; try discriminate; reflexivity.
Qed.
Lemma colour_once P A Q B T : colour_code P A T -> colour_code Q B T -> P = Q /\ A = B.
Proof.
  intros HP HQ. assert (E := colour_length _ _ _ HP). assert (E' := colour_length _ _ _ HQ). destruct (colour_ends _ _ _ HP) as (X1 & X2 & X3 & X4), (colour_ends _ _ _ HQ) as (Y1 & Y2 & Y3 & Y4).
  assert (EL : length P = length Q) by lia. rewrite EL in *. split; congruence.
Qed.
Lemma colour_scalar : Forall scalar colour.
Proof. repeat constructor. Qed.
Lemma colour_groups en : compiled colour en -> engine_groups en = 5.
Proof. intros X. apply (compiled_groups colour en 5 X). vm_compute. repeat split. Qed.
Lemma colour_answer en T : compiled colour en -> Forall scalar T ->
  (forall P A, colour_code P A T -> engine_test en T = Ok true /\
     engine_exec en T = Ok (Some (let p := length P in [Some (0, length T); Some (p, p + 2); Some (p + 2, p + 4); Some (p + 4, p + 6); if Nat.eqb (length A) 0 then None else Some (p + 6, p + 8)]))) /\
  ((forall P A, ~ colour_code P A T) -> engine_test en T = Ok false /\ engine_exec en T = Ok None).
Proof.
  intros HC HT. assert (Hg : G_ere (template true true colour_branch) colour) by (apply parse_iff; exact colour_parse).
  destruct (loose_finds true true colour_branch colour en T HC colour_scalar Hg eq_refl HT) as (o & E1 & E2 & Ho).
  destruct o as [cs|].
  - destruct Ho as (ks & b' & U & R & C & HU & _ & _ & Hn & Hr). apply colour_counts in C as (n & m & Hn1 & Hm1 & -> & ->). destruct HU as ((V & ET & HU & HV) & Hsh). rewrite (HU eq_refl) in *. rewrite (HV eq_refl) in *. cbn in ET. rewrite app_nil_r in ET. subst R.
    apply colour_shape in Hsh as (Q & B & HQ & EQ & EB); [|assumption|assumption]. split; [|intros Hno; now apply Hno in HQ]. intros P A HP. destruct (colour_once _ _ _ _ _ HP HQ) as [-> ->]. rewrite E1, E2. split; [reflexivity|]. do 2 f_equal.
    rewrite (colour_groups en HC) in Hn. apply nth_same; [exact Hn|]. intros k. rewrite Hr. assert (Lo := ascii_pos T (colour_low _ _ _ HQ)). assert (Le := colour_length _ _ _ HQ). cbv zeta. rewrite EQ, EB in *. clear Hr Hn HC E1 E2.
    destruct n as [|[|]]; [| |lia]; (destruct m as [|[|]]; [| |lia]).
    + change (all_places (colour_with 0 0)) with [Some (0, 6); Some (0, 2); Some (2, 4); Some (4, 6); @None (nat * nat)]. cbn [Nat.mul Nat.add Nat.eqb] in *.
      do 5 (destruct k as [|k]; [cbn [nth in_bytes moved map option_map fst snd List.length]; try reflexivity; rewrite !Lo by lia; do 2 f_equal; lia|]). now destruct k.
    + change (all_places (colour_with 0 1)) with [Some (0, 8); Some (0, 2); Some (2, 4); Some (4, 6); Some (6, 8)]. cbn [Nat.mul Nat.add Nat.eqb] in *.
      do 5 (destruct k as [|k]; [cbn [nth in_bytes moved map option_map fst snd List.length]; try reflexivity; rewrite !Lo by lia; do 2 f_equal; lia|]). now destruct k.
    + change (all_places (colour_with 1 0)) with [Some (0, 7); Some (1, 3); Some (3, 5); Some (5, 7); @None (nat * nat)]. cbn [Nat.mul Nat.add Nat.eqb] in *.
      do 5 (destruct k as [|k]; [cbn [nth in_bytes moved map option_map fst snd List.length]; try reflexivity; rewrite !Lo by lia; do 2 f_equal; lia|]). now destruct k.
    + change (all_places (colour_with 1 1)) with [Some (0, 9); Some (1, 3); Some (3, 5); Some (5, 7); Some (7, 9)]. cbn [Nat.mul Nat.add Nat.eqb] in *.
      do 5 (destruct k as [|k]; [cbn [nth in_bytes moved map option_map fst snd List.length]; try reflexivity; rewrite !Lo by lia; do 2 f_equal; lia|]). now destruct k.
  - split; [|intros _; now rewrite E1, E2]. intros P A HP. exfalso. destruct (colour_ends _ _ _ HP) as (X1 & X2 & _). refine (Ho [length P; length A / 2] (colour_with (length P) (length A / 2)) [] T _ _).
    + apply colour_counts. exists (length P), (length A / 2). split; [assumption|]. split; [destruct X2 as [-> | ->]; cbn; lia|auto].
    + split; [exists []; cbn; rewrite app_nil_r; auto|]. apply colour_shape; [assumption|destruct X2 as [-> | ->]; cbn; lia|]. exists P, A. split; [assumption|]. split; [reflexivity|]. destruct X2 as [-> | ->]; reflexivity.
Qed.
