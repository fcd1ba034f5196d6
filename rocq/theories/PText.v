(** The text of a drawing determines the graph that is drawn. *)
From Coq Require Import String.
From Verif Require Export PListing.
From Coq Require Import ZifyBool ZifyNat ZifyN.
Open Scope nat_scope.
Open Scope list_scope.
Local Arguments show_nat : simpl never.
Local Arguments show_N : simpl never.
Local Notation length := List.length.

(** ** Lines *)
(** How commands begin, after a backslash: [\node], [\path], [\end]. *)
Definition opener (c : N) : Prop := c = 110%N \/ c = 112%N \/ c = 101%N.
(** No command begins at the beginning of a line within the text. *)
Definition calm (x : list N) : Prop := forall a c b, x = a ++ 10%N :: 92%N :: c :: b -> ~ opener c.
Lemma calm_line x : ~ In 10%N x -> calm x.
Proof. intros H a c b ->. exfalso. apply H. apply in_or_app. right. now left. Qed.
Lemma app_cases {A} (x : list A) : forall y r s, x ++ r = y ++ s -> (exists z, y = x ++ z /\ r = z ++ s) \/ (exists z, x = y ++ z /\ s = z ++ r).
Proof.
  induction x as [|h x IH]; intros y r s E; cbn [app] in E; [left; exists y; auto|]. destruct y as [|h' y]; cbn [app] in E; [right; exists (h :: x); auto|].
  injection E as -> E. destruct (IH y r s E) as [(z & -> & ->)|(z & -> & ->)]; [left|right]; exists z; auto.
Qed.
Lemma calm_mid p l d q : ~ In 10%N p -> calm l -> ~ In 10%N (d :: q) -> d <> 92%N -> ~ opener d -> calm (p ++ l ++ d :: q).
Proof.
  intros Hp Hl Hq Hd Ho a c b E. assert (G : exists a', l ++ d :: q = a' ++ 10%N :: 92%N :: c :: b).
  { apply app_cases in E as [(z & -> & E)|(z & -> & E)]; [eauto|]. destruct z as [|h z]; [exists []; auto|]. injection E as <- E. exfalso. apply Hp. apply in_or_app. right. now left. }
  destruct G as (a' & G). apply app_cases in G as [(z & -> & G)|(z & -> & G)].
  - exfalso. apply Hq. rewrite G. apply in_or_app. right. now left.
  - destruct z as [|h1 [|h2 [|h3 z]]]; cbn [app] in G.
    + injection G as <- _. exfalso. apply Hq. now left.
    + injection G as _ <- _. congruence.
    + injection G as _ _ -> _. exact Ho.
    + injection G as <- <- <- G. exact (Hl a' c z eq_refl).
Qed.
Lemma line_split x x' c c' r r' : calm x -> calm x' -> opener c -> opener c' ->
  x ++ 59%N :: 10%N :: 92%N :: c :: r = x' ++ 59%N :: 10%N :: 92%N :: c' :: r' -> x = x' /\ c = c' /\ r = r'.
Proof.
  assert (W : forall z c c' r r' x, opener c -> calm (x ++ z) -> 59%N :: 10%N :: 92%N :: c :: r = z ++ 59%N :: 10%N :: 92%N :: c' :: r' -> z = [] /\ c = c' /\ r = r').
  { intros z c0 c1 r0 r1 y Ho Hc E. destruct z as [|h1 [|h2 [|h3 [|h4 z]]]]; cbn [app] in E.
    - injection E as <- <-. auto.
    - discriminate E.
    - discriminate E.
    - injection E as _ _ _ -> _. destruct Ho as [Ho|[Ho|Ho]]; discriminate Ho.
    - injection E as <- <- <- <- E. exfalso. apply (Hc (y ++ [59%N]) c0 z); [now rewrite <- app_assoc|exact Ho]. }
  intros Hx Hx' Ho Ho' E. apply app_cases in E as [(z & -> & E)|(z & -> & E)].
  - apply (W z c c' r r' x Ho Hx') in E as (-> & -> & ->). now rewrite app_nil_r.
  - apply (W z c' c r' r x' Ho' Hx) in E as (-> & -> & ->). now rewrite app_nil_r.
Qed.
Definition command (m : N) (t : list N) : Prop := exists y, t = (92%N :: m :: y) ++ [59%N; 10%N] /\ calm (92%N :: m :: y).
Definition starts (P : N -> Prop) (r : list N) : Prop := exists c r', r = 92%N :: c :: r' /\ P c.
Lemma commands_split m A : forall A' R R', opener m -> Forall (command m) A -> Forall (command m) A' -> starts (fun c => opener c /\ c <> m) R -> starts (fun c => opener c /\ c <> m) R' ->
  concat A ++ R = concat A' ++ R' -> A = A' /\ R = R'.
Proof.
  assert (S : forall A R, opener m -> Forall (command m) A -> starts (fun c => opener c /\ c <> m) R -> starts opener (concat A ++ R)).
  { intros B R Ho [|t B' (y & -> & _) _] (c & r & -> & H & _); [exists c, r; auto|]. exists m. eexists. split; [cbn [concat app]; reflexivity|exact Ho]. }
  induction A as [|t A IH]; intros A' R R' Ho HA HA' HR HR' E.
  - destruct A' as [|t' A']; [auto|]. exfalso. inversion HA' as [|? ? (y & -> & _) _]; subst. destruct HR as (c & r & -> & _ & H). cbn [concat app] in E. injection E as E _. congruence.
  - inversion HA as [|? ? (y & -> & Hy) HA1]; subst. destruct A' as [|t' A'].
    + exfalso. destruct HR' as (c & r & -> & _ & H). cbn [concat app] in E. injection E as E _. congruence.
    + inversion HA' as [|? ? (y' & -> & Hy') HA1']; subst. cbn [concat] in E. rewrite <- !app_assoc in E. cbn [app] in E.
      destruct (S A R Ho HA1 HR) as (c & r & E1 & H1). destruct (S A' R' Ho HA1' HR') as (c' & r' & E1' & H1'). rewrite E1, E1' in E. cbn [app] in E. rewrite <- !app_assoc in E. cbn [app] in E.
      destruct (line_split (92%N :: m :: y) (92%N :: m :: y') c c' r r' Hy Hy' H1 H1' E) as (E2 & -> & ->). injection E2 as ->.
      destruct (IH A' R R' Ho HA1 HA1' HR HR') as [-> ->]; [now rewrite E1, E1'|auto].
Qed.

(** ** Numbers *)
Definition numeric (c : N) : Prop := is_digit c \/ c = ch "-".
Lemma numeric_split a : forall b c c' s s', Forall numeric a -> Forall numeric b -> ~ numeric c -> ~ numeric c' -> a ++ c :: s = b ++ c' :: s' -> a = b /\ c = c' /\ s = s'.
Proof.
  induction a as [|x a IH]; intros b c c' s s' Ha Hb Hc Hc' E.
  - destruct b as [|y b]; cbn [app] in E; injection E as E1 E2; [now split|]. subst. inversion Hb; subst. contradiction.
  - destruct b as [|y b]; cbn [app] in E; injection E as E1 E2; [subst; inversion Ha; subst; contradiction|]. inversion Ha; inversion Hb; subst. destruct (IH b c c' s s') as (-> & -> & ->); auto.
Qed.
Lemma decimal_numeric n s : decimal n s -> Forall numeric s.
Proof. intros (_ & H & _). eapply Forall_impl; [|exact H]. now left. Qed.
Lemma signed_numeric z s : signed z s -> Forall numeric s.
Proof. intros [[_ H]|[_ (t & -> & H)]]; [eapply decimal_numeric; eauto|]. constructor; [now right|eapply decimal_numeric; eauto]. Qed.
Lemma decimal_fun n n' s : decimal n s -> decimal n' s -> n = n'.
Proof. intros (_ & _ & <-) (_ & _ & <-). reflexivity. Qed.
Lemma numeric_no c s : ~ numeric c -> Forall numeric s -> ~ In c s.
Proof. intros Hc Hs Hi. rewrite Forall_forall in Hs. auto. Qed.
Lemma unlike c : (c < 45 \/ 45 < c < 48 \/ 57 < c)%N -> ~ numeric c.
Proof. intros H [[H1 H2]|H1]; change (ch "0") with 48%N in *; change (ch "9") with 57%N in *; change (ch "-") with 45%N in *; lia. Qed.

(** ** Commands *)
Lemma style_split s s' r r' : (exists q, r = s2l "](q" ++ q \/ r = s2l ", right of" ++ q) -> (exists q, r' = s2l "](q" ++ q \/ r' = s2l ", right of" ++ q) ->
  style s ++ r = style s' ++ r' -> g_initial s = g_initial s' /\ g_accept s = g_accept s' /\ r = r'.
Proof.
  intros (q & Hr) (q' & Hr') E. unfold style in E. destruct (g_initial s), (g_accept s), (g_initial s'), (g_accept s'); destruct Hr as [->| ->], Hr' as [->| ->]; cbn in E; try discriminate E; auto;
    repeat match type of E with _ :: _ = _ :: _ => injection E as E end; try discriminate E; try (subst; auto).
Qed.

Lemma node_read p p' i s s' t : node_cmd p i s t -> node_cmd p' i s' t -> g_label s = g_label s' /\ g_initial s = g_initial s' /\ g_accept s = g_accept s'.
Proof.
  assert (F : forall s p i t, node_cmd p i s t -> exists r label, t = s2l "\node[" ++ style s ++ r /\ prints label (g_label s) /\
    ((exists num nx ny, Forall numeric num /\ Forall numeric nx /\ Forall numeric ny /\ r = s2l "](q" ++ num ++ s2l ") at (" ++ nx ++ s2l ", " ++ ny ++ s2l ") {" ++ label ++ s2l "};" ++ newline) \/
     (exists num, Forall numeric num /\ r = s2l "](q" ++ num ++ s2l "){" ++ label ++ s2l "};" ++ newline) \/
     (exists prev num, Forall numeric prev /\ Forall numeric num /\ r = s2l ", right of=q" ++ prev ++ s2l "](q" ++ num ++ s2l "){" ++ label ++ s2l "};" ++ newline))).
  { clear. intros s p i t H. destruct H as [x y i s num nx ny label H1 H2 H3 H4|s num label H1 H2|i s prev num label H1 H2 H3]; eexists _, label; (split; [reflexivity|split; [assumption|]]).
    - left. exists num, nx, ny. split; [eapply decimal_numeric; eauto|]. split; [eapply decimal_numeric; eauto|]. split; [eapply signed_numeric; eauto|reflexivity].
    - right. left. exists num. split; [eapply decimal_numeric; eauto|reflexivity].
    - right. right. exists prev, num. split; [eapply decimal_numeric; eauto|]. split; [eapply decimal_numeric; eauto|reflexivity]. }
  intros H H'. destruct (F _ _ _ _ H) as (r & label & E & Hl & C). destruct (F _ _ _ _ H') as (r' & label' & E' & Hl' & C'). clear F H H'. rewrite E in E'. apply app_inv_head in E'.
  apply style_split in E' as (E1 & E2 & E3).
  2:{ destruct C as [(num & nx & ny & _ & _ & _ & ->)|[(num & _ & ->)|(prev & num & _ & _ & ->)]]; eexists; [left|left|right]; reflexivity. }
  2:{ destruct C' as [(num & nx & ny & _ & _ & _ & ->)|[(num & _ & ->)|(prev & num & _ & _ & ->)]]; eexists; [left|left|right]; reflexivity. }
  split; [|auto]. enough (Q : label = label') by (subst label'; exact (prints_fun _ _ Hl _ Hl')).
  assert (N1 : ~ numeric 41%N) by (apply unlike; lia). assert (N2 : ~ numeric 44%N) by (apply unlike; lia). assert (N3 : ~ numeric 93%N) by (apply unlike; lia).
  assert (W : forall a a', (s2l "){" ++ a ++ s2l "};" ++ newline = s2l "){" ++ a' ++ s2l "};" ++ newline) -> a = a') by (intros a a' K; apply app_inv_head in K; now apply app_inv_tail in K).
  destruct C as [(num & nx & ny & K1 & K2 & K3 & ->)|[(num & K1 & ->)|(prev & num & K1 & K2 & ->)]], C' as [(num' & nx' & ny' & K1' & K2' & K3' & E4)|[(num' & K1' & E4)|(prev' & num' & K1' & K2' & E4)]].
  - subst r'. apply app_inv_head in E4. apply numeric_split in E4 as (-> & _ & E4); [|assumption..]. cbn in E4. injection E4 as E4. apply numeric_split in E4 as (-> & _ & E4); [|assumption..]. cbn in E4. injection E4 as E4.
    apply numeric_split in E4 as (-> & _ & E4); [|assumption..]. cbn in E4. injection E4 as E4. now apply app_inv_tail in E4.
  - subst r'. apply app_inv_head in E4. apply numeric_split in E4 as (-> & _ & E4); [|assumption..]. discriminate E4.
  - subst r'. discriminate E4.
  - subst r'. apply app_inv_head in E4. apply numeric_split in E4 as (-> & _ & E4); [|assumption..]. discriminate E4.
  - subst r'. apply app_inv_head in E4. apply numeric_split in E4 as (-> & _ & E4); [|assumption..]. cbn in E4. injection E4 as E4. now apply app_inv_tail in E4.
  - subst r'. discriminate E4.
  - subst r'. discriminate E4.
  - subst r'. discriminate E4.
  - subst r'. apply app_inv_head in E4. apply numeric_split in E4 as (-> & _ & E4); [|assumption..]. cbn in E4. injection E4 as E4. apply numeric_split in E4 as (-> & _ & E4); [|assumption..]. cbn in E4. injection E4 as E4. now apply app_inv_tail in E4.
Qed.
Lemma edge_read i i' tr tr' t : edge_cmd i tr t -> edge_cmd i' tr' t -> (i, tr) = (i', tr').
Proof.
  intros [how nf nt Hh Hf Ht _] H'. remember (s2l "\path[->] (q" ++ nf ++ s2l ") edge " ++ how ++ s2l "node {" ++ snd tr ++ s2l "} (q" ++ nt ++ s2l ");" ++ newline) as t0 eqn:E.
  destruct H' as [how' nf' nt' Hh' Hf' Ht' _]. apply app_inv_head in E. assert (N1 : ~ numeric 41%N) by (apply unlike; lia). assert (N2 : ~ numeric 113%N) by (apply unlike; lia).
  apply numeric_split in E as (-> & _ & E); [|eapply decimal_numeric; eauto|eapply decimal_numeric; eauto|assumption..]. assert (E0 := decimal_fun _ _ _ Hf Hf').
  assert (E' : snd tr' ++ s2l "} (q" ++ nt' ++ s2l ");" ++ newline = snd tr ++ s2l "} (q" ++ nt ++ s2l ");" ++ newline).
  { cbn [In] in Hh, Hh'. destruct Hh as [<-|[<-|[<-|[]]]], Hh' as [<-|[<-|[<-|[]]]]; cbn in E; try discriminate E; injection E as E; exact E. }
  rewrite !app_assoc in E'. apply app_inv_tail in E'. apply app_inv_tail in E'. apply (f_equal (@rev N)) in E'. rewrite !rev_app_distr in E'. cbn [rev s2l list_ascii_of_string map app] in E'.
  apply numeric_split in E' as (Q1 & _ & Q2); [|apply Forall_rev; eapply decimal_numeric; eauto|apply Forall_rev; eapply decimal_numeric; eauto|assumption..].
  apply (f_equal (@rev N)) in Q1. rewrite !rev_involutive in Q1. subst nt'. assert (E3 := decimal_fun _ _ _ Ht Ht'). injection Q2 as Q2. apply (f_equal (@rev N)) in Q2. rewrite !rev_involutive in Q2.
  apply Nat2N.inj in E0. apply Nat2N.inj in E3. destruct tr, tr'. cbn [fst snd] in *. congruence.
Qed.

Lemma prints_line l t : prints l t -> ~ In 10%N t -> ~ In 10%N l.
Proof.
  induction 1 as [|c l t Hc H IH|c l t Hc H IH|w c l t Hw H IH]; intros Hn Hi.
  - destruct Hi.
  - destruct Hi as [->|Hi]; [apply Hn; now left|]. apply IH; [|exact Hi]. intros K. apply Hn. now right.
  - destruct Hi as [K|[->|Hi]]; [discriminate K|apply Hn; now left|]. apply IH; [|exact Hi]. intros K. apply Hn. now right.
  - apply IH; [intros K; apply Hn; now right|]. clear - Hw Hi. cbn [In] in Hw. destruct Hw as [E|[E|[E|[]]]]; injection E as <- <-; cbn in Hi; repeat (destruct Hi as [K|Hi]; [discriminate K|]); exact Hi.
Qed.
Lemma prints_slash l t : prints l t -> forall a c b, l = a ++ 92%N :: c :: b -> ~ opener c.
Proof.
  induction 1 as [|x l t Hc H IH|x l t Hc H IH|w x l t Hw H IH]; intros a c b E.
  - destruct a; discriminate E.
  - destruct a as [|y a]; injection E as -> E; [discriminate Hc|]. exact (IH a c b E).
  - destruct a as [|y [|z a]]; cbn [app] in E.
    + injection E as -> _. clear - Hc. intros Ho. cbn in Hc. destruct Ho as [->|[->| ->]]; repeat (destruct Hc as [K|Hc]; [discriminate K|]); destruct Hc.
    + injection E as _ -> _. exfalso. clear - Hc. cbn in Hc. repeat (destruct Hc as [K|Hc]; [discriminate K|]); destruct Hc.
    + injection E as _ _ E. exact (IH a c b E).
  - assert (G : c = 116%N \/ exists a', l = a' ++ 92%N :: c :: b).
    { clear - Hw E. cbn [In] in Hw. destruct Hw as [Q|[Q|[Q|[]]]]; injection Q as <- <-; cbn in E;
        do 2 (destruct a as [|? a]; cbn [app] in E; [try discriminate E; injection E as E _; left; now symmetry|injection E as _ E]);
        repeat (destruct a as [|? a]; cbn [app] in E; [first [discriminate E|right; exists []; exact E]|first [injection E as _ E|fail 1]]); eauto. }
    destruct G as [->|(a' & G)]; [intros [K|[K|K]]; discriminate K|exact (IH a' c b G)].
Qed.
Lemma escape_calm s : calm (escape_latex s).
Proof. intros a c b E. apply (prints_slash _ _ (escape_prints s) (a ++ [10%N]) c b). now rewrite <- app_assoc. Qed.

Lemma number_line s : Forall numeric s -> ~ In 10%N s.
Proof. apply numeric_no. apply unlike. lia. Qed.
Ltac lines := repeat rewrite in_app_iff in *; repeat match goal with H : _ \/ _ |- _ => destruct H as [H|H] end.
Lemma style_line s : ~ In 10%N (style s).
Proof. unfold style. destruct (g_initial s), (g_accept s); cbn; intuition discriminate. Qed.
Lemma const_line (t : string) : forallb (fun c => negb (c =? 10)%N) (s2l t) = true -> ~ In 10%N (s2l t).
Proof. intros H Hi. rewrite forallb_forall in H. apply H in Hi. discriminate Hi. Qed.
Lemma node_command p i s t : node_cmd p i s t -> ~ In 10%N (g_label s) -> command 110 t.
Proof.
  intros H Hl. assert (C : forall t, forallb (fun c => negb (c =? 10)%N) (s2l t) = true -> ~ In 10%N (s2l t)) by exact const_line. assert (B := style_line s).
  destruct H as [x y i s num nx ny label H1 H2 H3 H4|s num label H1 H2|i s prev num label H1 H2 H3].
  - exists (s2l "ode[" ++ style s ++ s2l "](q" ++ num ++ s2l ") at (" ++ nx ++ s2l ", " ++ ny ++ s2l ") {" ++ label ++ s2l "}"). split; [cbn [app s2l list_ascii_of_string map]; repeat (rewrite <- app_assoc; cbn [app]); reflexivity|].
    apply calm_line. apply decimal_numeric in H1, H2. apply signed_numeric in H3. apply number_line in H1, H2, H3. apply prints_line in H4; [|assumption]. intros [K|[K|K]]; [discriminate K..|]. lines; revert K; try assumption; apply C; reflexivity.
  - exists (s2l "ode[" ++ style s ++ s2l "](q" ++ num ++ s2l "){" ++ label ++ s2l "}"). split; [cbn [app s2l list_ascii_of_string map]; repeat (rewrite <- app_assoc; cbn [app]); reflexivity|].
    apply calm_line. apply decimal_numeric in H1. apply number_line in H1. apply prints_line in H2; [|assumption]. intros [K|[K|K]]; [discriminate K..|]. lines; revert K; try assumption; apply C; reflexivity.
  - exists (s2l "ode[" ++ style s ++ s2l ", right of=q" ++ prev ++ s2l "](q" ++ num ++ s2l "){" ++ label ++ s2l "}"). split; [cbn [app s2l list_ascii_of_string map]; repeat (rewrite <- app_assoc; cbn [app]); reflexivity|].
    apply calm_line. apply decimal_numeric in H1, H2. apply number_line in H1, H2. apply prints_line in H3; [|assumption]. intros [K|[K|K]]; [discriminate K..|]. lines; revert K; try assumption; apply C; reflexivity.
Qed.
Lemma edge_command i tr t : edge_cmd i tr t -> calm (snd tr) -> command 112 t.
Proof.
  intros [how nf nt Hh Hf Ht _] Hl. exists ((s2l "ath[->] (q" ++ nf ++ s2l ") edge " ++ how ++ s2l "node {") ++ snd tr ++ 125%N :: s2l " (q" ++ nt ++ s2l ")").
  split; [cbn [app s2l list_ascii_of_string map]; repeat (rewrite <- app_assoc; cbn [app]); reflexivity|].
  assert (C : forall t, forallb (fun c => negb (c =? 10)%N) (s2l t) = true -> ~ In 10%N (s2l t)) by exact const_line. apply decimal_numeric in Hf, Ht. apply number_line in Hf, Ht.
  assert (Hh' : ~ In 10%N how) by (cbn [In] in Hh; destruct Hh as [<-|[<-|[<-|[]]]]; apply C; reflexivity).
  change (92%N :: 112%N :: (s2l "ath[->] (q" ++ nf ++ s2l ") edge " ++ how ++ s2l "node {") ++ snd tr ++ 125%N :: s2l " (q" ++ nt ++ s2l ")")
    with ((92%N :: 112%N :: (s2l "ath[->] (q" ++ nf ++ s2l ") edge " ++ how ++ s2l "node {")) ++ snd tr ++ 125%N :: (s2l " (q" ++ nt ++ s2l ")")).
  apply calm_mid; [|exact Hl| |discriminate|intros [K|[K|K]]; discriminate K].
  - intros [K|[K|K]]; [discriminate K..|]. lines; revert K; try assumption; apply C; reflexivity.
  - intros [K|K]; [discriminate K|]. lines; revert K; try assumption; apply C; reflexivity.
Qed.

(** ** Graphs *)
Definition legible (g : graph) : Prop := forall s, In s g -> ~ In 10%N (g_label s) /\ forall tr, In tr (g_trans s) -> calm (snd tr).
Lemma Forall2_same {A B} (P : A -> B -> Prop) (f : A -> A -> Prop) (l : list A) : forall l' t, (forall a a' b, P a b -> P a' b -> f a a') -> Forall2 P l t -> Forall2 P l' t -> Forall2 f l l'.
Proof.
  induction l as [|a l IH]; intros l' t Hf H H'; inversion H; subst; inversion H'; subst; constructor; eauto.
Qed.
Lemma same_trans g : forall g' k, Forall2 (fun s s' => g_label s = g_label s' /\ g_initial s = g_initial s' /\ g_accept s = g_accept s') g g' ->
  flat_map (fun '(i, s) => map (pair i) (g_trans s)) (combine (seq k (length g)) g) = flat_map (fun '(i, s) => map (pair i) (g_trans s)) (combine (seq k (length g')) g') -> g = g'.
Proof.
  assert (B : forall g k, Forall (fun x => ~ fst x = k) (flat_map (fun '(i, s) => map (pair i) (g_trans s)) (combine (seq (S k) (length g)) g))).
  { intros h k. apply Forall_forall. intros [i tr] Hi. apply in_flat_map in Hi as ([i' s] & Hc & Hi). apply in_combine_l in Hc. apply in_seq in Hc. apply in_map_iff in Hi as (? & E & _). injection E as <- _. cbn. lia. }
  induction g as [|s g IH]; intros g' k H E; inversion H as [|? s' ? g1 (E1 & E2 & E3) H1]; subst; [reflexivity|]. cbn [List.length seq combine flat_map] in E.
  apply (split_lists (fun x => fst x = k)) in E as [E4 E5]; [|apply Forall_map, Forall_forall; reflexivity|apply Forall_map, Forall_forall; reflexivity|apply B|apply B].
  f_equal; [|exact (IH g1 (S k) H1 E5)]. assert (E6 : g_trans s = g_trans s'). { revert E4. apply map_inj with (P := fun _ => True); [intros x y _ _ E; now injection E|now apply Forall_forall|now apply Forall_forall]. }
  destruct s, s'. cbn in *. congruence.
Qed.
Lemma Forall2_from {A B} (P : A -> B -> Prop) l t b : Forall2 P l t -> In b t -> exists a, In a l /\ P a b.
Proof. induction 1 as [|x y l t H _ IH]; intros Hi; [destruct Hi|]. destruct Hi as [<-|Hi]; [exists x; split; [now left|assumption]|]. destruct (IH Hi) as (a & Ha & HP). exists a. split; [now right|assumption]. Qed.
Lemma same_nodes pos pos' g : forall g' ts k, Forall2 (fun '(i, s) t => exists p, nth_error pos i = Some p /\ node_cmd p i s t) (combine (seq k (length g)) g) ts ->
  Forall2 (fun '(i, s) t => exists p, nth_error pos' i = Some p /\ node_cmd p i s t) (combine (seq k (length g')) g') ts ->
  Forall2 (fun s s' => g_label s = g_label s' /\ g_initial s = g_initial s' /\ g_accept s = g_accept s') g g'.
Proof.
  induction g as [|s g IH]; intros g' ts k H H'; cbn [List.length seq combine] in H; inversion H as [|? t ? ts' Hp H1]; subst.
  - destruct g'; [constructor|inversion H'].
  - destruct g' as [|s' g']; cbn [List.length seq combine] in H'; inversion H' as [|? ? ? ? Hp' H1']; subst. cbv beta iota in Hp, Hp'. destruct Hp as (p & _ & Hp), Hp' as (p' & _ & Hp').
    constructor; [exact (node_read p p' k s s' t Hp Hp')|exact (IH g' ts' (S k) H1 H1')].
Qed.
Lemma ok_inj {A} (a b : A) : Ok a = Ok b -> a = b.
Proof. intros E. now injection E. Qed.
Lemma tikz_inj g g' doc doc' t : graph_ok g -> graph_ok g' -> legible g -> legible g' -> graph_tikz g doc = Ok t -> graph_tikz g' doc' = Ok t -> g = g' /\ doc = doc'.
Proof.
  intros Hg Hg' Hl Hl' E E'. destruct (graph_tikz_spec g doc Hg) as (pos & nodes & edges & Et & _ & Hn & He). destruct (graph_tikz_spec g' doc' Hg') as (pos' & nodes' & edges' & Et' & _ & Hn' & He').
  rewrite E in Et. rewrite E' in Et'. rewrite Et in Et'. apply ok_inj in Et'. clear E E' Et t. rename Et' into E.
  assert (Ed : doc = doc') by (destruct doc, doc'; try reflexivity; discriminate E). subst doc'. split; [|reflexivity]. apply app_inv_head in E. do 2 apply app_inv_head in E.
  assert (K : Forall (command 110) nodes /\ Forall (command 110) nodes' /\ Forall (command 112) edges /\ Forall (command 112) edges').
  { assert (K1 : forall h P ns, legible h -> Forall2 (fun '(i, s) t => exists p, nth_error P i = Some p /\ node_cmd p i s t) (enumerate h) ns -> Forall (command 110) ns).
    { intros h P ns Hh H. apply Forall_forall. intros t Ht. destruct (Forall2_from _ _ _ _ H Ht) as ([i s] & Hc & R). cbv beta iota in R. destruct R as (p & _ & R). apply (node_command p i s t R). apply Hh. eapply in_combine_r. exact Hc. }
    assert (K2 : forall h ns, legible h -> Forall2 (fun '(i, tr) t => edge_cmd i tr t) (all_trans h) ns -> Forall (command 112) ns).
    { intros h ns Hh H. apply Forall_forall. intros t Ht. destruct (Forall2_from _ _ _ _ H Ht) as ([i tr] & Ek & R). cbv beta iota in R. apply (edge_command i tr t R). unfold all_trans in Ek. apply in_flat_map in Ek as ([i' s] & Hc & Hi). apply in_combine_r in Hc.
      apply in_map_iff in Hi as (tr' & E1 & Hi). injection E1 as _ ->. now apply (Hh s Hc). }
    split; [exact (K1 g pos nodes Hl Hn)|]. split; [exact (K1 g' pos' nodes' Hl' Hn')|]. split; [exact (K2 g edges Hl He)|exact (K2 g' edges' Hl' He')]. }
  destruct K as (K1 & K2 & K3 & K4). assert (O1 : opener 110) by (now left). assert (O2 : opener 112) by (right; now left). assert (O3 : opener 101) by (right; now right).
  set (rest := s2l "\end{tikzpicture}" ++ newline ++ (if doc then s2l "\end{document}" ++ newline else [])) in E.
  assert (S : forall es, Forall (command 112) es -> starts (fun c => opener c /\ c <> 110%N) (concat es ++ rest)).
  { intros es [|t es' (y & -> & _) _]; [exists 101%N; eexists; split; [reflexivity|split; [exact O3|discriminate]]|]. exists 112%N. eexists. split; [cbn [concat app]; reflexivity|split; [exact O2|discriminate]]. }
  apply (commands_split 110) in E as [-> E]; auto. apply (commands_split 112) in E as [-> _]; auto.
  2,3: exists 101%N; eexists; split; [reflexivity|split; [exact O3|discriminate]].
  apply (same_trans g g' 0).
  - exact (same_nodes pos pos' g g' nodes' 0 Hn Hn').
  - change (all_trans g = all_trans g'). assert (Q : Forall2 eq (all_trans g) (all_trans g')).
    { eapply Forall2_same; [|exact He|exact He']. intros [i tr] [i' tr'] b. apply edge_read. }
    clear - Q. induction Q; congruence.
Qed.

(** ** Automata *)
Lemma show_nat_line k : ~ In 10%N (show_nat k).
Proof. apply number_line. eapply decimal_numeric. apply show_nat_decimal. Qed.
Lemma eps_line k e : ~ In 10%N (eps_label k e).
Proof.
  assert (C : forall t, forallb (fun c => negb (c =? 10)%N) (s2l t) = true -> ~ In 10%N (s2l t)) by exact const_line.
  intros K. destruct e; cbn [eps_label] in K; lines; revert K; try apply show_nat_line; apply C; reflexivity.
Qed.
Lemma nfa_legible {A} (show : A -> list N) n : legible (nfa_graph show n).
Proof.
  intros s Hs. apply in_map_iff in Hs as ([i st] & <- & _). cbn [g_label g_trans]. split.
  - intros K. apply in_app_or in K as [K|K]; [|now apply show_nat_line in K]. cbn in K. intuition discriminate.
  - intros tr Ht. apply in_app_or in Ht as [Ht|Ht].
    + apply in_map_iff in Ht as (t & <- & _). apply escape_calm.
    + apply in_map_iff in Ht as ([k e] & <- & _). apply calm_line, eps_line.
Qed.
Lemma join_line ls : (forall l, In l ls -> ~ In 10%N l) -> ~ In 10%N (join_comma ls).
Proof.
  induction ls as [|l ls IH]; intros H K; [destruct K|]. destruct ls as [|l' ls]; cbn [join_comma] in K; [exact (H l (or_introl eq_refl) K)|]. apply in_app_or in K as [K|[K|K]]; [exact (H l (or_introl eq_refl) K)|discriminate K|].
  apply IH; [|exact K]. intros x Hx. apply H. now right.
Qed.
Lemma accept_legible : ~ In 10%N (g_label accept_gstate).
Proof. cbn. intuition discriminate. Qed.
Lemma dfa_legible d : legible (dfa_graph d).
Proof.
  intros s Hs. apply in_app_or in Hs as [Hs|[<-|[]]]; [|split; [exact accept_legible|intros tr []]]. apply in_map_iff in Hs as ([i st] & <- & _). cbn [g_label g_trans]. split; [apply show_nat_line|].
  intros tr Ht. apply in_app_or in Ht as [Ht|Ht].
  - apply in_map_iff in Ht as (t & <- & _). apply escape_calm.
  - apply calm_line. intros K. destruct (ds_acc st); try (destruct Ht as [<-|[]]; cbn in K; intuition discriminate); destruct Ht.
Qed.
Lemma tdfa_legible d : legible (tdfa_graph d).
Proof.
  intros s Hs. apply in_app_or in Hs as [Hs|[<-|[]]]; [|split; [exact accept_legible|intros tr []]]. apply in_map_iff in Hs as ([i st] & <- & _). cbn [g_label g_trans]. split.
  - apply join_line. intros l Hl. apply in_map_iff in Hl as (k & <- & _). apply show_nat_line.
  - intros tr Ht. apply in_app_or in Ht as [Ht|Ht].
    + apply in_map_iff in Ht as (t & <- & _). apply escape_calm.
    + apply calm_line. intros K. destruct (ts_acc st); try (destruct Ht as [<-|[]]; cbn in K; intuition discriminate); destruct Ht.
Qed.
(** Automata of characters: what is shown of an atom determines it. *)
Definition atomic (a : atom) : Prop := a = NonmatchingList [] \/ exists u, G_atom a u.
Lemma show_atom_inj a a' : atomic a -> atomic a' -> show_atom a = show_atom a' -> a = a'.
Proof.
  intros Ha Ha' E. destruct Ha as [->|(u & Hu)], Ha' as [->|(u' & Hu')]; [reflexivity| | |].
  - apply show_atom_ok in Hu'. rewrite <- E in Hu'. now apply any_no_atom in Hu'.
  - apply show_atom_ok in Hu. rewrite E in Hu. now apply any_no_atom in Hu.
  - apply show_atom_ok in Hu, Hu'. rewrite <- E in Hu'. assert (Q := atom_complete _ _ [] Hu). rewrite (atom_complete _ _ _ Hu') in Q. now injection Q.
Qed.
Definition atomic_nfa (n : nfa atom) : Prop := Forall (fun s => Forall (fun t => atomic (snd t)) (trans s)) n.
Lemma char_graph_inj n m : atomic_nfa n -> atomic_nfa m -> nfa_graph show_atom n = nfa_graph show_atom m -> n = m.
Proof.
  unfold nfa_graph. intros Hn Hm E. assert (El : length n = length m).
  { apply (f_equal (@List.length _)) in E. now rewrite !map_length, !enumerate_length in E. }
  rewrite El in E. revert E. apply enumerate_inj with (P := fun s => Forall (fun t => atomic (snd t)) (trans s)); [|exact Hn|exact Hm].
  intros i x y Hx Hy E. injection E as E.
  apply (split_lists (fun p => exists t, prints (snd p) t)) in E; cycle 1.
  { apply Forall_map, Forall_forall. intros t _. cbn. eexists. apply escape_prints. }
  { apply Forall_map, Forall_forall. intros t _. cbn. eexists. apply escape_prints. }
  { apply Forall_map, Forall_forall. intros [k e] _ [t Ht]. exact (eps_label_not _ _ _ Ht). }
  { apply Forall_map, Forall_forall. intros [k e] _ [t Ht]. exact (eps_label_not _ _ _ Ht). }
  destruct E as [E1 E2]. destruct x as [tx ex], y as [ty ey]. cbn [trans eps] in *. f_equal.
  - revert E1. apply map_inj with (P := fun t => atomic (snd t)); [|exact Hx|exact Hy]. intros [a r] [b r'] Hr Hr' E. injection E as -> E. cbn [snd] in *.
    apply escape_inj, show_atom_inj in E; [now subst|assumption|assumption].
  - revert E2. apply enumerate_inj with (P := fun _ => True); try (apply Forall_forall; auto). intros k [a e] [b e'] _ _ E. injection E as -> E. cbn [snd] in E. apply eps_label_inj in E. now subst.
Qed.
Lemma grammar_atomic :
  (forall p t, G_part p t -> part_atoms atomic p) /\ (forall e t, G_expr e t -> expr_atoms atomic e) /\
  (forall b t, G_branch b t -> branch_atoms atomic b) /\ (forall e t, G_ere e t -> ere_atoms atomic e).
Proof. apply G_mutind; intros; cbn; unfold atomic; eauto; intuition eauto. Qed.
Lemma pattern_atomic s e n : G_ere e s -> Forall scalar s -> working_new (tree_of e) = Ok n -> n <> [] -> atomic_nfa n.
Proof.
  intros Hg Hs En Hn. assert (Ha : ere_atoms atom_ok e) by (eapply grammar_atoms_ok; eauto). assert (He : ere_atoms atomic e) by (eapply grammar_atomic; eauto).
  destruct (working_spec true true (tree_of e)) as (n' & En' & H).
  - eapply tree_labels_mono; [|apply tree_of_labels; exact Ha]. auto.
  - apply tree_of_ok.
  - apply tree_of_length.
  - unfold working_new in En. rewrite En in En'. injection En' as <-. destruct H as [[-> _]|(_ & _ & _ & _ & _ & H6)]; [congruence|].
    assert (HF : Forall (lab atomic (mark_in 0 (S (groups e)))) n).
    { apply H6; [exact I|now left|]. apply tree_of_labels. exact He. }
    unfold atomic_nfa. eapply Forall_impl; [|exact HF]. intros x [HT _]. apply Forall_forall. intros [t a] Hin. exact (HT _ _ Hin).
Qed.
