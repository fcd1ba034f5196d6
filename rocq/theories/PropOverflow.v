(** The length bounds in machine integers (C67). *)
From Coq Require Import String.
From Verif Require Import SpecSize SpecGrammar Overflow POverflow PropTree PBytes PAll PStrip.
From Coq Require Import ZifyBool ZifyNat ZifyN.
Open Scope nat_scope.
Open Scope list_scope.

(** C67.  Where the length of a match is bounded, [max_bytes] overflows exactly when the bound does not fit ([w] is one more than the
    largest number). *)
Theorem C67_max : forall w s e n, (4 < w)%N -> G_ere e s -> Forall scalar s -> max_bytes (tree_of e) = Some n ->
  max_bytes_w w (tree_of e) = if (N.of_nat n <? w)%N then Ok (Some (N.of_nat n)) else Panic.
Proof. intros w s e n Hw _ _ E. assert (A := max_w w Hw _ (tree_nonzero e)). rewrite E in A. exact A. Qed.
Print Assumptions C67_max.
Definition pow64 : N := 18446744073709551616.
Definition pow32 : N := 4294967296.
Example C67_case_max : map (fun p => with_ere (s2l p) (fun e => max_bytes_w pow64 (tree_of e))) ["(((a{65535}){65535}){65535}){65535}"; "((((a{65535}){65535}){65535}){65535}){2}"; "x?[^x]{1,3}"]%string =
  [Ok (Some 18445618199572250625%N); Panic; Ok (Some 13%N)].
Proof. vm_compute. reflexivity. Qed.
Example C67_case_max32 : map (fun p => with_ere (s2l p) (fun e => max_bytes_w pow32 (tree_of e))) ["(a{65536}){65535}"; "(a{65536}){65536}"]%string = [Ok (Some 4294901760%N); Panic].
Proof. vm_compute. reflexivity. Qed.
(** What it returns is a bound for every match of every text; and where it returns [None] there is none. *)
Theorem C67_right : forall w s e v, (4 < w)%N -> parse_str s = ROk e -> Forall scalar s -> max_bytes_w w (tree_of e) = Ok (Some v) ->
  forall T i j L, Forall scalar T -> matches T e i j L -> (N.of_nat (byte_pos T j) <= N.of_nat (byte_pos T i) + v)%N.
Proof.
  intros w s e v Hw Hp Hs E T i j L HT Hm. assert (A := max_w w Hw _ (tree_nonzero e)). rewrite E in A. destruct (max_bytes (tree_of e)) as [n|] eqn:En; cbn in A; [|destruct A; discriminate].
  unfold capped in A. destruct (N.of_nat n <? w)%N; [|discriminate]. injection A as ->. assert (B := C30_max_bytes s e T i j L n Hp Hs HT En Hm). lia.
Qed.
Print Assumptions C67_right.
Theorem C67_none : forall w s e, (4 < w)%N -> G_ere e s -> Forall scalar s -> max_bytes_w w (tree_of e) = Ok None -> max_bytes (tree_of e) = None.
Proof.
  intros w s e Hw _ _ E. assert (A := max_w w Hw _ (tree_nonzero e)). rewrite E in A. destruct (max_bytes (tree_of e)) as [n|]; [|reflexivity]. cbn in A. unfold capped in A. destruct (N.of_nat n <? w)%N; discriminate.
Qed.
Print Assumptions C67_none.
(** [min_bytes] returns the lower bound or overflows. *)
Theorem C67_min : forall w s e v, G_ere e s -> Forall scalar s -> min_bytes_w w (tree_of e) = Ok v -> v = N.of_nat (min_bytes (tree_of e)).
Proof. intros w s e v _ _. apply min_w. Qed.
Print Assumptions C67_min.
(** Neither overflows when four times the size of the pattern with its quantifiers unrolled fits. *)
Theorem C67_size_partial : forall w s e, (4 < w)%N -> G_ere e s -> Forall scalar s -> (4 * N.of_nat (size (fun _ => O) e) < w)%N ->
  max_bytes_w w (tree_of e) = Ok (option_map N.of_nat (max_bytes (tree_of e))) /\ min_bytes_w w (tree_of e) = Ok (N.of_nat (min_bytes (tree_of e))).
Proof.
  intros w s e Hw _ _ H. assert (W := tree_weight e). assert (F : (N.of_nat (weight (tree_of e)) < w)%N) by lia. split.
  - destruct (max_fits w Hw _ (tree_nonzero e) F) as (x & E). rewrite E. assert (A := max_w w Hw _ (tree_nonzero e)). rewrite E in A.
    destruct (max_bytes (tree_of e)) as [n|]; cbn in A; [|destruct A as [A|A]; [injection A as ->; reflexivity|discriminate]]. unfold capped in A. destruct (N.of_nat n <? w)%N; [exact A|discriminate].
  - exact (min_fits w Hw _ (tree_nonzero e) F).
Qed.
Print Assumptions C67_size_partial.
Example C67_case_size : with_ere (s2l "(ab{2,3}|[0-9]+x)*y") (fun e => Ok (size (fun _ => 0) e, max_bytes_w pow32 (tree_of e), min_bytes_w pow32 (tree_of e))) = Ok (22, Ok None, Ok 1%N).
Proof. vm_compute. reflexivity. Qed.
(** Where the length is not bounded it can overflow all the same, depending on the order of the parts; and [min_bytes] can although the
    bound is 1. *)
Definition towers : list string := ["b*(((((a{65535}){65535}){65535}){65535}){65535})"; "(((((a{65535}){65535}){65535}){65535}){65535})b*"; "b|(((((a{65535}){65535}){65535}){65535}){65535})"]%string.
Example C67_case_towers : map (fun p => with_ere (s2l p) (fun e => Ok (max_bytes_w pow64 (tree_of e), min_bytes_w pow64 (tree_of e)))) towers = [Ok (Ok None, Panic); Ok (Panic, Panic); Ok (Panic, Panic)].
Proof. vm_compute. reflexivity. Qed.
Definition exponent := {| q_type := QMultiple 65535; q_alt := false |}.
Definition tower : expr := fold_right (fun _ x => XSub [[PQuant x exponent]]) (XAtom (NormalChar 97)) (repeat tt 5).
Definition b_star : part := PQuant (XAtom (NormalChar 98)) {| q_type := QStar; q_alt := false |}.
Theorem C67_refuted :
  (exists s e, G_ere e s /\ Forall scalar s /\ max_bytes (tree_of e) = None /\ max_bytes_w pow64 (tree_of e) = Panic) /\
  (exists s e, G_ere e s /\ Forall scalar s /\ min_bytes (tree_of e) <= 1 /\ min_bytes_w pow64 (tree_of e) = Panic).
Proof.
  split.
  - exists (s2l "(((((a{65535}){65535}){65535}){65535}){65535})b*"), [[PSingle tower; b_star]]. split; [apply parse_iff; vm_compute; reflexivity|]. split; [repeat constructor|]. split; [|vm_compute; reflexivity].
    generalize tower. intros x. rewrite tree_of_eq. rewrite ere_trees_cons, branch_trees_cons, part_tree_single. generalize (expr_tree x 1). intros t. cbn. now destruct (max_bytes t).
  - exists (s2l "b|(((((a{65535}){65535}){65535}){65535}){65535})"), [[PSingle (XAtom (NormalChar 98))]; [PSingle tower]]. split; [apply parse_iff; vm_compute; reflexivity|]. split; [repeat constructor|]. split; [|vm_compute; reflexivity].
    generalize tower. intros x. rewrite tree_of_eq, !ere_trees_cons, !branch_trees_cons, !part_tree_single. generalize (expr_tree x). intros f. cbn [tree_of min_bytes map ere_trees]. match goal with |- context [fold_left Nat.min ?l ?y] => destruct (fold_min_le l y) as [G _] end. etransitivity; [exact G|]. cbn. lia.
Qed.
Print Assumptions C67_refuted.
