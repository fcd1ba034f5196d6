(** Bounds on the length of a match are attained (C30, C31, C54). *)
From Coq Require Import String.
From Verif Require Import PTight SpecLeast PLeast.
From Coq Require Import ZifyBool ZifyNat ZifyN.
Open Scope nat_scope.
Open Scope list_scope.

(** C30.  The bound [max_bytes] is the length of some match. *)
Theorem C30_attained : forall s e n, G_ere e s -> Forall scalar s -> anchor_free e = true -> forward_atoms e -> inhabited_atoms e -> possible e ->
  max_bytes (tree_of e) = Some n -> exists T L, Forall scalar T /\ matches T e 0 (List.length T) L /\ byte_pos T (List.length T) = n.
Proof. intros s e n Hg Hs Ha Hf Hi Hp Hn. apply parse_iff in Hg. apply (max_text e); auto. eapply parsed_atoms_ok; eauto. Qed.
Print Assumptions C30_attained.
(** Without a bound there are matches of any length. *)
Theorem C30_endless : forall s e, G_ere e s -> Forall scalar s -> anchor_free e = true -> forward_atoms e -> inhabited_atoms e -> possible e -> running e ->
  max_bytes (tree_of e) = None -> forall n, exists T L, Forall scalar T /\ matches T e 0 (List.length T) L /\ n <= byte_pos T (List.length T).
Proof. intros s e Hg Hs Ha Hf Hi Hp Hr Hn n. apply parse_iff in Hg. apply (long_text e); auto. eapply parsed_atoms_ok; eauto. Qed.
Print Assumptions C30_endless.
(** C31.  [min_bytes], too, is the length of some match (if not of the shortest), whatever the quantifiers. *)
Theorem C31_attained : forall s e, G_ere e s -> Forall scalar s -> anchor_free e = true -> forward_atoms e -> inhabited_atoms e -> possible e ->
  exists T L, Forall scalar T /\ matches T e 0 (List.length T) L /\ byte_pos T (List.length T) = min_bytes (tree_of e).
Proof. intros s e Hg Hs Ha Hf Hi Hp. apply parse_iff in Hg. apply (min_text e); auto. eapply parsed_atoms_ok; eauto. Qed.
Print Assumptions C31_attained.
Definition sample : ere := [[PQuant (XAtom (NormalChar 233%N)) {| q_type := QRange 1 (Some 3%N); q_alt := false |}; PSingle (XSub [[PSingle (XAtom (NonmatchingList [Single 120%N]))]; []])]].
Lemma sample_ok : anchor_free sample = true /\ forward_atoms sample /\ inhabited_atoms sample /\ possible sample /\ running sample.
Proof.
  split; [reflexivity|]. split; [intros a [<-|[<-|[]]]; cbn; repeat constructor|]. split.
  - intros a [<-|[<-|[]]]; [exists 233%N|exists 97%N]; (split; [reflexivity|apply atom_check_iff; reflexivity]).
  - split; [|cbn; tauto]. split; [discriminate|]. cbn. split; [|exact I]. split; [|]; [split; [exists 1; lia|exact I]|]. split; [|exact I]. split; [discriminate|tauto].
Qed.
Example C30_attained_case : parse_str ([233%N] ++ s2l "{1,3}([^x]|)") = ROk sample /\ max_bytes (tree_of sample) = Some 10 /\ min_bytes (tree_of sample) = 6.
Proof. split; [vm_compute; reflexivity|split; vm_compute; reflexivity]. Qed.
Definition endless_sample : ere := [[PQuant (XSub [[PQuant (XAtom (NormalChar 97%N)) {| q_type := QQuestion; q_alt := false |}]]) {| q_type := QPlus; q_alt := true |}]].
Example C30_endless_case : parse_str (s2l "(a?)+?") = ROk endless_sample /\ anchor_free endless_sample = true /\ possible endless_sample /\ running endless_sample /\ max_bytes (tree_of endless_sample) = None.
Proof.
  split; [vm_compute; reflexivity|]. split; [reflexivity|]. split; [|split; [|reflexivity]].
  - split; [discriminate|]. cbn. split; [|exact I]. split; [|exact I]. split; [exists 1; lia|]. split; [discriminate|]. split; [|exact I]. split; [|exact I]. split; [exists 1; lia|exact I].
  - cbn. split; [|exact I]. split; [|exact I]. split; [|tauto]. intros _. left. left. split; [exists 1; lia|exact I].
Qed.

(** The least number of bytes of a match, read off the syntax: no match is shorter, and some match has it. *)
Theorem C31_least : forall s e width, G_ere e s -> Forall scalar s -> possible e -> (forall a, In a (atoms e) -> narrowest width a) ->
  (forall T i j L, Forall scalar T -> matches T e i j L -> byte_pos T i + least width e <= byte_pos T j) /\
  (anchor_free e = true -> exists T L, Forall scalar T /\ matches T e 0 (List.length T) L /\ byte_pos T (List.length T) = least width e).
Proof. intros s e width Hg Hs Hp Hw. split; [intros T i j L HT; now apply match_least|intros Ha; now apply least_text]. Qed.
Print Assumptions C31_least.
(** [min_bytes] never reports less, and it is a lower bound for the matches exactly when it is the least number. *)
Theorem C31_exact : forall s e width, G_ere e s -> Forall scalar s -> anchor_free e = true -> forward_atoms e -> possible e -> (forall a, In a (atoms e) -> narrowest width a) ->
  least width e <= min_bytes (tree_of e) /\
  ((forall T i j L, Forall scalar T -> matches T e i j L -> byte_pos T i + min_bytes (tree_of e) <= byte_pos T j) <-> min_bytes (tree_of e) = least width e).
Proof.
  intros s e width Hg Hs Ha Hf Hp Hw.
  destruct (C31_attained s e Hg Hs Ha Hf (fun a H => match proj2 (Hw a H) with ex_intro _ c (conj H1 (conj H2 _)) => ex_intro _ c (conj H1 H2) end) Hp) as (T & L & HT & HL & E).
  destruct (C31_least s e width Hg Hs Hp Hw) as [Lo At]. destruct (At Ha) as (T' & L' & HT' & HL' & E').
  assert (X := Lo T _ _ L HT HL). change (byte_pos T 0) with 0 in X. split; [lia|]. split; intros H.
  - specialize (H T' _ _ L' HT' HL'). change (byte_pos T' 0) with 0 in H. lia.
  - intros U i j M HU HM. rewrite H. now apply (Lo U i j M).
Qed.
Print Assumptions C31_exact.
Definition sample_width (a : atom) : nat := match a with NormalChar _ => 2 | _ => 1 end.
Lemma sample_narrowest a : In a (atoms sample) -> narrowest sample_width a.
Proof.
  intros [<-|[<-|[]]].
  - split; [intros c _ Hc; inversion Hc; cbn; lia|]. exists 233%N. split; [reflexivity|]. split; [apply atom_check_iff; reflexivity|reflexivity].
  - split; [intros c _ _; unfold char_bytes; cbn [sample_width]; repeat match goal with |- context [if ?b then _ else _] => destruct b end; lia|]. exists 97%N. split; [reflexivity|]. split; [apply atom_check_iff; reflexivity|reflexivity].
Qed.
(** The matches of [é{1,3}([^x]|)] have 2 bytes or more, not 6; those of [é{3}([^x][^x]|[^x])] have 7 or more. *)
Definition fixed_sample : ere := [[PQuant (XAtom (NormalChar 233%N)) {| q_type := QMultiple 3; q_alt := false |}; PSingle (XSub [[PSingle (XAtom (NonmatchingList [Single 120%N])); PSingle (XAtom (NonmatchingList [Single 120%N]))]; [PSingle (XAtom (NonmatchingList [Single 120%N]))]])]].
Example C31_exact_case : least sample_width sample = 2 /\ min_bytes (tree_of sample) = 6 /\
  parse_str ([233%N] ++ s2l "{3}([^x][^x]|[^x])") = ROk fixed_sample /\ least sample_width fixed_sample = 7 /\ min_bytes (tree_of fixed_sample) = 7 /\ incl (atoms fixed_sample) (atoms sample).
Proof. split; [vm_compute; reflexivity|]. split; [vm_compute; reflexivity|]. split; [vm_compute; reflexivity|]. split; [vm_compute; reflexivity|]. split; [vm_compute; reflexivity|]. intros a. cbn. tauto. Qed.

(** C54.  [Atom::min_bytes] and [max_bytes] bound the length of the characters of an atom, and are reached. *)
Theorem C54_atom : forall a c, atom_ok a -> scalar c -> atom_has a c -> atom_min_bytes a <= char_bytes c <= atom_max_bytes a.
Proof. exact atom_bytes. Qed.
Print Assumptions C54_atom.
Theorem C54_reached : forall a, atom_ok a -> atom_fwd a -> (exists c, scalar c /\ atom_has a c) ->
  (exists c, scalar c /\ atom_has a c /\ char_bytes c = atom_min_bytes a) /\ (exists c, scalar c /\ atom_has a c /\ char_bytes c = atom_max_bytes a).
Proof. exact atom_bytes_reached. Qed.
Print Assumptions C54_reached.
Example C54_case : let a := NonmatchingList [Range 0 0x7F; Range 0x10000 char_max; Single 0xE9]%N in atom_ok a /\ atom_fwd a /\ atom_has a 0x20AC%N /\ (atom_min_bytes a, atom_max_bytes a) = (2, 3).
Proof.
  cbv zeta. split; [repeat constructor|]. split; [unfold atom_fwd; repeat (apply Forall_cons; [cbn; unfold char_max; first [exact I | lia]|]); apply Forall_nil|]. split; [|vm_compute; reflexivity]. apply atom_check_iff. reflexivity.
Qed.
(** [QuantifierType::min] and [max] are the bounds of the numbers of repetitions. *)
Theorem C54_quantifier : forall q n, quant_allows q n <-> (q_min q <= N.of_nat n)%N /\ match q_max q with Some m => (N.of_nat n <= m)%N | None => True end.
Proof. intros [ | | |k|k [m|]] n; cbn; lia. Qed.
Print Assumptions C54_quantifier.
Example C54_quantifier_case : quant_allows (QRange 2 (Some 5%N)) 3 /\ ~ quant_allows (QMultiple 4) 3 /\ q_max QQuestion = Some 1%N.
Proof. cbn. split; [lia|]. split; [lia|reflexivity]. Qed.
