(** The code every macro generates, as Rust (C85). *)
From Coq Require Import String.
From Verif Require Import PEmitFix.
From Coq Require Import ZifyBool ZifyNat ZifyN.
Open Scope string_scope.
Open Scope nat_scope.
Open Scope list_scope.

(** C85.  What is written for a pattern against what the model of the macro says of it ([agrees], PEmitFix.v): the macro stops in the same
    way, or the program it writes is refused by the compiler and the model says so, or the program is accepted and there is an engine
    and both functions of the program give on every text what that engine gives.  [compile_regex!], ... *)
Theorem C85_regex : forall s, Forall scalar s -> agrees (gen_regex s) (compile_regex s).
Proof. exact regex_agrees. Qed.
Print Assumptions C85_regex.
(** ... and the macro for each engine. *)
Theorem C85_one_pass : forall s, Forall scalar s -> agrees (gen_one_pass s) (compile_one_pass s).
Proof. exact one_pass_agrees. Qed.
Print Assumptions C85_one_pass.
Theorem C85_fixed : forall s, Forall scalar s -> agrees (gen_fixed s) (compile_fixed s).
Proof. exact macro_fixed_agrees. Qed.
Print Assumptions C85_fixed.
Theorem C85_dfa : forall s, Forall scalar s -> agrees (do p <- gen_dfa s; match p with Some p => Ok p | None => NoCompile end) (compile_dfa s).
Proof. exact dfa_agrees. Qed.
Print Assumptions C85_dfa.
Theorem C85_flat_u8 : forall s, Forall scalar s -> agrees (gen_flat_u8 s) (compile_flat_u8 s).
Proof. exact flat_u8_agrees. Qed.
Print Assumptions C85_flat_u8.
Theorem C85_flat : forall s, Forall scalar s -> agrees (gen_flat s) (compile_flat s).
Proof. exact flat_agrees. Qed.
Print Assumptions C85_flat.

(** From the pattern to the values of the generated functions, whichever macro wrote them: they always give a value, ... *)
Theorem C85_total : forall s p T, generated s p -> pg_ok p = true -> Forall scalar s -> Forall scalar T ->
  exists b o, pg_test p T = Ok (VBool b) /\ pg_exec p T = Ok (enc_result o) /\ (forall cs, o = Some cs -> b = true /\ List.length cs = pg_groups p).
Proof.
  intros s p T H Ho Hs HT. destruct (generated_compiled s p Hs H Ho) as (en & Hc & G). destruct (compiled_sound s en Hc Hs) as (e & n & _ & _ & _ & Hr). destruct (Hr T HT) as (b & o & H1 & H2 & _ & _ & H5).
  destruct (proj2 G T) as [-> ->]. rewrite H1, H2, (proj1 G). exists b, o. split; [reflexivity|]. split; [reflexivity|]. intros cs E. destruct (H5 cs E) as (A & B & _). auto.
Qed.
Print Assumptions C85_total.
(** ... [test] misses no match, ... *)
Theorem C85_complete : forall s p e T, generated s p -> pg_ok p = true -> Forall scalar s -> Forall scalar T -> G_ere e s -> occurs e T -> pg_test p T = Ok (VBool true).
Proof.
  intros s p e T H Ho Hs HT Hg Hx. destruct (generated_compiled s p Hs H Ho) as (en & Hc & G). destruct (compiled_unique s en e Hc Hs Hg) as (_ & _ & n & _ & _ & Hr). destruct (Hr T HT) as (b & o & H1 & _ & H3 & _).
  destruct (proj2 G T) as [-> _]. rewrite H1. cbn [bind]. destruct (H3 Hx) as [-> _]. reflexivity.
Qed.
Print Assumptions C85_complete.
(** ... and (for a pattern whose [^] the DFA engine handles, C17) [test] tells whether the pattern occurs and [exec] gives the captures of a match. *)
Theorem C85_right : forall s p e T, generated s p -> pg_ok p = true -> Forall scalar s -> Forall scalar T -> G_ere e s -> caret_ok e = true ->
  exists b o, pg_test p T = Ok (VBool b) /\ (b = true <-> occurs e T) /\
    pg_exec p T = Ok (enc_result o) /\ match o with Some cs => captures_of e T cs | None => ~ occurs e T end.
Proof.
  intros s p e T H Ho Hs HT Hg Hk. destruct (generated_compiled s p Hs H Ho) as (en & Hc & G). destruct (compiled_unique s en e Hc Hs Hg) as (_ & Hr & _). specialize (Hr (or_intror Hk)).
  destruct (right_test e en Hr T HT) as (b & Eb & Hb). destruct (right_exec e en Hr T HT) as (o & Eo & Hx). destruct (proj2 G T) as [-> ->]. rewrite Eb, Eo.
  exists b, o. split; [reflexivity|]. split; [assumption|]. split; [reflexivity|]. destruct o as [cs|]; tauto.
Qed.
Print Assumptions C85_right.
(** For the one-pass macro nothing is asked of the pattern. *)
Theorem C85_one_pass_right : forall s p e T, gen_one_pass s = Ok p -> pg_ok p = true -> Forall scalar s -> Forall scalar T -> G_ere e s ->
  exists b o, pg_test p T = Ok (VBool b) /\ (b = true <-> occurs e T) /\
    pg_exec p T = Ok (enc_result o) /\ match o with Some cs => captures_of e T cs | None => ~ occurs e T end.
Proof.
  intros s p e T H Ho Hs HT Hg. assert (G := one_pass_agrees s Hs). rewrite H in G. destruct (agrees_ok _ _ G Ho) as (en & En & G'). destruct (compile_one_pass_right s en En Hs) as (e' & He & Hr & _).
  apply parse_iff in He, Hg. rewrite Hg in He. injection He as <-.
  destruct (right_test e en Hr T HT) as (b & Eb & Hb). destruct (right_exec e en Hr T HT) as (o & Eo & Hx). destruct (proj2 G' T) as [-> ->]. rewrite Eb, Eo.
  exists b, o. split; [reflexivity|]. split; [assumption|]. split; [reflexivity|]. destruct o as [cs|]; tauto.
Qed.
Print Assumptions C85_one_pass_right.

(** The attribute on a tuple struct: what is written compiles exactly when the model of the attribute gives an engine and the fields of the struct have
    the types of the groups, and then [exec] gives the struct with the captures of that engine. *)
Theorem C85_attr : forall s types, Forall scalar s ->
  (forall p, gen_attr s types = Ok p -> pg_ok p = true ->
     exists en opts, attr_compile s = Ok (en, opts) /\ types = map field_ty opts /\
       forall T, Forall scalar T -> pg_test p T = (do b <- engine_test en T; Ok (VBool b)) /\ pg_exec p T = do r <- attr_exec en opts T; Ok (enc_fields opts r)) /\
  (forall en opts, attr_compile s = Ok (en, opts) -> types = map field_ty opts -> exists p, gen_attr s types = Ok p /\ pg_ok p = true).
Proof. intros s types Hs. split; [intros p; now apply gen_attr_to|intros en opts; now apply gen_attr_from]. Qed.
Print Assumptions C85_attr.
(** So calling it never panics, [expect] included. *)
Theorem C85_attr_total : forall s types p T, gen_attr s types = Ok p -> pg_ok p = true -> Forall scalar s -> Forall scalar T ->
  exists b v, pg_test p T = Ok (VBool b) /\ pg_exec p T = Ok (VOpt v).
Proof.
  intros s types p T H Ho Hs HT. destruct (gen_attr_to s types p Hs H Ho) as (en & opts & Ha & _ & G). destruct (G T HT) as [-> ->]. destruct (attr_total s en opts T Ha Hs HT) as (o & ->).
  assert (Hc : compiled s en). { left. apply with_ere_ok in Ha as (e & Hp & Ha). unfold compile_regex. rewrite (parsed_with_ere _ _ _ Hp). destruct (working_new (tree_of e)) as [n| | |]; try discriminate Ha. cbn [bind] in Ha. destruct (mapM _ _); try discriminate Ha. cbn [bind] in Ha. destruct (pick_engine e) as [x| | |]; try discriminate Ha. cbn [bind] in Ha. destruct (_ =? _); [|discriminate Ha]. injection Ha as -> _. reflexivity. }
  destruct (compiled_sound s en Hc Hs) as (e & n & _ & _ & _ & Hr). destruct (Hr T HT) as (b & x & -> & _). cbn [bind]. exists b. unfold enc_fields. eauto.
Qed.
Print Assumptions C85_attr_total.

(** The functional one-pass engine with a run; in the second pattern the value of an optional group is missing. *)
Example C85_one_pass_case :
  (do p <- gen_one_pass (s2l "^abc(d|e)f$"); do q <- gen_one_pass (s2l "^(a(b)?|c)d$"); do x <- pg_test p (s2l "abcef"); do y <- pg_exec p (s2l "abcef"); do z <- pg_exec p (s2l "abcf"); do t <- pg_exec q (s2l "ad"); Ok (pg_ok p, pg_ok q, x, y, z, t))
  = Ok (true, true, VBool true, enc_result (Some [Some (0, 5); Some (3, 4)]), enc_result None, enc_result (Some [Some (0, 2); Some (0, 1); None])).
Proof. vm_compute. reflexivity. Qed.
(** Fixed offsets around the functional engine. *)
Example C85_fixed_case :
  (do p <- gen_fixed (s2l "^#([0-9a-f]{2})([0-9a-f]{2})$"); do q <- gen_regex (s2l "^#([0-9a-f]{2})([0-9a-f]{2})$"); do x <- pg_test p (s2l "#0af9"); do y <- pg_exec p (s2l "#0af9"); do z <- pg_exec q (s2l "#0ag9"); Ok (pg_ok p, pg_ok q, x, y, z))
  = Ok (true, true, VBool true, enc_result (Some [Some (0, 5); Some (1, 3); Some (3, 5)]), enc_result None).
Proof. vm_compute. reflexivity. Qed.
(** [compile_regex!] falls back on the DFA. *)
Example C85_regex_case :
  (do p <- gen_regex (s2l "a(b*)c"); do x <- pg_test p (s2l "zabbc"); do y <- pg_exec p (s2l "zabbc"); Ok (pg_ok p, x, y))
  = Ok (true, VBool true, enc_result (Some [Some (1, 5); Some (2, 4)])).
Proof. vm_compute. reflexivity. Qed.
(** The types of the fields must be those of the groups. *)
Example C85_attr_case :
  (do p <- gen_attr (s2l "^(a(b)?|c)d$") [TStr; TStr; TOpt TStr]; do q <- gen_attr (s2l "^(a(b)?|c)d$") [TStr; TStr; TStr]; do y <- pg_exec p (s2l "abd"); do z <- pg_exec p (s2l "cd"); Ok (pg_ok p, pg_ok q, y, z))
  = Ok (true, false, VOpt (Some (VArr [VStr (0, 3); VStr (0, 2); VOpt (Some (VStr (1, 2)))])), VOpt (Some (VArr [VStr (0, 2); VStr (0, 1); VOpt None]))).
Proof. vm_compute. reflexivity. Qed.
(** Whatever the macro, the hypotheses of [C85_right] are met. *)
Example C85_right_case : (do p <- gen_regex (s2l "^(a|b)*c|^d$"); with_ere (s2l "^(a|b)*c|^d$") (fun e => do x <- pg_test p (s2l "abacz"); do y <- pg_test p (s2l "dabac"); do z <- pg_exec p (s2l "abacz"); Ok (pg_ok p, caret_ok e, x, y, z)))
  = Ok (true, true, VBool true, VBool false, enc_result (Some [Some (0, 4); Some (2, 3)])).
Proof. vm_compute. reflexivity. Qed.
