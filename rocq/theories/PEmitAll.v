(** The generated programs against the engines of the model. *)
From Verif Require Export Gen PEmitDfa PEmitLock PEngines PStrip.
From Coq Require Import ZifyBool ZifyNat ZifyN.
Open Scope nat_scope.
Open Scope list_scope.
Set Default Proof Using "Type".

(** The program gives what the engine gives *)
Definition gives (p : program) (en : engine) : Prop :=
  pg_groups p = engine_groups en /\ forall T, pg_test p T = (do b <- engine_test en T; Ok (VBool b)) /\ pg_exec p T = (do r <- engine_exec en T; Ok (enc_result r)).

Section Gen.
  Context {A : Type}.
  Variable n : nfa A.
  Lemma guard_fit tbl : guard (wfb n && (1 <=? length n)) = Ok tt -> flat_table n = Ok tbl -> flat_fit n tbl.
  Proof.
    intros H Ht. unfold guard in H. destruct (wfb n && (1 <=? length n)) eqn:E; [|discriminate H]. apply andb_true_iff in E as [E1 E2]. apply Nat.leb_le in E2.
    apply flat_fit_table; [assumption|now apply wfb_iff|assumption].
  Qed.
End Gen.
Lemma byte_program_gives u tbl : flat_fit u tbl -> flat_make u = Ok tbl -> pg_ok (byte_program u tbl) = true /\ gives (byte_program u tbl) (EFlatU8 u).
Proof.
  intros HF Hm. assert (Hr : forallb (tags_in_range (num_capture_groups u)) tbl = true).
  { unfold flat_make in Hm. destruct (guard _); try discriminate Hm. cbn [bind] in Hm. destruct (flat_table u) as [t| | |]; try discriminate Hm. cbn [bind] in Hm.
    destruct (forallb _ t) eqn:E; [|discriminate Hm]. injection Hm as ->. exact E. }
  cbn [pg_ok byte_program]. split; [now rewrite byte_test_accepts, byte_exec_accepts, Hr|]. split; [reflexivity|]. intros T. cbn [pg_test pg_exec byte_program engine_test engine_exec].
  unfold flat_u8_test, flat_u8_exec. rewrite byte_test_code_run, byte_exec_code_run, Hm by assumption. auto.
Qed.
Lemma char_program_gives n tbl : flat_fit n tbl -> flat_make n = Ok tbl -> pg_ok (char_program n tbl) = nfa_compiles n /\ gives (char_program n tbl) (EFlat n).
Proof.
  intros HF Hm. assert (Hr : forallb (tags_in_range (num_capture_groups n)) tbl = true).
  { unfold flat_make in Hm. destruct (guard _); try discriminate Hm. cbn [bind] in Hm. destruct (flat_table n) as [t| | |]; try discriminate Hm. cbn [bind] in Hm.
    destruct (forallb _ t) eqn:E; [|discriminate Hm]. injection Hm as ->. exact E. }
  cbn [pg_ok char_program]. split; [rewrite char_test_accepts, char_exec_accepts, Hr by assumption; now destruct (nfa_compiles n)|].
  split; [reflexivity|]. intros T. cbn [pg_test pg_exec char_program engine_test engine_exec].
  unfold flat_char_test, flat_char_exec. rewrite char_test_code_run, char_exec_code_run, Hm by assumption. auto.
Qed.
Lemma dfa_program_gives u max d m : wf u -> 1 <= length u -> PDfa.built u max d -> dfa_from_tagged d = Ok m ->
  pg_ok (dfa_program d m) = true /\ gives (dfa_program d m) (EDfa d).
Proof.
  intros Hw Hl Hb Hm. assert (F1 := dfa_fit_tagged u max d m Hl Hb Hm). assert (F2 := tdfa_fit_built u max d Hw Hl Hb).
  cbn [pg_ok dfa_program]. split; [now rewrite dfa_test_accepts, tdfa_inner_accepts, tdfa_outer_accepts|].
  split; [reflexivity|]. intros T. cbn [pg_test pg_exec dfa_program engine_test engine_exec]. unfold dfa_test, dfa_exec. rewrite dfa_test_code_run, tdfa_exec_code_run, Hm by assumption. auto.
Qed.
Lemma vm_program_gives u tab : vm_fit u tab -> pg_ok (vm_program u tab) = vm_compiles u tab /\
  (vm_compiles u tab = true -> gives (vm_program u tab) (EOnePass (mkEngine (num_capture_groups u) tab OpVm))).
Proof.
  intros HF. cbn [pg_ok vm_program]. split; [rewrite vm_test_accepts, vm_exec_accepts by assumption; now destruct (vm_compiles u tab)|].
  intros Ho. split; [reflexivity|]. intros T. cbn [pg_test pg_exec vm_program engine_test engine_exec]. unfold op_test, op_exec. cbn [op_k op_tab op_groups bind].
  rewrite vm_test_code_run, vm_exec_code_run by assumption. auto.
Qed.

Lemma flat_made {A} (u : nfa A) : groups_ok u -> ok u -> 1 <= length u -> exists tbl,
  guard (wfb u && (1 <=? length u)) = Ok tt /\ flat_table u = Ok tbl /\ flat_make u = Ok tbl /\ flat_fit u tbl.
Proof.
  intros Hg Hu Hl. assert (Hgu : guard (wfb u && (1 <=? length u)) = Ok tt) by (rewrite wfb_guard; [reflexivity|now apply ok_wf|assumption]).
  destruct (flat_make_spec u (ok_wf _ Hu) Hl Hg) as (t & Em & _). exists t. assert (Em' := Em). unfold flat_make in Em'. rewrite Hgu in Em'. cbn [bind] in Em'.
  destruct (flat_table u) as [t'| | |] eqn:Et; cbn [bind] in Em'; try discriminate Em'. destruct (forallb _ t'); [|discriminate Em']. injection Em' as ->.
  split; [assumption|]. split; [reflexivity|]. split; [assumption|]. now apply guard_fit.
Qed.
Lemma guard_ne {A} (u : nfa A) : guard (wfb u && (1 <=? length u)) = Ok tt -> u <> [].
Proof. intros H ->. discriminate H. Qed.
Lemma table_ne {A} (u : nfa A) {B} (k : res B) x : (do _ <- guard (wfb u && (1 <=? length u)); k) = Ok x -> u <> [].
Proof. intros H. destruct (guard _) as [[]| | |] eqn:E; try discriminate H. now apply guard_ne. Qed.

Lemma gen_flat_u8_to s p : Forall scalar s -> gen_flat_u8 s = Ok p -> exists en, compile_flat_u8 s = Ok en /\ pg_ok p = true /\ gives p en.
Proof.
  intros Hs H. apply with_ere_ok in H as (e & Hp & H). unfold compile_flat_u8. rewrite (parsed_with_ere _ _ _ Hp).
  destruct (working_new (tree_of e)) as [n| | |] eqn:En; try discriminate H. cbn [bind] in H |- *. destruct (u8_new n) as [u| | |] eqn:Eu; try discriminate H. cbn [bind] in H |- *.
  destruct (parsed_u8_ne _ _ Hp Hs n u En Eu (table_ne _ _ _ H)) as (M1 & M2 & _ & _ & M5 & _). destruct (flat_made u M5 M1 ltac:(lia)) as (tbl & E1 & E2 & E3 & E4).
  rewrite E1 in H. cbn [bind] in H. rewrite E2 in H. cbn [bind] in H. injection H as <-. destruct (byte_program_gives u tbl E4 E3) as [G1 G2].
  exists (EFlatU8 u). unfold make_flat_u8. rewrite E3. auto.
Qed.
Lemma gen_flat_u8_from s en : Forall scalar s -> compile_flat_u8 s = Ok en -> exists p, gen_flat_u8 s = Ok p.
Proof.
  intros Hs H. apply with_ere_ok in H as (e & Hp & H). unfold gen_flat_u8. rewrite (parsed_with_ere _ _ _ Hp).
  destruct (working_new (tree_of e)) as [n| | |] eqn:En; try discriminate H. cbn [bind] in H |- *. destruct (u8_new n) as [u| | |] eqn:Eu; try discriminate H. cbn [bind] in H |- *.
  unfold make_flat_u8, flat_make in H. destruct (guard _) as [[]| | |]; try discriminate H. cbn [bind] in H |- *.
  destruct (flat_table u) as [t| | |]; try discriminate H. cbn [bind]. eauto.
Qed.
Lemma gen_flat_to s p : Forall scalar s -> gen_flat s = Ok p ->
  exists n, compile_flat s = (if pg_ok p then Ok (EFlat n) else NoCompile) /\ gives p (EFlat n).
Proof.
  intros Hs H. apply with_ere_ok in H as (e & Hp & H). unfold compile_flat. rewrite (parsed_with_ere _ _ _ Hp).
  destruct (working_new (tree_of e)) as [n| | |] eqn:En; try discriminate H. cbn [bind] in H |- *.
  destruct (parsed_working_ne _ _ Hp Hs n En (table_ne _ _ _ H)) as [(M1 & M2 & _) M5]. destruct (flat_made n M5 M1 ltac:(lia)) as (tbl & E1 & E2 & E3 & E4).
  rewrite E1 in H. cbn [bind] in H. rewrite E2 in H. cbn [bind] in H. injection H as <-. destruct (char_program_gives n tbl E4 E3) as [G1 G2].
  exists n. unfold make_flat. rewrite E3, G1. auto.
Qed.
Lemma gen_flat_from s en : Forall scalar s -> compile_flat s = Ok en -> exists p, gen_flat s = Ok p.
Proof.
  intros Hs H. apply with_ere_ok in H as (e & Hp & H). unfold gen_flat. rewrite (parsed_with_ere _ _ _ Hp).
  destruct (working_new (tree_of e)) as [n| | |] eqn:En; try discriminate H. cbn [bind] in H |- *.
  unfold make_flat, flat_make in H. destruct (guard _) as [[]| | |]; try discriminate H. cbn [bind] in H |- *.
  destruct (flat_table n) as [t| | |]; try discriminate H. cbn [bind]. eauto.
Qed.
Lemma tdfa_nil max : tdfa_from_nfa [] max = Panic.
Proof. reflexivity. Qed.
Lemma gen_dfa_to s p : Forall scalar s -> gen_dfa s = Ok (Some p) -> exists en, compile_dfa s = Ok en /\ pg_ok p = true /\ gives p en.
Proof.
  intros Hs H. apply with_ere_ok in H as (e & Hp & H). unfold compile_dfa. rewrite (parsed_with_ere _ _ _ Hp).
  destruct (working_new (tree_of e)) as [n| | |] eqn:En; try discriminate H. cbn [bind] in H |- *. destruct (u8_new n) as [u| | |] eqn:Eu; try discriminate H. cbn [bind] in H |- *.
  assert (Hne : u <> []) by (intros ->; rewrite tdfa_nil in H; discriminate H).
  destruct (parsed_u8_ne _ _ Hp Hs n u En Eu Hne) as (M1 & M2 & _). destruct (tdfa_from_nfa_spec u (ok_wf _ M1) ltac:(lia) (default_bound (length u))) as (o & Eo & Ho).
  rewrite Eo in H |- *. cbn [bind] in H |- *. destruct o as [d|]; [|discriminate H]. destruct (dfa_from_tagged d) as [m| | |] eqn:Em; try discriminate H. cbn [bind] in H. injection H as <-.
  destruct (dfa_program_gives u _ d m (ok_wf _ M1) ltac:(lia) Ho Em) as [G1 G2]. exists (EDfa d). unfold make_dfa. rewrite Em. auto.
Qed.
Lemma gen_dfa_from s en : compile_dfa s = Ok en -> exists p, gen_dfa s = Ok (Some p).
Proof.
  intros H. apply with_ere_ok in H as (e & Hp & H). unfold gen_dfa. rewrite (parsed_with_ere _ _ _ Hp).
  destruct (working_new (tree_of e)) as [n| | |] eqn:En; try discriminate H. cbn [bind] in H |- *. destruct (u8_new n) as [u| | |] eqn:Eu; try discriminate H. cbn [bind] in H |- *.
  destruct (tdfa_from_nfa u _) as [[d|]| | |]; try discriminate H. cbn [bind] in H |- *. unfold make_dfa in H. destruct (dfa_from_tagged d); try discriminate H. cbn [bind]. eauto.
Qed.
Lemma gen_vm_to s p : Forall scalar s -> gen_vm s = Ok (Some p) ->
  exists g tab, let en := EOnePass (mkEngine g tab OpVm) in compile_one_pass s = (if pg_ok p then Ok en else NoCompile) /\ (pg_ok p = true -> gives p en).
Proof.
  intros Hs H. apply with_ere_ok in H as (e & Hp & H). unfold compile_one_pass. rewrite (parsed_with_ere _ _ _ Hp).
  destruct (working_new (tree_of e)) as [n| | |] eqn:En; try discriminate H. cbn [bind] in H |- *. destruct (u8_new n) as [u| | |] eqn:Eu; try discriminate H. cbn [bind] in H |- *.
  assert (Hne : u <> []) by (intros ->; vm_compute in H; discriminate H).
  destruct (parsed_u8_ne _ _ Hp Hs n u En Eu Hne) as (M1 & M2 & _ & _ & _ & M6 & _). unfold op_make. destruct (guard _) as [[]| | |]; try discriminate H. cbn [bind] in H |- *.
  destruct (op_analyse_spec u (ok_wf _ M1) M6) as (o & Eo & Ho). rewrite Eo in H |- *. cbn [bind] in H |- *. destruct o as [tab|]; [|discriminate H].
  destruct (topological_ordering u) as [[o|]| | |]; try discriminate H. cbn [bind] in H |- *. injection H as <-.
  destruct (vm_program_gives u tab (vm_fit_tables u tab (ok_wf _ M1) ltac:(lia) M6 Ho)) as [G1 G2]. exists (num_capture_groups u), tab. rewrite G1.
  destruct (vm_compiles u tab); (split; [reflexivity|]); [auto|intros Q; discriminate Q].
Qed.
Lemma gen_vm_from s g tab : compile_one_pass s = Ok (EOnePass (mkEngine g tab OpVm)) -> exists p, gen_vm s = Ok (Some p).
Proof.
  intros H. apply with_ere_ok in H as (e & Hp & H). unfold gen_vm. rewrite (parsed_with_ere _ _ _ Hp).
  destruct (working_new (tree_of e)) as [n| | |] eqn:En; try discriminate H. cbn [bind] in H |- *. destruct (u8_new n) as [u| | |] eqn:Eu; try discriminate H. cbn [bind] in H |- *.
  unfold op_make in H. destruct (guard _) as [[]| | |]; try discriminate H. cbn [bind] in H |- *. destruct (op_analyse u) as [[t|]| | |]; try discriminate H. cbn [bind] in H |- *.
  destruct (topological_ordering u) as [[o|]| | |]; try discriminate H; cbn [bind] in H |- *; [|eauto].
  exfalso. destruct (compute_runs _) as [r| | |]; try discriminate H. cbn [bind] in H. destruct (fun_compiles u t r); discriminate H.
Qed.
