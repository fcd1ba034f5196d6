(** The attribute macro. *)
From Verif Require Export Attr PCount POptional PLaws.
From Coq Require Import ZifyBool ZifyNat ZifyN.
Open Scope nat_scope.
Open Scope list_scope.
Set Default Proof Using "Type".

Definition field_of (opt : bool) : field_type := if opt then FieldOption else FieldStr.
Lemma fields_fit_iff opts : forall l, fields_fit opts l = true <-> l = map field_of opts.
Proof.
  induction opts as [|o opts IH]; intros [|ty l]; cbn; try (split; congruence). rewrite andb_true_iff, IH. split.
  - intros [H ->]. destruct o, ty; cbn in H; try discriminate; reflexivity.
  - intros H. injection H as -> ->. split; [now destruct o|reflexivity].
Qed.
Lemma attr_accepts s it en opts : attr_macro s it = Ok (en, opts) <-> attr_compile s = Ok (en, opts) /\ it = IStruct (FUnnamed (map field_of opts)).
Proof.
  unfold attr_macro, attr_compile. split.
  - intros H. apply with_ere_ok in H as (e & Hp & H). apply bind_ok in H as (n & En & H). apply bind_ok in H as (os & Eo & H). destruct it as [ | |[l|l| ]]; try discriminate.
    destruct (Nat.eqb_spec (length l) (length os)) as [Hl|]; [|discriminate]. apply bind_ok in H as (en' & Ee & H). destruct (Nat.eqb_spec (engine_groups en') (num_capture_groups n)) as [Hg|]; [|discriminate].
    cbn [andb] in H. destruct (fields_fit os l) eqn:Ef; [|discriminate]. injection H as -> ->. apply fields_fit_iff in Ef as ->. split; [|reflexivity].
    unfold with_ere. rewrite Hp, En. cbn [bind]. rewrite Eo. cbn [bind]. rewrite Ee. cbn [bind]. now rewrite Hg, Nat.eqb_refl.
  - intros [H ->]. apply with_ere_ok in H as (e & Hp & H). apply bind_ok in H as (n & En & H). apply bind_ok in H as (os & Eo & H). apply bind_ok in H as (en' & Ee & H).
    destruct (Nat.eqb_spec (engine_groups en') (num_capture_groups n)) as [Hg|]; [|discriminate]. injection H as -> ->.
    unfold with_ere. rewrite Hp, En. cbn [bind]. rewrite Eo. cbn [bind]. rewrite map_length, Nat.eqb_refl, Ee. cbn [bind]. rewrite Hg, Nat.eqb_refl. cbn [andb].
    assert (F : fields_fit opts (map field_of opts) = true) by now apply fields_fit_iff. now rewrite F.
Qed.
Lemma attr_length s en opts : attr_compile s = Ok (en, opts) -> compiled s en /\ length opts = engine_groups en.
Proof.
  intros H. apply with_ere_ok in H as (e & Hp & H). apply bind_ok in H as (n & En & H). apply bind_ok in H as (os & Eo & H). apply bind_ok in H as (en' & Ee & H).
  destruct (Nat.eqb_spec (engine_groups en') (num_capture_groups n)) as [Hg|]; [|discriminate]. injection H as -> ->. split; [left; unfold compile_regex, with_ere; now rewrite Hp|].
  apply mapM_length in Eo. rewrite seq_length in Eo. lia.
Qed.
Lemma attr_values cs : forall opts k fs, mapM (fun p : nat * bool => attr_field cs (fst p) (snd p)) (combine (seq k (length opts)) opts) = Ok fs -> fs = map (fun i => nth i cs None) (seq k (length opts)).
Proof.
  induction opts as [|o opts IH]; intros k fs H; cbn in H; [now injection H as <-|]. apply bind_ok in H as (x & Ex & H). apply bind_ok in H as (r & Er & H). injection H as <-.
  cbn. f_equal; [|now apply IH]. unfold attr_field in Ex. destruct (nth k cs None); [congruence|]. destruct o; [congruence|discriminate].
Qed.
Lemma map_nth_seq {A} (d : A) l : map (fun i => nth i l d) (seq 0 (length l)) = l.
Proof.
  apply nth_ext with (d := d) (d' := d); [now rewrite map_length, seq_length|]. intros i Hi. rewrite map_length, seq_length in Hi.
  rewrite (nth_indep _ d (nth 0 l d)) by (now rewrite map_length, seq_length). change (nth 0 l d) with ((fun i => nth i l d) 0). rewrite map_nth, seq_nth by assumption. reflexivity.
Qed.
Lemma attr_same s en opts T : attr_compile s = Ok (en, opts) -> Forall scalar s -> Forall scalar T -> attr_exec en opts T = engine_exec en T.
Proof.
  intros H Hs HT. destruct (attr_total s en opts T H Hs HT) as (o & Eo). rewrite Eo. destruct (attr_length s en opts H) as [Hc Hl].
  unfold attr_exec in Eo. apply bind_ok in Eo as (r & Er & Eo). rewrite Er. destruct r as [cs|]; [|now injection Eo as <-]. apply bind_ok in Eo as (fs & Ef & Eo). injection Eo as <-.
  destruct (compiled_parsed s en Hc Hs) as (e & Hg). destruct (compiled_unique s en e Hc Hs Hg) as (_ & _ & n & _ & _ & Hr). destruct (sound_spans e n en T cs Hr HT Er) as [Hlen _].
  apply attr_values in Ef. subst fs. do 2 f_equal. rewrite Hl, <- Hlen. apply map_nth_seq.
Qed.
Lemma attr_string s en opts T cs k : attr_compile s = Ok (en, opts) -> Forall scalar s -> Forall scalar T -> engine_exec en T = Ok (Some cs) -> nth_error opts k = Some false -> exists sp, nth_error cs k = Some (Some sp).
Proof.
  intros H Hs HT Ex Hk. assert (Ea := attr_same s en opts T H Hs HT). rewrite Ex in Ea. unfold attr_exec in Ea. rewrite Ex in Ea. cbn [bind] in Ea. apply bind_ok in Ea as (fs & Ef & Ea). injection Ea as ->.
  destruct (mapM_In _ _ _ Ef k (k, false)) as (y & Ey & Hy).
  - assert (k < length opts) by (apply nth_error_Some; congruence). rewrite (nth_error_nth' _ (0, false)) by (rewrite enumerate_length; lia). rewrite nth_enumerate by assumption. now rewrite (nth_error_nth _ _ _ Hk).
  - cbn [fst snd] in Hy. unfold attr_field in Hy. destruct (nth k cs None) as [sp|] eqn:En; [|discriminate]. injection Hy as <-. eauto.
Qed.
Lemma attr_room s en opts e T i j L k : attr_compile s = Ok (en, opts) -> Forall scalar s -> G_ere e s -> Forall scalar T -> matches T e i j L -> last_of k L <> None -> k < length opts.
Proof.
  intros H Hs Hg HT Hm Hk. destruct (attr_length s en opts H) as [Hc Hl]. destruct (compiled_unique s en e Hc Hs Hg) as (_ & _ & n & En & Ha & _). assert (K := automaton_uses e n T i j L k Ha HT Hm Hk).
  apply with_ere_ok in H as (e' & Hp & H). apply parse_iff in Hp. assert (e' = e) as -> by (eapply grammar_unique; eauto). rewrite En in H. cbn [bind] in H. apply bind_ok in H as (os & Eo & H). apply bind_ok in H as (en' & Ee & H).
  destruct (Nat.eqb_spec (engine_groups en') (num_capture_groups n)) as [Hgr|]; [|discriminate]. injection H as -> ->. lia.
Qed.
Lemma attr_possible s en e T i j L : compile_regex s = Ok en -> Forall scalar s -> G_ere e s -> ~ is_dfa en -> Forall scalar T -> matches T e i j L -> last_of (groups e) L <> None -> exists opts, attr_compile s = Ok (en, opts).
Proof.
  intros H Hs Hg Hd HT Hm Hk. assert (Hc : compiled s en) by now left. destruct (compiled_unique s en e Hc Hs Hg) as (_ & _ & n & En & Ha & _).
  assert (K := automaton_uses e n T i j L _ Ha HT Hm Hk). assert (K' := automaton_count e n Ha).
  destruct (compiled_counted s en Hc Hs) as (e' & Hg' & Hn). assert (e' = e) as -> by (eapply grammar_unique; eauto). assert (B := counted_bound e en Hn). assert (U := counted_uses e en T i j L _ Hn Hd HT Hm Hk).
  assert (Hne : n <> []) by (intros ->; destruct Ha as (_ & Ha & _); cbn in Ha; lia).
  destruct (mapM_ok (capture_group_is_optional n) (seq 0 (num_capture_groups n))) as (opts & Eo).
  { intros k _. apply (optional_parsed s e n k); auto. }
  exists opts.
  apply with_ere_ok in H as (e' & Hp & H). assert (Hp' := Hp). apply parse_iff in Hp'. assert (e' = e) as -> by (eapply grammar_unique; eauto).
  unfold attr_compile, with_ere. rewrite Hp, En. cbn [bind]. rewrite Eo. cbn [bind]. rewrite H. cbn [bind]. replace (engine_groups en) with (num_capture_groups n) by lia. now rewrite Nat.eqb_refl.
Qed.
