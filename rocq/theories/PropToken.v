(** Keywords, runs of characters, fields: C68, C69, C70. *)
From Coq Require Import String.
From Verif Require Import PStrip PAll PCount PToken PClassRun PFields SpecLiteral SpecToken SpecGroups.
Open Scope nat_scope.
Open Scope list_scope.

(** C68.  A list of strings written as alternatives, each in parentheses: however it is compiled, [exec] reports the first place in the text where
    one of them stands, and there the first one of the list; its group is that place, and no other group takes part. *)
Theorem C68_keywords : forall w0 ws en T, compiled (group_any (w0 :: ws)) en -> Forall (Forall scalar) (w0 :: ws) -> Forall scalar T ->
  exists o, engine_exec en T = Ok o /\ engine_test en T = Ok (match o with Some _ => true | None => false end) /\
    match o with
    | Some cs => exists U k w, first_of (w0 :: ws) T U k w /\ S k < List.length cs /\ List.length cs <= S (List.length (w0 :: ws)) /\ (~ is_dfa en -> List.length cs = S (List.length (w0 :: ws))) /\
                   cs = map (fun m => if (m =? 0) || (m =? S k) then Some (bytes_of U, bytes_of U + bytes_of w) else None) (seq 0 (List.length cs))
    | None => forall w U, In w (w0 :: ws) -> ~ stands false false w T U
    end.
Proof. exact keys_find. Qed.
Print Assumptions C68_keywords.
(** Without the parentheses there is only the place. *)
Theorem C68_plain : forall w0 ws en T, compiled (quote_any (w0 :: ws)) en -> Forall (Forall scalar) (w0 :: ws) -> Forall scalar T ->
  exists o, engine_exec en T = Ok o /\ engine_test en T = Ok (match o with Some _ => true | None => false end) /\
    match o with
    | Some cs => exists U k w, first_of (w0 :: ws) T U k w /\ cs = [Some (bytes_of U, bytes_of U + bytes_of w)]
    | None => forall w U, In w (w0 :: ws) -> ~ stands false false w T U
    end.
Proof. exact words_first. Qed.
Print Assumptions C68_plain.
Theorem C68_compiles : forall w0 ws, Forall (Forall scalar) (w0 :: ws) ->
  (exists en, compile_regex (group_any (w0 :: ws)) = Ok en) /\ (exists en, compile_flat (group_any (w0 :: ws)) = Ok en) /\ exists en, compile_flat_u8 (group_any (w0 :: ws)) = Ok en.
Proof. exact keys_compile. Qed.
Print Assumptions C68_compiles.
(** The shorter keyword comes first in the list and wins; at an earlier place the later one wins. *)
Example C68_case : group_any [s2l "if"; s2l "iff"; s2l "*"] = s2l "(if)|(iff)|(\*)" /\
  (do en <- compile_regex (group_any [s2l "if"; s2l "iff"; s2l "*"]); mapM (engine_exec en) [s2l "x iff"; s2l "*if"; s2l "else"]) =
    Ok [Some [Some (2, 4); Some (2, 4); None; None]; Some [Some (0, 1); None; None; Some (0, 1)]; None] /\
  (do en <- compile_dfa (group_any [[]; []]); do en' <- compile_flat (group_any [[]; []]); do x <- engine_exec en (s2l "ba"); do y <- engine_exec en' (s2l "ba"); Ok (x, y)) = Ok (Some [Some (0, 0); Some (0, 0)], Some [Some (0, 0); Some (0, 0); None]).
Proof. split; [|split]; vm_compute; reflexivity. Qed.

(** C69.  A character, a dot or a bracket expression with any quantifier: however it is compiled, [exec] reports the first place in the text where the
    characters of the class stand in an allowed number, and there the longest such string, or the shortest if the quantifier is lazy. *)
Theorem C69_run : forall a q t u en T, compiled (t ++ u) en -> G_atom a t -> G_quant q u -> Forall scalar (t ++ u) -> Forall scalar T ->
  exists o, engine_exec en T = Ok o /\ engine_test en T = Ok (match o with Some _ => true | None => false end) /\
    match o with
    | Some cs => exists U R, best_run a q T U R /\ cs = [Some (bytes_of U, bytes_of U + bytes_of R)]
    | None => forall U R, ~ run_of a q T U R
    end.
Proof. exact run_finds. Qed.
Print Assumptions C69_run.
(** It compiles if it can match anything. *)
Theorem C69_compiles : forall a q t u T U R, G_atom a t -> G_quant q u -> Forall scalar (t ++ u) -> Forall scalar T -> run_of a q T U R ->
  (exists en, compile_flat_u8 (t ++ u) = Ok en) /\ (named_well a -> (exists en, compile_regex (t ++ u) = Ok en) /\ exists en, compile_flat (t ++ u) = Ok en).
Proof. exact run_compiles. Qed.
Print Assumptions C69_compiles.
Example C69_case : mapM (fun p => do en <- compile_regex (s2l p); engine_exec en (s2l "b" ++ [0x20AC%N] ++ s2l "aaac"))
    ["a+"; "a+?"; "a*"; "a{2}"; "a{2,}"; "a{1,2}"; "[^b]+"; "a{4,}"; ".?"; ".{2,3}?"; "a{0,0}"]%string =
  Ok [Some [Some (4, 7)]; Some [Some (4, 5)]; Some [Some (0, 0)]; Some [Some (4, 6)]; Some [Some (4, 7)]; Some [Some (4, 6)]; Some [Some (1, 8)]; None; Some [Some (0, 1)]; Some [Some (0, 4)]; Some [Some (0, 0)]].
Proof. vm_compute. reflexivity. Qed.
Example C69_case_run : best_run (NormalChar 97%N) {| q_type := QPlus; q_alt := false |} (s2l "baac") (s2l "b") (s2l "aa") /\ G_atom (NormalChar 97%N) (s2l "a") /\ G_quant {| q_type := QPlus; q_alt := false |} (s2l "+").
Proof.
  split; [|split; [apply Ga_char; cbn; intuition discriminate|apply Gq_default, Gq_plus]]. split.
  - split; [exists (s2l "c"); reflexivity|]. split; [repeat constructor|cbn; auto].
  - intros U R ((V & E) & HF & Hq). cbn in Hq. destruct U as [|x [|y [|z U]]]; cbn [List.length].
    + destruct R as [|r R]; [cbn in Hq; exfalso; inversion Hq|]. inversion HF as [|? ? H1 _]; subst. cbn in H1. subst r. discriminate E.
    + right. split; [reflexivity|]. destruct R as [|r1 [|r2 [|r3 R]]]; cbn; auto. exfalso. inversion HF as [|? ? _ HF1]; subst. inversion HF1 as [|? ? _ HF2]; subst. inversion HF2 as [|? ? H3 _]; subst. cbn in H3. subst r3. discriminate E.
    + left. cbn. auto.
    + left. cbn. apply le_n_S, le_n_S, Nat.le_0_l.
Qed.

(** C70.  The fields of a record: the pattern for [k + 1] strings without a separator, in parentheses, with separators between them, between [^] and [$].
    However it is compiled, [exec] succeeds on exactly the texts that consist of [k + 1] such fields, and reports the byte ranges of the fields, all of them. *)
Theorem C70_fields : forall s k en T, compiled (fields_text s k) en -> scalar s -> Forall scalar T ->
  exists o, engine_exec en T = Ok o /\ engine_test en T = Ok (match o with Some _ => true | None => false end) /\
    match o with
    | Some cs => exists Fs, List.length Fs = S k /\ Forall (fun F => ~ In s F) Fs /\ T = join s Fs /\ cs = Some (0, bytes_of T) :: field_spans s 0 Fs
    | None => forall Fs, List.length Fs = S k -> Forall (fun F => ~ In s F) Fs -> T <> join s Fs
    end.
Proof. exact fields_find. Qed.
Print Assumptions C70_fields.
(** The default macro compiles it for two fields or more, the lockstep engines always. *)
Theorem C70_compiles : forall s k, scalar s -> (0 < k -> exists en, compile_regex (fields_text s k) = Ok en) /\ (exists en, compile_flat (fields_text s k) = Ok en) /\ exists en, compile_flat_u8 (fields_text s k) = Ok en.
Proof. exact fields_compile. Qed.
Print Assumptions C70_compiles.
(** Its matches of one text all give the same captures. *)
Theorem C70_one_answer : forall s k, exists e, G_ere e (fields_text s k) /\ one_answer e.
Proof. intros s k. exists (fields s k). split; [apply fields_grammar|apply fields_one]. Qed.
Print Assumptions C70_one_answer.
(** So parsing what has been joined gives it back. *)
Theorem C70_round_trip : forall s k en Fs, compiled (fields_text s k) en -> scalar s -> List.length Fs = S k -> Forall (fun F => ~ In s F /\ Forall scalar F) Fs ->
  engine_exec en (join s Fs) = Ok (Some (Some (0, bytes_of (join s Fs)) :: field_spans s 0 Fs)).
Proof.
  intros s k en Fs H Hs Hl HF. assert (HF1 : Forall (fun F => ~ In s F) Fs) by (eapply Forall_impl; [|exact HF]; cbv beta; tauto).
  assert (HT : Forall scalar (join s Fs)).
  { clear - HF Hs. induction HF as [|F Fs [_ H] HF IH]; [constructor|]. destruct Fs as [|G Fs]; [exact H|]. change (join s (F :: G :: Fs)) with (F ++ s :: join s (G :: Fs)). apply Forall_app. split; [assumption|]. now constructor. }
  destruct (fields_find s k en (join s Fs) H Hs HT) as (o & Eo & _ & Ho). rewrite Eo. destruct o as [cs|]; [|exfalso; now apply (Ho Fs)].
  destruct Ho as (Fs' & L' & F' & E & ->). rewrite (join_inj s Fs Fs'); auto. congruence.
Qed.
Print Assumptions C70_round_trip.
Example C70_case : fields_text (ch ",") 2 = s2l "^([^,]*),([^,]*),([^,]*)$" /\ fields_text (ch "|") 1 = s2l "^([^|]*)\|([^|]*)$" /\
  (do en <- compile_regex (fields_text (ch ",") 2); mapM (engine_exec en) [s2l "ab,," ++ [0x20AC%N]; s2l "ab,c"; s2l ",,,"]) = Ok [Some [Some (0, 7); Some (0, 2); Some (3, 3); Some (4, 7)]; None; None] /\
  join (ch ",") [s2l "ab"; []; [0x20AC%N]] = s2l "ab,," ++ [0x20AC%N].
Proof. split; [|split; [|split]]; vm_compute; reflexivity. Qed.
(** A single field the default macro does not take. *)
Example C70_case_single : compile_regex (fields_text (ch ",") 0) = NoCompile /\ (do en <- compile_flat (fields_text (ch ",") 0); mapM (engine_exec en) [s2l "ab"; s2l ","]) = Ok [Some [Some (0, 2); Some (0, 2)]; None].
Proof. split; vm_compute; reflexivity. Qed.
