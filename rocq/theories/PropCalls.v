(** The functions generated by the one-pass macro do not recurse: C73. *)
From Coq Require Import String Lia.
From Verif Require Import PCalls SpecAuto SpecCalls.
Open Scope nat_scope.
Open Scope list_scope.

(** C73.  The functional form is generated for exactly the automata without a cycle. *)
Theorem C73_choice : forall s e n m op, parse_str s = ROk e -> Forall scalar s -> working_new (tree_of e) = Ok n -> u8_new n = Ok m -> m <> [] -> op_make m = Ok (Some op) ->
  (no_cycle m <-> exists runs, op_k op = OpFun runs) /\ (no_cycle m \/ op_k op = OpVm).
Proof.
  intros s e n m op Hp Hs En Em Hm Ho. assert (HM := parsed_u8_ne s e Hp Hs n m En Em Hm). destruct (op_made e m op HM Ho) as [[E H]|(runs & rk & E & (l & H) & _)].
  - split; [|now right]. rewrite E. split; [|intros (r & D); discriminate]. intros Hc. destruct H. destruct HM as (M1 & M2 & M3 & _).
    destruct (topological_spec m (proj1 (closed_wf m) (ok_wf _ M1)) ltac:(lia)) as (o & Eo & H). rewrite Eo. destruct o as [l|]; [eauto|].
    destruct H as [(x & t & _ & H1 & H2)|(x & H1 & H2)]; [destruct (Hc x t H1 H2)|]. destruct H2. apply conn_linked. now apply M3.
  - destruct HM as (M1 & M2 & _). destruct (topological_spec m (proj1 (closed_wf m) (ok_wf _ M1)) ltac:(lia)) as (o & Eo & Hx). rewrite H in Eo. injection Eo as <-. split; [|left; apply Hx]. split; [eauto|]. intros _. apply Hx.
Qed.
Print Assumptions C73_choice.

(** Functions active at the same time are different, so there are never more of them than states. *)
Theorem C73_no_recursion : forall s e n m op runs l, parse_str s = ROk e -> Forall scalar s -> working_new (tree_of e) = Ok n -> u8_new n = Ok m -> m <> [] -> op_make m = Ok (Some op) ->
  op_k op = OpFun runs -> nested (calls (op_tab op) runs) l -> NoDup l /\ length l <= length m.
Proof.
  intros s e n m op runs l Hp Hs En Em Hm Ho Hk Hl. assert (HM := parsed_u8_ne s e Hp Hs n m En Em Hm). destruct (op_made e m op HM Ho) as [[E H]|(runs' & rk & E & _ & Htab & K1 & K2 & Hg)]; [congruence|]. assert (runs' = runs) as -> by congruence.
  destruct HM as (M1 & M2 & M3 & M4 & M5 & _). apply (nested_spec m M1 ltac:(lia) M5 (op_tab op) Htab rk K1 K2 runs Hg l Hl).
Qed.
Print Assumptions C73_no_recursion.

(** Whatever the text, the answer is there with as many nested calls as there are states. *)
Theorem C73_depth : forall s e n m op runs T k, parse_str s = ROk e -> Forall scalar s -> working_new (tree_of e) = Ok n -> u8_new n = Ok m -> m <> [] -> op_make m = Ok (Some op) ->
  op_k op = OpFun runs -> Forall scalar T -> length m <= k ->
  fun_test k (op_tab op) runs 0 true (utf8 T) = op_test op T /\
  exists b, fun_exec k (op_tab op) runs 0 true 0 (no_bounds (op_groups op)) (utf8 T) = Ok b /\ op_exec op T = run_finish T b.
Proof. intros s e n m op runs T k Hp Hs En Em Hm Ho Hk HT Hle. apply (op_depth e m op runs T k (parsed_u8_ne s e Hp Hs n m En Em Hm) Ho Hk HT Hle). Qed.
Print Assumptions C73_depth.

(** C62.  Runs end at different states: no state is passed by two of them. *)
Theorem C62_apart : forall s o runs i j r r', compile_one_pass s = Ok (EOnePass o) -> Forall scalar s -> op_k o = OpFun runs ->
  nth_error runs i = Some (RStart r) -> nth_error runs j = Some (RStart r') -> run_end r = run_end r' -> i = j.
Proof.
  intros s o runs i j r r' H Hs Ek Hi Hj Ee. unfold compile_one_pass in H. apply with_ere_ok in H as (e & Hp & H). apply bind_ok in H as (n & En & H). apply bind_ok in H as (m & Em & H). apply bind_ok in H as (op & Eo & H).
  destruct op as [op|]; [|discriminate]. injection H as ->.
  assert (Hm : m <> []) by (intros ->; discriminate). assert (HM := parsed_u8_ne s e Hp Hs n m En Em Hm). destruct (op_made e m o HM Eo) as [[E _]|(runs' & rk & E & _ & Htab & K1 & K2 & Hl & Hg)]; [congruence|]. assert (runs' = runs) as -> by congruence.
  destruct HM as (M1 & M2 & M3 & M4 & M5 & _). assert (G : forall i r, nth_error runs i = Some (RStart r) -> i < length m /\ sound_at m (op_tab o) i (RStart r)).
  { intros k q Hk. assert (L : k < length m) by (rewrite <- Hl; apply nth_error_Some; congruence). split; [exact L|]. destruct (Hg k L) as [S _]. now rewrite (nth_error_nth _ _ RNone Hk) in S. }
  destruct (G i r Hi) as (L1 & N1 & _ & S1). destruct (G j r' Hj) as (L2 & N2 & _ & S2). rewrite <- Ee in N2. eapply (starts_apart m M1 ltac:(lia) M5 (op_tab o) Htab rk K2); eauto.
Qed.
Print Assumptions C62_apart.
Example C62_case_apart : (do en <- compile_one_pass (s2l "^a(bcd)(ef)g$");
  Ok match en with EOnePass o => match op_k o with OpFun runs => flat_map (fun r => match r with RStart r => [run_end r] | _ => [] end) runs | _ => [] end | _ => [] end) = Ok [7; 11].
Proof. vm_compute. reflexivity. Qed.

(** A pattern without a loop becomes functions, among them that of a run; a pattern with a loop does not.  A deep text is answered with as many nested
    calls as there are states; without nested calls, there is no answer. *)
Example C73_case :
  with_ere (s2l "^a(b|cd)ef$") (fun e => do n <- working_new (tree_of e); do m <- u8_new n; do o <- op_make m;
    match o with
    | Some op => match op_k op with
                 | OpFun runs => do x <- fun_test (List.length m) (op_tab op) runs 0 true (s2l "acdef");
                                 Ok (x, List.length m, existsb (fun r => match r with RStart _ => true | _ => false end) runs, match fun_test 1 (op_tab op) runs 0 true (s2l "acdef") with Ok _ => true | _ => false end)
                 | OpVm => Panic
                 end
    | None => Panic
    end) = Ok (true, 14, true, false) /\
  with_ere (s2l "^a(b|cd)*$") (fun e => do n <- working_new (tree_of e); do m <- u8_new n; do o <- op_make m; Ok (match o with Some op => match op_k op with OpVm => true | _ => false end | None => false end)) = Ok true.
Proof. split; vm_compute; reflexivity. Qed.
