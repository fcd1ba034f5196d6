(** When the captures are read off at fixed offsets (C65). *)
From Coq Require Import String.
From Verif Require Import SpecFixed SpecCaret SpecPriority PFixedAll PAll PStrip.
From Coq Require Import ZifyBool ZifyNat ZifyN.
Open Scope nat_scope.
Open Scope list_scope.

(** C65.  Whichever macro chose the fixed-offset engine: every match of the pattern, in whichever text, takes up the whole text and has
    every group at the same bytes. *)
Theorem C65_sound : forall s e en b offs, compiled s en -> Forall scalar s -> G_ere e s -> en = EFixed b offs -> rigid e.
Proof. exact chosen_rigid. Qed.
Print Assumptions C65_sound.
(** The other way round, the macro chooses it for every such pattern in which every way through passes the same number of [^] and of [$]
    and in which the body of every unbounded repetition reads something. *)
Theorem C65_chosen_partial : forall s e en k l, compile_regex s = Ok en -> Forall scalar s -> G_ere e s -> carets e = Some k -> dollars e = Some l -> loops_read e = true -> rigid e ->
  (exists b offs, en = EFixed b offs) /\ compile_fixed s = Ok en.
Proof. exact rigid_chosen. Qed.
Print Assumptions C65_chosen_partial.
(** So for these patterns the choice is exact. *)
Theorem C65_iff : forall s e en k l, compile_regex s = Ok en -> Forall scalar s -> G_ere e s -> carets e = Some k -> dollars e = Some l -> loops_read e = true ->
  (rigid e <-> exists b offs, en = EFixed b offs).
Proof.
  intros s e en k l H Hs Hg Hk Hl Hr. split; [intros R; eapply rigid_chosen; eauto|]. intros (b & offs & E). eapply chosen_rigid; eauto. now left.
Qed.
Print Assumptions C65_iff.
Definition offsets_of (p : string) : res (option bounds * option nat * option nat * bool) :=
  with_ere (s2l p) (fun e => do en <- compile_regex (s2l p); Ok (match en with EFixed _ o => Some o | _ => None end, carets e, dollars e, loops_read e)).
Example C65_case :
  offsets_of "^(a|[b-x])(c{2}|dd)$" = Ok (Some [(Some 0, Some 3); (Some 0, Some 1); (Some 1, Some 3)], Some 1, Some 1, true) /\
  offsets_of "^a(b|cc)$" = Ok (None, Some 1, Some 1, true) /\ offsets_of "^ab" = Ok (None, Some 1, Some 0, true).
Proof. split; [|split]; vm_compute; reflexivity. Qed.
(** A group inside an alternation does not keep the engine from being chosen, against the comment at fixed_offset.rs:7, if the other
    branches match nothing. *)
Example C65_alternation : offsets_of "^((a)|x{2,1})$" = Ok (Some [(Some 0, Some 1); (Some 0, Some 1); (Some 0, Some 1)], Some 1, Some 1, true).
Proof. vm_compute. reflexivity. Qed.

(** Without the two conditions it is not exact: a repetition of nothing is a cycle, and a way through the automaton that no text can take
    is a way through. *)
Theorem C65_refuted : exists s e en, compile_regex s = Ok en /\ Forall scalar s /\ G_ere e s /\ carets e = Some 1 /\ dollars e = Some 1 /\ rigid e /\
  compile_fixed s = NoCompile /\ ~ exists b offs, en = EFixed b offs.
Proof.
  assert (H : with_ere (s2l "^a(b{0})+c$") (fun e => do en <- compile_regex (s2l "^a(b{0})+c$"); Ok (carets e, dollars e, match en with EFixed _ _ => true | _ => false end)) = Ok (Some 1, Some 1, false)) by (vm_compute; reflexivity).
  assert (P : parse_str (s2l "^a(b{0})+c$") = ROk idle_loop) by (vm_compute; reflexivity).
  apply with_ere_ok in H as (e & He & H). rewrite P in He. injection He as <-. apply bind_ok in H as (en & H1 & H2). injection H2 as H4. apply parse_iff in P.
  exists (s2l "^a(b{0})+c$"), idle_loop, en. split; [assumption|]. split; [repeat constructor|]. split; [assumption|]. split; [reflexivity|]. split; [reflexivity|]. split; [exact idle_rigid|]. split; [vm_compute; reflexivity|].
  intros (b & offs & ->). discriminate H4.
Qed.
Print Assumptions C65_refuted.
Theorem C65_anchors_refuted : exists s e en, compile_regex s = Ok en /\ Forall scalar s /\ G_ere e s /\ loops_read e = true /\ rigid e /\
  compile_fixed s = NoCompile /\ ~ exists b offs, en = EFixed b offs.
Proof.
  assert (H : with_ere (s2l "^(a|$)(^|b)c$") (fun e => do en <- compile_regex (s2l "^(a|$)(^|b)c$"); Ok (loops_read e, match en with EFixed _ _ => true | _ => false end)) = Ok (true, false)) by (vm_compute; reflexivity).
  assert (P : parse_str (s2l "^(a|$)(^|b)c$") = ROk astray_pat) by (vm_compute; reflexivity).
  apply with_ere_ok in H as (e & He & H). rewrite P in He. injection He as <-. apply bind_ok in H as (en & H1 & H2). injection H2 as H3. apply parse_iff in P.
  exists (s2l "^(a|$)(^|b)c$"), astray_pat, en. split; [assumption|]. split; [repeat constructor|]. split; [assumption|]. split; [reflexivity|]. split; [exact astray_rigid|]. split; [vm_compute; reflexivity|].
  intros (b & offs & ->). discriminate H3.
Qed.
Print Assumptions C65_anchors_refuted.
