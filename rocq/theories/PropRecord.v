(** Records: fields described by patterns, each followed by its own separator; addresses (C77). *)
From Coq Require Import String.
From Verif Require Import PAll PStrip PCount PLiteral PTemplate PRecord PropLoose SpecGroups SpecLaws SpecRecord.
Open Scope nat_scope.
Open Scope list_scope.

(** C77.  The pattern [^(e1)c1(e2)c2...(en)$] where the fields have no groups and no anchors inside: however it is compiled, it matches exactly the texts
    that are fields joined by the separators, and the groups are fields of the text. *)
Theorem C77_record : forall fs z s en T, compiled s en -> Forall scalar s -> G_ere (record fs z) s ->
  (forall e, In e (map fst fs ++ [z]) -> anchor_free e = true /\ groups e = 0) -> Forall scalar T ->
  exists o, engine_exec en T = Ok o /\ engine_test en T = Ok (match o with Some _ => true | None => false end) /\
    match o with
    | Some cs => exists Fs, record_of fs z Fs /\ T = joined (map snd fs) Fs /\ cs = Some (0, bytes_of T) :: spans_of (map snd fs) 0 Fs
    | None => forall Fs, record_of fs z Fs -> T <> joined (map snd fs) Fs
    end.
Proof.
  intros fs z s en T H Hs Hg Hp HT. apply record_find with s; auto; [apply Hp, in_or_app; right; now left|]. apply Forall_forall. intros f Hf. apply Hp, in_or_app. left. now apply in_map.
Qed.
Print Assumptions C77_record.
(** When no field can contain the separator that follows it, the fields are those that were joined. *)
Theorem C77_round_trip : forall fs z s en Fs, compiled s en -> Forall scalar s -> G_ere (record fs z) s ->
  (forall e, In e (map fst fs ++ [z]) -> anchor_free e = true /\ groups e = 0) -> (forall e c a, In (e, c) fs -> In a (atoms e) -> ~ atom_has a c) ->
  record_of fs z Fs -> Forall (Forall scalar) Fs -> Forall scalar (map snd fs) ->
  engine_exec en (joined (map snd fs) Fs) = Ok (Some (Some (0, bytes_of (joined (map snd fs) Fs)) :: spans_of (map snd fs) 0 Fs)).
Proof.
  intros fs z s en Fs H Hs Hg Hp Ha HF H1 H2. destruct (C77_record fs z s en (joined (map snd fs) Fs) H Hs Hg Hp (joined_scalar _ _ H2 H1)) as (o & E & _ & Ho). rewrite E. destruct o as [cs|]; [|exfalso; now apply (Ho Fs)].
  destruct Ho as (Gs & HG & EG & ->). assert (Fs = Gs) as <-; [|reflexivity]. apply (joined_inj z fs); auto. apply Forall_forall. intros [e c] Hi a Hin. now apply (Ha e c a).
Qed.
Print Assumptions C77_round_trip.
(** Such a pattern compiles by the default macro. *)
Theorem C77_compiles : forall fs z s Fs, Forall scalar s -> G_ere (record fs z) s ->
  (forall e, In e (map fst fs ++ [z]) -> anchor_free e = true /\ groups e = 0 /\ forall a, In a (atoms e) -> named_well a) -> (forall e c a, In (e, c) fs -> In a (atoms e) -> ~ atom_has a c) ->
  record_of fs z Fs -> Forall (Forall scalar) Fs -> Forall scalar (map snd fs) -> fs <> [] -> exists en, compile_regex s = Ok en.
Proof.
  intros fs z s Fs Hs Hg Hp Ha HF H1 H2 Hne. assert (Hz : In z (map fst fs ++ [z])) by (apply in_or_app; right; now left). apply Hp in Hz. assert (Hf : forall f, In f fs -> In (fst f) (map fst fs ++ [z])) by (intros f Hf; apply in_or_app; left; now apply in_map).
  apply (record_compiles fs z s Fs); auto.
  - split; apply Hz.
  - apply Forall_forall. intros f Hi. split; apply (Hp (fst f)); auto.
  - apply Forall_forall. intros [e c] Hi a Hin. now apply (Ha e c a).
  - intros a [Hi|(f & Hi & Hin)]; [now apply Hz|]. now apply (Hp (fst f) (Hf f Hi)).
Qed.
Print Assumptions C77_compiles.
(** The addresses of the benchmark: exactly four numbers below 256 in decimal, and the groups are the numbers. *)
Theorem C77_ipv4 : forall en T, compiled ipv4 en -> Forall scalar T ->
  (forall a b c d, (a < 256 /\ b < 256 /\ c < 256 /\ d < 256)%N -> T = address a b c d -> engine_test en T = Ok true /\
     engine_exec en T = Ok (Some (let x := List.length (decimal a) in let y := S (x + List.length (decimal b)) in let z := S (y + List.length (decimal c)) in
       [Some (0, List.length T); Some (0, x); Some (S x, y); Some (S y, z); Some (S z, List.length T)]))) /\
  ((forall a b c d, (a < 256 /\ b < 256 /\ c < 256 /\ d < 256)%N -> T <> address a b c d) -> engine_test en T = Ok false /\ engine_exec en T = Ok None).
Proof. exact ipv4_answer. Qed.
Print Assumptions C77_ipv4.
Example C77_case_ipv4 : map decimal [0; 7; 10; 99; 100; 205; 255]%N = [s2l "0"; s2l "7"; s2l "10"; s2l "99"; s2l "100"; s2l "205"; s2l "255"] /\ address 192 168 0 255 = s2l "192.168.0.255" /\ taken ipv4 = [true; true; true; true; false; false] /\
  (do en <- compile_regex ipv4; mapM (engine_exec en) [s2l "192.168.0.255"; s2l "192.168.0.256"; s2l "192.168.00.25"; s2l "1.2.3"]) = Ok [Some [Some (0, 13); Some (0, 3); Some (4, 7); Some (8, 9); Some (10, 13)]; None; None; None].
Proof. split; [|split; [|split]]; vm_compute; reflexivity. Qed.
(** A record with different separators, and characters of several bytes. *)
Definition name : ere := [[PQuant (XAtom (NonmatchingList [Single 61%N])) {| q_type := QPlus; q_alt := false |}]].
Definition number : ere := [[PQuant (XAtom (MatchingList [Class Digit])) {| q_type := QStar; q_alt := false |}]; [PSingle (XAtom (NormalChar 45%N))]].
Example C77_case : parse_str (s2l "^([^=]+)=([[:digit:]]*|-);(.)$") = ROk (record [(name, 61%N); (number, 59%N)] [[PSingle (XAtom Dot)]]) /\
  (forall e, In e [name; number; [[PSingle (XAtom Dot)]]] -> anchor_free e = true /\ groups e = 0) /\
  joined [61%N; 59%N] [[0x20AC; 59]; s2l "12"; [0xE9]]%N = [0x20AC; 59; 61; 49; 50; 59; 0xE9]%N /\
  spans_of [61%N; 59%N] 0 [[0x20AC; 59]; s2l "12"; [0xE9]]%N = [Some (0, 4); Some (5, 7); Some (8, 10)] /\
  (do en <- compile_regex (s2l "^([^=]+)=([[:digit:]]*|-);(.)$"); mapM (engine_exec en) [[0x20AC; 59; 61; 49; 50; 59; 0xE9]; [61; 49; 59; 49]]%N) = Ok [Some [Some (0, 10); Some (0, 4); Some (5, 7); Some (8, 10)]; None].
Proof.
  split; [vm_compute; reflexivity|]. split; [|split; [|split]; vm_compute; reflexivity]. intros e [<-|[<-|[<-|[]]]]; split; reflexivity.
Qed.
Example C77_case_record : record_of [(name, 61%N); (number, 59%N)] [[PSingle (XAtom Dot)]] [[0x20AC; 59]; s2l "-"; [0xE9]]%N /\ (forall e c a, In (e, c) [(name, 61%N); (number, 59%N)] -> In a (atoms e) -> ~ atom_has a c).
Proof.
  split.
  - constructor; [|constructor; [|constructor; [|constructor]]].
    + eexists. eexists. split; [|reflexivity]. apply ma_here. eapply mb_cons; [|apply mb_nil; reflexivity]. apply mp_quant with 2; [cbn; auto|]. eapply mi_more; [eapply me_atom; [reflexivity|]|eapply mi_more; [eapply me_atom; [reflexivity|]|apply mi_none; auto]]; cbn; intros (t & [<-|[]] & E); cbn in E; discriminate E.
    + eexists. eexists. split; [|reflexivity]. apply ma_later, ma_here. eapply mb_cons; [|apply mb_nil; reflexivity]. apply mp_single. eapply me_atom; [reflexivity|]. reflexivity.
    + eexists. eexists. split; [|reflexivity]. apply ma_here. eapply mb_cons; [|apply mb_nil; reflexivity]. apply mp_single. eapply me_atom; [reflexivity|]. cbn. discriminate.
  - intros e c a [E|[E|[]]] Ha; injection E as <- <-; cbn in Ha; repeat destruct Ha as [<-|Ha]; try destruct Ha; cbn.
    + intros H. apply H. exists (Single 61%N). split; [now left|reflexivity].
    + intros (t & [<-|[]] & H). destruct H as [_ H]. now apply H.
    + discriminate.
Qed.
