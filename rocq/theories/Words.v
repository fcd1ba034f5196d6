(** Annotated words: the characters read along a path of an automaton, interleaved with the marks
    (anchors and capture marks) on the way.  Languages of automata and of simplified trees. *)
From Verif Require Export Nfa.
Open Scope nat_scope.
Open Scope list_scope.

Inductive item := IC (c : N) | IM (e : epsk).
Definition word := list item.
(** An [ENone] edge leaves no mark. *)
Definition mark (e : epsk) : word := match e with ENone => [] | _ => [IM e] end.
(** The characters of a word. *)
Fixpoint chars (w : word) : list N :=
  match w with [] => [] | IC c :: w' => c :: chars w' | IM _ :: w' => chars w' end.
(** A word that can be read on a text which is exactly its characters: [^] only before the first
    character, [$] only after the last. *)
Definition valid (w : word) : Prop :=
  (forall u v, w = u ++ IM EStart :: v -> chars u = []) /\
  (forall u v, w = u ++ IM EEnd :: v -> chars v = []).

Lemma chars_app u v : chars (u ++ v) = chars u ++ chars v.
Proof. induction u as [|[c|e] u IH]; cbn; congruence. Qed.
Lemma chars_mark e : chars (mark e) = [].
Proof. destruct e; reflexivity. Qed.
Lemma valid_app_l u v : valid (u ++ v) -> valid u.
Proof.
  intros [H1 H2]. split.
  - intros x y ->. apply (H1 x (y ++ v)). now rewrite <- app_assoc.
  - intros x y ->. assert (E : chars (y ++ v) = []) by (apply (H2 x); now rewrite <- app_assoc).
    rewrite chars_app in E. now apply app_eq_nil in E.
Qed.
Lemma valid_app_r u v : valid (u ++ v) -> valid v.
Proof.
  intros [H1 H2]. split.
  - intros x y ->. assert (E : chars (u ++ x) = []) by (apply (H1 _ y); now rewrite <- app_assoc).
    rewrite chars_app in E. now apply app_eq_nil in E.
  - intros x y ->. apply (H2 (u ++ x)). now rewrite <- app_assoc.
Qed.

Section Path.
  Context {A : Type}.
  Variable check : A -> N -> bool.

  (** [path n s w t]: the word [w] labels a path from [s] to [t]. *)
  Inductive path (n : nfa A) : nat -> word -> nat -> Prop :=
  | p_nil : forall s, path n s [] s
  | p_eps : forall s t e w u, In (t, e) (eps (get n s)) -> path n t w u -> path n s (mark e ++ w) u
  | p_sym : forall s t a c w u, In (t, a) (trans (get n s)) -> check a c = true ->
            path n t w u -> path n s (IC c :: w) u.
  (** The language of an automaton. *)
  Definition lang (n : nfa A) (w : word) : Prop := path n 0 w (length n - 1).

  Lemma path_app n s w1 t w2 u : path n s w1 t -> path n t w2 u -> path n s (w1 ++ w2) u.
  Proof.
    induction 1; intros; cbn; auto.
    - rewrite <- app_assoc. eapply p_eps; eauto.
    - eapply p_sym; eauto.
  Qed.
  Lemma path_eps1 n s t e : In (t, e) (eps (get n s)) -> path n s (mark e) t.
  Proof. intros H. rewrite <- (app_nil_r (mark e)). eapply p_eps; [exact H|apply p_nil]. Qed.
  Lemma path_sym1 n s t a c : In (t, a) (trans (get n s)) -> check a c = true -> path n s [IC c] t.
  Proof. intros. eapply p_sym; eauto using p_nil. Qed.
  (** A path splits at every point of its word. *)
  Lemma path_split n s w u : path n s w u -> forall w1 w2, w = w1 ++ w2 ->
    exists t, path n s w1 t /\ path n t w2 u.
  Proof.
    induction 1 as [s|s t e w u He Hp IH|s t a c w u He Hc Hp IH]; intros w1 w2 E.
    - symmetry in E. apply app_eq_nil in E as [-> ->]. exists s. split; apply p_nil.
    - destruct e; cbn in E.
      1: { destruct (IH _ _ E) as (x & H1 & H2). exists x. split; [|exact H2].
           change w1 with (mark ENone ++ w1). eapply p_eps; eauto. }
      all: destruct w1 as [|i w1];
        [cbn in E; subst w2; exists s; split; [apply p_nil|];
         match goal with |- path _ _ (IM ?e :: ?x) _ => change (IM e :: x) with (mark e ++ x) end; eapply p_eps; eauto
        |injection E as <- E; destruct (IH _ _ E) as (x & H1 & H2); exists x; split; [|exact H2];
         match goal with |- path _ _ (IM ?e :: ?x) _ => change (IM e :: x) with (mark e ++ x) end; eapply p_eps; eauto].
    - destruct w1 as [|i w1].
      + cbn in E; subst w2. exists s. split; [apply p_nil|]. eapply p_sym; eauto.
      + injection E as <- E. destruct (IH _ _ E) as (x & H1 & H2). exists x. split; [|exact H2].
        eapply p_sym; eauto.
  Qed.
  (** Edges out of range do not exist. *)
  Lemma path_range n s w t : path n s w t -> s < length n \/ (t = s /\ w = []).
  Proof.
    destruct 1 as [s|s t e w u He Hp|s t a c w u He Hc Hp]; [now right|left..];
      destruct (Nat.lt_ge_cases s (length n)) as [|Hs]; auto;
      unfold get in He; rewrite nth_overflow in He by exact Hs; destruct He.
  Qed.
End Path.
Arguments path {A}.
Arguments lang {A}.

(** Repetition of a language. *)
Inductive powL (L : word -> Prop) : nat -> word -> Prop :=
| pow_O : powL L 0 []
| pow_S : forall m u v, L u -> powL L m v -> powL L (S m) (u ++ v).
(** Concatenation of a list of languages. *)
Inductive catL : list (word -> Prop) -> word -> Prop :=
| cat_nil : catL [] []
| cat_cons : forall (L : word -> Prop) Ls u v, L u -> catL Ls v -> catL (L :: Ls) (u ++ v).

Section TreeLang.
  Variable check : atom -> N -> bool.
  (** The language of a simplified tree. *)
  Fixpoint tlang (t : tree) : word -> Prop :=
    match t with
    | TEmpty => fun w => w = []
    | TSymbol a => fun w => exists c, check a c = true /\ w = [IC c]
    | TUnion l => fun w => Exists (fun L => L w) (map tlang l)
    | TCapture t k => fun w => exists v, tlang t v /\ w = IM (ESC k) :: v ++ [IM (EEC k)]
    | TConcat l => catL (map tlang l)
    | TRepeat t n => powL (tlang t) n
    | TUpTo t n _ => fun w => exists m, m <= n /\ powL (tlang t) m w
    | TStar t _ => fun w => exists m, powL (tlang t) m w
    | TStart => fun w => w = [IM EStart]
    | TEnd => fun w => w = [IM EEnd]
    | TNever => fun _ => False
    end.
End TreeLang.

Lemma powL_ext (L M : word -> Prop) n w : (forall w, L w -> M w) -> powL L n w -> powL M n w.
Proof. intros H; induction 1; constructor; auto. Qed.
Lemma powL_app (L : word -> Prop) n m u v : powL L n u -> powL L m v -> powL L (n + m) (u ++ v).
Proof. induction 1; intros; cbn; auto. rewrite <- app_assoc. constructor; auto. Qed.
Lemma powL_catL (L : word -> Prop) n w : powL L n w <-> catL (repeat L n) w.
Proof.
  revert w; induction n as [|n IH]; intros w; cbn; split; intros H; inversion H; subst; try constructor; auto.
  - now apply IH.
  - now apply IH.
Qed.
Lemma catL_app Ls Ms w : catL (Ls ++ Ms) w <-> exists u v, w = u ++ v /\ catL Ls u /\ catL Ms v.
Proof.
  revert w; induction Ls as [|L Ls IH]; intros w; cbn; split.
  - intros H. exists [], w. repeat split; auto. constructor.
  - intros (u & v & -> & H & H'). inversion H; subst. exact H'.
  - intros H. inversion H as [|? ? u v Hu Hv]; subst. apply IH in Hv as (x & y & -> & H1 & H2).
    exists (u ++ x), y. rewrite app_assoc. repeat split; auto. now constructor.
  - intros (u & v & -> & H & H'). inversion H as [|? ? x y Hx Hy]; subst.
    rewrite <- app_assoc. constructor; [exact Hx|]. apply IH. eauto.
Qed.
