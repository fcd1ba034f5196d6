(** The order in which epsilon propagations are found before the match has started. *)
From Verif Require Export PLazyWorking PPrioDfa.
From Coq Require Import ZifyBool ZifyNat.
Open Scope nat_scope.
Open Scope list_scope.
Set Default Proof Using "Type".

Definition startedb (p : eprop) : bool := existsb (tag_eqb (TagS 0)) (ep_tags p).
Definition fresh (p : eprop) : Prop := p = mkEp (ep_state p) [] false false.
Lemma started_step th e : startedb th = true -> startedb (ep_step th e) = true.
Proof.
  unfold startedb. rewrite !(existsb_eqb_iff _ _ _ tag_eqb_iff). intros H. destruct e as [u []]; cbn; auto; apply In_add_tag; now right.
Qed.

Section Order.
  Context {A : Type}.
  Variable n : nfa A.
  Definition creads (x : nat * A) : lev A := LC (fst x) (snd x).
  Definition levp (p : eprop) : list (lev A) := if startedb p then [LS] else map creads (trans (get n (ep_state p))).
  Lemma fl_app_inv l1 : forall l2 r, fl n (l1 ++ l2) r -> exists r1 r2, fl n l1 r1 /\ fl n l2 r2 /\ r = r1 ++ r2.
  Proof.
    induction l1 as [|x l1 IH]; intros l2 r H; cbn in H; [exists [], r; split; [constructor|auto]|].
    inversion H as [|t a l r0 H'|t l r0 H'|t l r0 r1 H0 H']; subst; destruct (IH _ _ H') as (x1 & x2 & H1 & H2 & ->).
    - exists (LC t a :: x1), x2. split; [now constructor|auto].
    - exists (LS :: x1), x2. split; [now constructor|auto].
    - exists (r0 ++ x1), x2. split; [now constructor|]. split; [assumption|apply app_assoc].
  Qed.
  Lemma fl_syms_inv l r : fl n (map (fun t => ASym (fst t) (snd t)) l) r -> r = map creads l.
  Proof. revert r; induction l as [|x l IH]; intros r H; cbn in H; inversion H; subst; [reflexivity|]. cbn. f_equal. auto. Qed.
  Lemma sb_refl (r : list (lev A)) : sb (fun a : A => a) eq r r.
  Proof. induction r as [|[|t a] r IH]; [constructor|now apply sb_start|now apply sb_sym]. Qed.

  Lemma traverse_started fuel : forall th out out', startedb th = true -> traverse fuel n th out = Ok out' ->
    exists new, out' = out ++ new /\ Forall (fun p => startedb p = true) new.
  Proof.
    induction fuel as [|f IH]; intros th out out' Hs E; [discriminate|]. cbn [traverse] in E. set (F := fun out0 e => _) in E.
    assert (G : forall es o o', foldM F es o = Ok o' -> exists new, o' = o ++ new /\ Forall (fun p => startedb p = true) new).
    { induction es as [|e es IHe]; intros o o' H; cbn [foldM] in H; [injection H as <-; exists []; rewrite app_nil_r; auto|].
      unfold F at 1 in H. cbn zeta in H. destruct (existsb (eprop_eqb (ep_step th e)) o); [exact (IHe _ _ H)|].
      destruct (traverse f n (ep_step th e) o) as [o1| | |] eqn:Et; cbn [bind] in H; try discriminate.
      destruct (IH _ _ _ (started_step th e Hs) Et) as (n1 & -> & H1). destruct (IHe _ _ H) as (n2 & -> & H2).
      exists (n1 ++ n2). split; [now rewrite app_assoc|]. apply Forall_app. auto. }
    destruct (G _ _ _ E) as (new & -> & H). exists (th :: new). split; [now rewrite <- app_assoc|]. now constructor.
  Qed.
  Lemma lev_started new : Forall (fun p => startedb p = true) new -> sb (fun a : A => a) eq (flat_map levp new) [LS].
  Proof. induction 1 as [|p l Hp H IH]; cbn; [constructor|]. unfold levp at 1. rewrite Hp. cbn. now apply sb_more. Qed.

  Lemma traverse_fresh fuel : forall th out out' r, fresh th -> fl n (edges (get n (ep_state th))) r -> traverse fuel n th out = Ok out' ->
    exists new, out' = out ++ new /\ sb (fun a : A => a) eq (flat_map levp new) r /\ Forall (fun p => startedb p = true \/ fresh p) new.
  Proof.
    induction fuel as [|f IH]; intros th out out' r Hth Hfl E; [discriminate|]. cbn [traverse] in E. set (F := fun out0 e => _) in E.
    assert (G : forall es o o' r, fl n (map (fun e => AEps (fst e) (snd e)) es) r -> foldM F es o = Ok o' ->
      exists new, o' = o ++ new /\ sb (fun a : A => a) eq (flat_map levp new) r /\ Forall (fun p => startedb p = true \/ fresh p) new).
    { induction es as [|[u e] es IHe]; intros o o' r0 Hr H; cbn [foldM] in H.
      - injection H as <-. exists []. rewrite app_nil_r. split; [reflexivity|]. split; [constructor|constructor].
      - unfold F at 1 in H. cbn zeta in H. cbn [map fst snd] in Hr.
        assert (X : exists r1 r2, r0 = r1 ++ r2 /\ fl n (map (fun e => AEps (fst e) (snd e)) es) r2 /\ ((e = ESC 0 /\ r1 = [LS]) \/ (e = ENone /\ fl n (edges (get n u)) r1))).
        { inversion Hr as [| |t l r1 H'|t l r1 r2 H0 H']; subst; [exists [LS], r1|exists r1, r2]; (split; [reflexivity|]); (split; [assumption|auto]). }
        destruct X as (r1 & r2 & -> & Hr2 & Hx).
        destruct (existsb (eprop_eqb (ep_step th (u, e))) o).
        + cbn [bind] in H. destruct (IHe _ _ _ Hr2 H) as (new & -> & H1 & H2). exists new. split; [reflexivity|]. split; [|assumption].
          change (flat_map levp new) with ([] ++ flat_map levp new). apply sb_app; [constructor|assumption].
        + destruct (traverse f n (ep_step th (u, e)) o) as [o1| | |] eqn:Et; cbn [bind] in H; try discriminate.
          assert (Y : exists n1, o1 = o ++ n1 /\ sb (fun a : A => a) eq (flat_map levp n1) r1 /\ Forall (fun p => startedb p = true \/ fresh p) n1).
          { destruct Hx as [[-> ->]|[-> Hf]].
            - destruct (traverse_started f (ep_step th (u, ESC 0)) o o1) as (n1 & -> & H1); [|exact Et|].
              + unfold startedb. apply (existsb_eqb_iff _ _ _ tag_eqb_iff). cbn. apply In_add_tag. now left.
              + exists n1. split; [reflexivity|]. split; [now apply lev_started|]. eapply Forall_impl; [|exact H1]. auto.
            - assert (Ef : ep_step th (u, ENone) = mkEp u [] false false) by (rewrite Hth; reflexivity). rewrite Ef in Et. 
              apply (IH (mkEp u [] false false) o o1 r1); [reflexivity|exact Hf|exact Et]. }
          destruct Y as (n1 & -> & Y1 & Y2). destruct (IHe _ _ _ Hr2 H) as (n2 & -> & Z1 & Z2). exists (n1 ++ n2).
          split; [now rewrite app_assoc|]. split; [rewrite flat_map_app; now apply sb_app|]. apply Forall_app. auto. }
    unfold edges in Hfl. apply fl_app_inv in Hfl as (r1 & r2 & H1 & H2 & ->). apply fl_syms_inv in H1. subst r1.
    destruct (G _ _ _ _ H2 E) as (new & -> & X1 & X2). exists (th :: new). split; [now rewrite <- app_assoc|]. split; [|constructor; auto].
    cbn [flat_map]. apply sb_app; [|assumption]. unfold levp. rewrite Hth. cbn. apply sb_refl.
  Qed.
End Order.
