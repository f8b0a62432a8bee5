(** [split_face] on any structure whose links are inverse to each other. *)
From Coq Require Import ZArith Bool List Permutation Lia.
From Verif Require Import Outcome Num Order Rmath RectSpec ScanLine VState VLemmas VAelProofs SortProofs MarkProofs.
From Verif Require Import Dcel DcelSpec DcelBase DcelBreak DcelFace DcelLink DcelSplit.
Import ListNotations.
Local Open Scope out.

Section Inv.
  Context {T : Type} {N : Num T}.
  Implicit Types d : dcel T.

  Lemma nx_some d e v : nx d e = Some v <-> exists h, live d e h /\ h_next h = v.
  Proof.
    unfold nx. split.
    - destruct (hv d e) as [h|] eqn:E; cbn; [|discriminate]. intros K; injection K as <-. exists h. split; auto. now apply hv_live.
    - intros (h & L & <-). apply hv_live in L. now rewrite L.
  Qed.
  Lemma pv_some d e v : pv d e = Some v <-> exists h, live d e h /\ h_prev h = v.
  Proof.
    unfold pv. split.
    - destruct (hv d e) as [h|] eqn:E; cbn; [|discriminate]. intros K; injection K as <-. exists h. split; auto. now apply hv_live.
    - intros (h & L & <-). apply hv_live in L. now rewrite L.
  Qed.
  Lemma inverse_views d : inverse_links d <->
    (forall e n, nx d e = Some (Some n) -> pv d n = Some (Some e)) /\
    (forall e n, pv d e = Some (Some n) -> nx d n = Some (Some e)).
  Proof.
    unfold inverse_links. split; intros (H1 & H2); split.
    - intros e n K. apply nx_some in K as (h & L & E). apply pv_some. eauto.
    - intros e n K. apply pv_some in K as (h & L & E). apply nx_some. eauto.
    - intros e h n L E. apply pv_some. apply H1. apply nx_some. eauto.
    - intros e h n L E. apply nx_some. apply H2. apply pv_some. eauto.
  Qed.

  Lemma resplit_inverse d e1 e2 e3 e4 : inverse_links d -> e1 <> e3 ->
    nx d e1 = Some (Some e2) -> nx d e3 = Some (Some e4) -> inverse_links (resplit d e1 e2 e3 e4).
  Proof.
    rewrite !inverse_views. intros (H1 & H2) NE N1 N3.
    assert (P2 := H1 _ _ N1). assert (P4 := H1 _ _ N3).
    assert (N24 : e2 <> e4) by (intros ->; congruence).
    split; intros e n; rewrite resplit_nx, resplit_pv by auto.
    - destruct (nx d e) as [v|] eqn:Ev; cbn; [|discriminate]. intros K; injection K as K.
      destruct (Nat.eqb e1 e) eqn:E1.
      { apply Nat.eqb_eq in E1. subst e. injection K as <-. rewrite P4, Nat.eqb_refl. reflexivity. }
      destruct (Nat.eqb e3 e) eqn:E3.
      { apply Nat.eqb_eq in E3. subst e. injection K as <-. rewrite P2, (proj2 (Nat.eqb_neq e4 e2)), Nat.eqb_refl by auto. reflexivity. }
      subst v. pose proof (H1 _ _ Ev) as Q. rewrite Q. cbn. apply Nat.eqb_neq in E1, E3.
      rewrite (proj2 (Nat.eqb_neq e4 n)), (proj2 (Nat.eqb_neq e2 n)); auto; intros ->; congruence.
    - destruct (pv d e) as [v|] eqn:Ev; cbn; [|discriminate]. intros K; injection K as K.
      destruct (Nat.eqb e4 e) eqn:E1.
      { apply Nat.eqb_eq in E1. subst e. injection K as <-. rewrite N1, Nat.eqb_refl. reflexivity. }
      destruct (Nat.eqb e2 e) eqn:E3.
      { apply Nat.eqb_eq in E3. subst e. injection K as <-. rewrite N3, (proj2 (Nat.eqb_neq e1 e3)), Nat.eqb_refl by auto. reflexivity. }
      subst v. pose proof (H2 _ _ Ev) as Q. rewrite Q. cbn. apply Nat.eqb_neq in E1, E3.
      rewrite (proj2 (Nat.eqb_neq e1 n)), (proj2 (Nat.eqb_neq e3 n)); auto; intros ->; congruence.
  Qed.

  (** The half edges walked so far, the last one first. *)
  Fixpoint back_path d (start : nat) (l : list nat) : Prop :=
    match l with
    | [] => True
    | [a] => a = start
    | a :: (b :: _) as r => nx d b = Some (Some a) /\ a <> start /\ back_path d start r
    end.
  Lemma back_path_fresh d start l : (forall a b n, nx d a = Some (Some n) -> nx d b = Some (Some n) -> a = b) ->
    forall a, back_path d start (a :: l) -> ~ In a l.
  Proof.
    intros INJ. induction l as [|b r IH]; intros a HB; cbn; auto. cbn in HB. destruct HB as (E & NS & HB).
    intros [->|I].
    - (* a is its own predecessor *)
      destruct r as [|c r]; cbn in HB; [congruence|]. destruct HB as (E' & NS' & HB). pose proof (INJ _ _ _ E E') as K. subst c.
      apply (IH a); cbn; auto.
    - apply in_split in I as (u & v & ->). 
      destruct v as [|c v].
      + clear -HB NS. revert b HB. induction u as [|x u IHu]; intros b HB; cbn in HB; [destruct HB as (_ & _ & HB); congruence|].
        destruct HB as (_ & _ & HB). eapply IHu; eauto.
      + assert (K : nx d c = Some (Some a)).
        { clear -HB. revert b HB. induction u as [|x u IHu]; intros b HB; cbn in HB; [apply HB|]. destruct HB as (_ & _ & HB). eapply IHu; eauto. }
        pose proof (INJ _ _ _ E K) as Q. subst c. apply (IH b); cbn; auto. apply in_or_app. right. right. now left.
  Qed.

  Lemma split_walk_inverse start : forall fuel d c idx d' o, inverse_links d ->
    back_path d start (c :: map snd idx) -> (forall k e, In (k, e) idx -> exists h, live d e h /\ h_end h = k) ->
    split_walk fuel d start c idx = Ok (d', o) -> inverse_links d'.
  Proof.
    induction fuel as [|fuel IH]; intros d c idx d' o HI HB HX H; cbn [split_walk] in H; [discriminate|].
    apply bind_ok in H as (h & L & H). apply half_at_ok in L.
    pose proof (proj1 (inverse_views d) HI) as (V1 & V2).
    destruct (idx_find (h_end h) idx) as [e1|] eqn:EF.
    - assert (I1 : In e1 (map snd idx)).
      { clear -EF. induction idx as [|[k e] r IH]; cbn in EF; [discriminate|]. destruct (Nat.eqb k (h_end h)); cbn; [left; congruence|auto]. }
      assert (NE : e1 <> c).
      { intros ->. revert I1. apply (back_path_fresh d start); auto. intros a b n A B. apply V1 in A, B. congruence. }
      apply bind_ok in H as (h1 & L1 & H). apply half_at_ok in L1. apply bind_ok in H as (e2 & E2 & H). apply bind_ok in H as (e4 & E4 & H).
      apply bind_ok in H as (x1 & X1 & H). apply hmod_inv in X1 as (_ & ->).
      apply bind_ok in H as (x2 & X2 & H). apply hmod_inv in X2 as (_ & ->).
      apply bind_ok in H as (x3 & X3 & H). apply hmod_inv in X3 as (_ & ->).
      apply bind_ok in H as (x4 & X4 & H). apply hmod_inv in X4 as (_ & ->).
      injection H as <- _.
      change (inverse_links (resplit d e1 e2 c e4)).
      apply of_opt_ok in E2, E4. apply resplit_inverse; auto; apply nx_some; eauto.
    - apply bind_ok in H as (n & E & H). apply of_opt_ok in E. destruct (Nat.eqb n start) eqn:Q; [injection H as <- _; auto|].
      apply Nat.eqb_neq in Q. eapply IH; [exact HI| | |exact H].
      + cbn [map snd back_path]. split; [apply nx_some; eauto|]. auto.
      + intros k e [K|K]; [injection K as <- <-; eauto|auto].
  Qed.
  Lemma split_face_inverse d f d' o : inverse_links d -> split_face d f = Ok (d', o) -> inverse_links d'.
  Proof.
    intros HI H. unfold split_face in H. apply bind_ok in H as (s & _ & H). eapply split_walk_inverse; [exact HI| | |exact H].
    - cbn. reflexivity.
    - intros k e [].
  Qed.
End Inv.
