(** C37 put together. *)
From Coq Require Import ZArith Bool List Reals Floats.SpecFloat Permutation Lia.
From Verif Require Import Outcome Num Order Rmath RectSpec ScanLine VState VLemmas LineSpec.
From Verif Require Import Dcel DcelSpec DcelBase DcelBreak DcelFace DcelLink DcelSplit DcelUnique DcelProcess DcelR DcelInv.
Import ListNotations.
Local Open Scope out.

Section Any.
  Context {T : Type} {N : Num T}.
  Lemma C37_calls_lemma (l : list (dcall T)) :
    exists d, dcalls_run dcel0 l = Ok d /\ registered d /\ stars d /\ all_in_set d.
  Proof. destruct (calls_run l dcel0 wf0) as (d & R & W & _). exists d. split; auto. Qed.
  Lemma C37_process_lemma (en : denv) (l : list (dcall T)) d d' :
    dcalls_run dcel0 l = Ok d -> dcel_process en d = Ok d' ->
    registered d' /\ stars d' /\ all_in_set d' /\ twinned d' /\ linked d' /\ faces_share d'.
  Proof.
    intros H1 H2. destruct (calls_run l dcel0 wf0) as (d0 & R & W & U). rewrite H1 in R. injection R as <-.
    assert (F : d_faces d = []) by (rewrite (faces_calls l dcel0 d wf0 H1); reflexivity).
    pose proof H2 as H3. unfold dcel_process in H3. apply bind_ok in H3 as (d1 & H3 & _).
    destruct (process_after_break en d d1 W (U unlinked0) F H3) as (d2 & x & _ & R & (W1 & W2 & W3) & T' & L & FS & _).
    rewrite H2 in R. injection R as <-. auto 8.
  Qed.
  Lemma C37_process_ends_lemma (en : denv) (l : list (dcall T)) d d1 :
    dcalls_run dcel0 l = Ok d -> process_break en d = Ok d1 -> exists d', dcel_process en d = Ok d'.
  Proof.
    intros H1 H3. destruct (calls_run l dcel0 wf0) as (d0 & R & W & U). rewrite H1 in R. injection R as <-.
    assert (F : d_faces d = []) by (rewrite (faces_calls l dcel0 d wf0 H1); reflexivity).
    destruct (process_after_break en d d1 W (U unlinked0) F H3) as (d2 & x & _ & R & _). eauto.
  Qed.
End Any.

Section Ord.
  Context {T : Type} {N : Num T} {O : OrdNum T}.
  Lemma psorted0 : psorted (T := T) dcel0.
  Proof. intros _. constructor. Qed.
  Lemma find_valid (d : dcel T) x y d' i : nvalid x -> nvalid y -> Forall (fun p => vvalid (p_at p)) (d_points d) ->
    find_or_add_point d x y = (d', i) -> Forall (fun p => vvalid (p_at p)) (d_points d').
  Proof.
    intros Vx Vy V. unfold find_or_add_point. destruct (pset_find d (V2 x y) (d_pset d)); intros E; injection E as <- <-; auto.
    cbn. apply Forall_app; split; auto. constructor; [split; auto|constructor].
  Qed.
  Lemma calls_valid (l : list (dcall T)) : forall d d', wf d -> Forall dcall_valid l ->
    Forall (fun p => vvalid (p_at p)) (d_points d) -> dcalls_run d l = Ok d' -> Forall (fun p => vvalid (p_at p)) (d_points d').
  Proof.
    induction l as [|c r IH]; intros d d' W HV V H; cbn in H; [injection H as <-; auto|]. inversion HV; subst.
    apply bind_ok in H as (d1 & H1 & H).
    assert (S : wf d1 /\ Forall (fun p => vvalid (p_at p)) (d_points d1)).
    { destruct c; cbn in H1; [injection H1 as <-; auto|].
      destruct (add_line_run d x1 y1 x2 y2 W) as (d1' & R & W1 & _). rewrite R in H1. injection H1 as <-. split; auto.
      match goal with K : dcall_valid _ |- _ => destruct K as (X1 & Y1 & X2 & Y2) end.
      revert R. unfold add_line. destruct (n_eqb x1 x2 && n_eqb y1 y2); [intros E; injection E as <-; auto|].
      destruct (find_or_add_point d x1 y1) as [d3 a] eqn:E1. destruct (find_or_add_point d3 x2 y2) as [d4 b] eqn:E2.
      destruct (find_or_add_wf _ _ _ _ _ W E1) as (W3 & A1 & _).
      destruct (find_or_add_wf _ _ _ _ _ W3 E2) as (W4 & B1 & _).
      pose proof (points_grow_len _ _ (find_grow _ _ _ _ _ E2)) as G. intros R.
      pose proof (find_valid _ _ _ _ _ X1 Y1 V E1) as V3. pose proof (find_valid _ _ _ _ _ X2 Y2 V3 E2) as V4.
      apply bind_ok in R as ((d5 & e) & R & Q). injection Q as <-.
      destruct (new_line_run d4 a b W4) as (x & R' & _ & _ & _ & _ & _ & _ & _ & H5); [lia|auto|]. rewrite R' in R. injection R as <- _.
      rewrite <- Forall_map with (f := p_at) (P := vvalid). rewrite H5. now rewrite Forall_map. }
    destruct S. eapply IH; eauto.
  Qed.
  Lemma C37_points_lemma (l : list (dcall T)) d : Forall dcall_valid l -> dcalls_run dcel0 l = Ok d -> unique_points d.
  Proof.
    intros HV H. destruct (calls_run l dcel0 wf0) as (d0 & R & (W1 & W2 & W3) & _). rewrite H in R. injection R as <-.
    apply psorted_unique; auto.
    - eapply (calls_valid l dcel0); eauto; [apply wf0|constructor].
    - eapply (calls_psorted l dcel0); eauto; [apply wf0|apply psorted0].
  Qed.
  Lemma C37_process_points_lemma (en : denv) (l : list (dcall T)) d d' :
    dcalls_run dcel0 l = Ok d -> dcel_process en d = Ok d' -> Forall (fun p => vvalid (p_at p)) (d_points d') ->
    unique_points d'.
  Proof.
    intros H1 H2 V. destruct (calls_run l dcel0 wf0) as (d0 & R & W & U). rewrite H1 in R. injection R as <-.
    assert (F : d_faces d = []) by (rewrite (faces_calls l dcel0 d wf0 H1); reflexivity).
    pose proof H2 as H3. unfold dcel_process in H3. apply bind_ok in H3 as (d1 & H3 & _).
    destruct (process_after_break en d d1 W (U unlinked0) F H3) as (d2 & x & H4 & R & (W1 & W2 & W3) & _ & _ & _ & E1 & E2).
    rewrite H2 in R. injection R as <-. apply psorted_unique; auto.
    apply (psorted_same d2); auto. eapply (twins_psorted en d); eauto.
    eapply (calls_psorted l dcel0); eauto; [apply wf0|apply psorted0].
  Qed.
End Ord.

Lemma C37_process_exact_lemma (en : denv) (l : list (dcall R)) : (forall l, Permutation (de_order en l) l) ->
  Forall dcall_fin l ->
  exists d d', dcalls_run dcel0 l = Ok d /\ dcel_process en d = Ok d' /\ unique_points d /\ unique_points d'.
Proof.
  intros PO HF. destruct (calls_run l dcel0 wf0) as (d & R & W & U).
  pose proof (calls_proper l dcel0 d wf0 proper0 HF R) as P.
  destruct (process_break_total en d PO W P) as (d1 & H).
  destruct (C37_process_ends_lemma en l d d1 R H) as (d' & Q). exists d, d'. split; auto. split; auto. split.
  - apply (C37_points_lemma l); auto. apply Forall_forall. intros [t|? ? ? ?] _; cbn; auto.
  - apply (C37_process_points_lemma en l d d'); auto. apply Forall_forall. intros p _. split; exact I.
Qed.
