(** C62: concrete lines. *)
From Coq Require Import ZArith Bool List Reals Lra Lia Floats.SpecFloat Permutation.
From Verif Require Import Outcome Num Order Rmath RectSpec LineSpec LineR RTac VState VLemmas Dcel DcelSpec DcelCases DcelBase DcelCaseProofs DcelStatements DcelInv.
From Verif Require Import DcelLaySpec DcelKept DcelPieces DcelCut DcelLayMain DcelLayCases DcelSizeSpec DcelSize.
Import ListNotations.

Lemma square_finite : let N := B64 lm_angle in let O := B64_ord lm_angle in Forall dcall_finite square_calls.
Proof. intros N O. repeat constructor; vm_compute; (discriminate || reflexivity || auto). Qed.
Lemma C62_any_case : let N := B64 lm_angle in let O := B64_ord lm_angle in
  Forall dcall_finite square_calls /\ length (lines_given subject square_calls) = 5 /\
  exists d d', dcalls_run dcel0 square_calls = Ok d /\ dcel_process en_plain d = Ok d' /\ length (d_edges d') = 28.
Proof.
  intros N O. split; [exact square_finite|]. split; [vm_compute; reflexivity|]. destruct square_case as (d & d' & A & B & _ & C & _). exists d, d'. auto.
Qed.
(** Two lines across each other reach the bound. *)
Lemma C62_apart_case : Forall dcall_fin cross_R /\ no_lap (lines_given subject cross_R) /\ length (lines_given subject cross_R) = 2 /\
  exists d d', dcalls_run dcel0 cross_R = Ok d /\ dcel_process en_plain d = Ok d' /\ length (d_edges d') = 8.
Proof.
  split; [exact cross_R_fin|]. split; [exact cross_R_free|]. split; [now rewrite cross_R_lines|]. destruct cross_R_runs as (d & d' & R1 & R2). exists d, d'. csplit; auto.
  assert (PO : forall l, Permutation (de_order en_plain l) l) by (intros; reflexivity).
  pose proof (C62_apart_lemma en_plain cross_R d d' PO cross_R_fin R1 R2 cross_R_free) as UP. rewrite cross_R_lines in UP. cbn in UP.
  destruct (lay_parts en_plain cross_R d d' PO cross_R_fin R1 R2) as (d1 & H). pose proof (lines_length cross_R d d1 d' H) as LN. rewrite cross_R_lines in LN. cbn in LN.
  pose proof H as (W & _ & _ & SE & _ & S1 & (_ & BR2 & _) & _ & PX & _). cbv zeta in PX. apply Permutation_length in PX. unfold segs in PX at 1. rewrite map_length, app_length, map_length in PX.
  assert (ED : d_edges d = [0; 1]) by (rewrite SE in *; rewrite seq_length in LN; rewrite <- LN; reflexivity).
  pose proof (line_edge cross_R d d1 d' H 0 subject (V2 0 0)%R (V2 4 4)%R) as (K0 & _). pose proof (line_edge cross_R d d1 d' H 1 clip (V2 0 4)%R (V2 4 0)%R) as (K1 & _).
  rewrite cross_R_lines in K0, K1. destruct (K0 eq_refl) as (I0 & E0). destruct (K1 eq_refl) as (I1 & E1). destruct cross_R_on as (O1 & O2).
  assert (A0 : sa d 0 = (V2 0 0)%R /\ sb d 0 = (V2 4 4)%R) by (unfold sa, sb; now rewrite E0). assert (A1 : sa d 1 = (V2 0 4)%R /\ sb d 1 = (V2 4 0)%R) by (unfold sa, sb; now rewrite E1).
  destruct A0 as (A0 & B0), A1 as (A1 & B1).
  assert (H0 : has d1 0 (V2 2 2)%R) by (apply (BR2 0 1); rewrite ?A0, ?B0, ?A1, ?B1; auto; unfold parallel; cbn; lra).
  assert (H1 : has d1 1 (V2 2 2)%R) by (apply (BR2 1 0); rewrite ?A0, ?B0, ?A1, ?B1; auto; unfold parallel; cbn; lra).
  assert (Z : forall e, has d1 e (V2 2 2)%R -> 2 <= length (pieces_at d1 e)).
  { intros e (h & L & I). unfold pieces_at. unfold live in L. rewrite L, pieces_length. destruct (h_breaks h); [destruct I|cbn; lia]. }
  pose proof (Z 0 H0). pose proof (Z 1 H1). rewrite ED in PX. cbn [flat_map] in PX. rewrite !app_length in PX. cbn [length] in PX. lia.
Qed.
