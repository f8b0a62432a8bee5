(** C62: the size of the half-edge structure. *)
From Coq Require Import ZArith Bool List Reals Floats.SpecFloat Permutation.
From Verif Require Import Outcome Num Order Rmath RectSpec LineSpec VState Dcel DcelSpec DcelCases DcelLaySpec DcelLayCases DcelSizeSpec DcelCount DcelSize DcelSizeCases.
Import ListNotations.

(** C62: n lines make at most 2n(2n-1) half edges and 2n^2 points, in any arithmetic
    whose comparison is an order (reals, binary64), overlapping lines included. *)
Theorem C62_any :
  forall (T : Type) (N : Num T) (O : OrdNum T) (en : denv) (l : list (dcall T)) (d d' : dcel T),
    (forall l, Permutation (de_order en l) l) -> Forall dcall_finite l -> dcalls_run dcel0 l = Ok d -> dcel_process en d = Ok d' ->
    let n := length (lines_given subject l) in
    length (d_edges d') <= 2 * (n * (2 * n - 1)) /\ length (d_points d') <= 2 * (n * n).
Proof. exact (@C62_any_lemma). Qed.
Print Assumptions C62_any.
(** A square with a line across a corner *)
Example C62_any_example : let N := B64 lm_angle in let O := B64_ord lm_angle in
  Forall dcall_finite square_calls /\ length (lines_given subject square_calls) = 5 /\
  exists d d', dcalls_run dcel0 square_calls = Ok d /\ dcel_process en_plain d = Ok d' /\ length (d_edges d') = 28.
Proof. exact C62_any_case. Qed.
(** C62: at most 2n^2 half edges if lines on one straight line have no more than
    ends in common, exact arithmetic. *)
Theorem C62_apart :
  forall (en : denv) (l : list (dcall R)) (d d' : dcel R), (forall l, Permutation (de_order en l) l) -> Forall dcall_fin l ->
    dcalls_run dcel0 l = Ok d -> dcel_process en d = Ok d' -> no_lap (lines_given subject l) ->
    length (d_edges d') <= 2 * (length (lines_given subject l) * length (lines_given subject l)).
Proof. exact C62_apart_lemma. Qed.
Print Assumptions C62_apart.
(** Two lines across each other reach the bound. *)
Example C62_apart_example : Forall dcall_fin cross_R /\ no_lap (lines_given subject cross_R) /\ length (lines_given subject cross_R) = 2 /\
  exists d d', dcalls_run dcel0 cross_R = Ok d /\ dcel_process en_plain d = Ok d' /\ length (d_edges d') = 8.
Proof. exact C62_apart_case. Qed.
