(** C37: the half-edge structure. *)
From Coq Require Import ZArith Bool List Reals Floats.SpecFloat Permutation.
From Verif Require Import Outcome Num Order Rmath RectSpec VState Dcel DcelSpec DcelStatements DcelInv DcelCases DcelCaseProofs.
Import ListNotations.

(** C37: every history of calls runs without undefined behaviour; the set of
    half edges holds exactly the existing ones, the list of each point exactly the
    half edges that leave it and arrive at it, the set of points all points. *)
Theorem C37_calls :
  forall (T : Type) (N : Num T) (l : list (dcall T)),
    exists d, dcalls_run dcel0 l = Ok d /\ registered d /\ stars d /\ all_in_set d.
Proof. exact (@C37_calls_lemma). Qed.
Print Assumptions C37_calls.

(** C37: points are unique by coordinate, in any arithmetic whose comparison is an
    order on the coordinates given (reals, binary64 without NaN). *)
Theorem C37_points_unique :
  forall (T : Type) (N : Num T) (O : OrdNum T) (l : list (dcall T)) d,
    Forall dcall_valid l -> dcalls_run dcel0 l = Ok d -> unique_points d.
Proof. exact (@C37_points_lemma). Qed.
Print Assumptions C37_points_unique.
(** A point given as (0,0) and as (-0,0): three points, two half edges *)
Example C37_points_unique_case (lm : libm) : let N := B64 lm in let O := B64_ord lm in
  Forall dcall_valid fan_calls /\
  exists d, dcalls_run dcel0 fan_calls = Ok d /\ length (d_points d) = 3 /\ length (d_edges d) = 2.
Proof. exact (fan_case lm). Qed.

(** C37: after [process] the same holds of the points if all of them compare (the
    intersections are computed). *)
Theorem C37_process_points :
  forall (T : Type) (N : Num T) (O : OrdNum T) (en : denv) (l : list (dcall T)) d d',
    dcalls_run dcel0 l = Ok d -> dcel_process en d = Ok d' ->
    Forall (fun p => vvalid (p_at p)) (d_points d') -> unique_points d'.
Proof. exact (@C37_process_points_lemma). Qed.
Print Assumptions C37_process_points.
(** Two crossing lines *)
Example C37_process_points_case : let N := B64 lm_angle in let O := B64_ord lm_angle in
  exists d d', dcalls_run dcel0 cross_calls = Ok d /\ dcel_process en_plain d = Ok d' /\
    Forall (fun p => vvalid (p_at p)) (d_points d') /\ length (d_points d) = 4 /\ length (d_points d') = 5.
Proof. exact cross_points_case. Qed.

(** C37: after [process] every half edge has a twin with swapped ends whose twin
    it is; next and prev are set everywhere, inverse to each other and follow the
    half edges head to tail; the faces share out the half edges, each going once
    round a cycle that passes no point twice. *)
Theorem C37_process :
  forall (T : Type) (N : Num T) (en : denv) (l : list (dcall T)) d d',
    dcalls_run dcel0 l = Ok d -> dcel_process en d = Ok d' ->
    registered d' /\ stars d' /\ all_in_set d' /\ twinned d' /\ linked d' /\ faces_share d'.
Proof. exact (@C37_process_lemma). Qed.
Print Assumptions C37_process.
(** A square with a line across a corner: 28 half edges in 20 faces *)
Example C37_process_case : let N := B64 lm_angle in
  exists d d', dcalls_run dcel0 square_calls = Ok d /\ dcel_process en_plain d = Ok d' /\
    length (d_edges d) = 5 /\ length (d_edges d') = 28 /\ length (d_faces d') = 20.
Proof. exact square_case. Qed.

(** C37: twins, linking and splitting never fail, whatever the arithmetic: if the
    intersections could be computed, [process] answers. *)
Theorem C37_process_ends :
  forall (T : Type) (N : Num T) (en : denv) (l : list (dcall T)) d d1,
    dcalls_run dcel0 l = Ok d -> process_break en d = Ok d1 -> exists d', dcel_process en d = Ok d'.
Proof. exact (@C37_process_ends_lemma). Qed.
Print Assumptions C37_process_ends.

(** C37: in exact arithmetic with coordinates within the range of double,
    [process] always answers and points are unique before and after. *)
Theorem C37_process_exact :
  forall (en : denv) (l : list (dcall R)), (forall l, Permutation (de_order en l) l) -> Forall dcall_fin l ->
    exists d d', dcalls_run dcel0 l = Ok d /\ dcel_process en d = Ok d' /\ unique_points d /\ unique_points d'.
Proof. exact C37_process_exact_lemma. Qed.
Print Assumptions C37_process_exact.
Example C37_process_exact_case : (forall l : list nat, Permutation (de_order en_plain l) l) /\
  Forall dcall_fin [DLine 0%R 0%R 4%R 4%R; DLine 0%R 4%R 4%R 0%R].
Proof. exact cross_fin. Qed.

(** C37: splitting a face keeps next and prev inverse to each other, whatever the
    rest of the structure looks like. *)
Theorem C37_split_face :
  forall (T : Type) (d : dcel T) f d' o,
    inverse_links d -> split_face d f = Ok (d', o) -> inverse_links d'.
Proof. exact (@split_face_inverse). Qed.
Print Assumptions C37_split_face.
(** A face in the shape of an eight is split *)
Example C37_split_face_case : inverse_links eight_dcel /\ exists d', split_face eight_dcel 0 = Ok (d', Some 1).
Proof. exact eight_case. Qed.
