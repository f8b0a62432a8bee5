(** C54-C56: the half-edge structure as a drawing of the lines given. *)
From Coq Require Import ZArith Bool List Reals Floats.SpecFloat Permutation.
From Verif Require Import Outcome Num Rmath RectSpec LineSpec VState Dcel DcelSpec DcelCases DcelLaySpec DcelLayMain DcelLayCases.
Import ListNotations.

(** C54: the points on half edges are the points on the lines given, exact arithmetic. *)
Theorem C54_cover :
  forall (en : denv) (l : list (dcall R)) (d d' : dcel R), (forall l, Permutation (de_order en l) l) -> Forall dcall_fin l ->
    dcalls_run dcel0 l = Ok d -> dcel_process en d = Ok d' ->
    forall p, (exists e t a b, half_from d' e t a b /\ on_segment p a b) <->
      exists t a b, In (t, (a, b)) (lines_given subject l) /\ on_segment p a b.
Proof. exact C54_cover_lemma. Qed.
Print Assumptions C54_cover.
(** C54: the points there are are the ends of the lines and the crossings of lines
    that are not parallel. *)
Theorem C54_points :
  forall (en : denv) (l : list (dcall R)) (d d' : dcel R), (forall l, Permutation (de_order en l) l) -> Forall dcall_fin l ->
    dcalls_run dcel0 l = Ok d -> dcel_process en d = Ok d' ->
    forall p, (exists q, In q (d_points d') /\ p_at q = p) <->
      (exists t a b, In (t, (a, b)) (lines_given subject l) /\ (p = a \/ p = b)) \/
      exists t a b t' a' b', In (t, (a, b)) (lines_given subject l) /\ In (t', (a', b')) (lines_given subject l) /\
        ~ parallel a b a' b' /\ on_segment p a b /\ on_segment p a' b'.
Proof. exact C54_points_lemma. Qed.
Print Assumptions C54_points.
(** C54, if lines on one straight line have no more than ends in common: a point
    of two half edges is an end of both, unless they join the same two points.
    Missing: lines that overlap, see below. *)
Theorem C54_apart_partial :
  forall (en : denv) (l : list (dcall R)) (d d' : dcel R), (forall l, Permutation (de_order en l) l) -> Forall dcall_fin l ->
    dcalls_run dcel0 l = Ok d -> dcel_process en d = Ok d' -> no_lap (lines_given subject l) ->
    forall e e' t a b t' a' b' p, e <> e' -> half_from d' e t a b -> half_from d' e' t' a' b' ->
      on_segment p a b -> on_segment p a' b' -> (p = a \/ p = b) /\ (p = a' \/ p = b') \/ a' = b /\ b' = a.
Proof. exact C54_apart_lemma. Qed.
Print Assumptions C54_apart_partial.
(** Two lines of different types across each other: the crossing becomes a point,
    and an end of every half edge it lies on. *)
Example C54_case : Forall dcall_fin cross_R /\ no_lap (lines_given subject cross_R) /\
  exists d d', dcalls_run dcel0 cross_R = Ok d /\ dcel_process en_plain d = Ok d' /\
    (exists q, In q (d_points d') /\ p_at q = V2 2 2)%R /\ (exists e t a b, half_from d' e t a b /\ on_segment (V2 2 2) a b)%R /\
    (forall e t a b, half_from d' e t a b -> on_segment (V2 2 2) a b -> V2 2 2 = a \/ V2 2 2 = b)%R.
Proof. exact (conj cross_R_fin (conj cross_R_free cross_R_case)). Qed.
(** C54 without the condition: a short line on a long one breaks nothing, and both
    remain as half edges. *)
Theorem C54_apart_refuted : let N := B64 lm_angle in
  exists l d d' e e', dcalls_run dcel0 l = Ok d /\ dcel_process en_plain d = Ok d' /\
    half_from d' e subject (zv 0 0) (zv 10 0) /\ half_from d' e' subject (zv 2 0) (zv 3 0).
Proof. exact lap_lemma. Qed.
Print Assumptions C54_apart_refuted.

(** C55, for points that are no end of a line on another line: no half edge joins
    the point to itself.  Missing: those points, see below. *)
Theorem C55_partial :
  forall (en : denv) (l : list (dcall R)) (d d' : dcel R), (forall l, Permutation (de_order en l) l) -> Forall dcall_fin l ->
    dcalls_run dcel0 l = Ok d -> dcel_process en d = Ok d' ->
    forall e t a, half_from d' e t a a -> exists i j ti ai bi tj aj bj,
      i <> j /\ line_is (lines_given subject l) i ti ai bi /\ line_is (lines_given subject l) j tj aj bj /\
      (a = ai \/ a = bi) /\ on_segment a aj bj.
Proof. exact C55_partial_lemma. Qed.
Print Assumptions C55_partial.
(** C55 at the other points: wherever an end of a line lies on a line that is not
    parallel to it (each corner of a contour), there is a half edge from the point
    to itself. *)
Theorem C55_corner :
  forall (en : denv) (l : list (dcall R)) (d d' : dcel R), (forall l, Permutation (de_order en l) l) -> Forall dcall_fin l ->
    dcalls_run dcel0 l = Ok d -> dcel_process en d = Ok d' ->
    forall i j ti ai bi tj aj bj p, line_is (lines_given subject l) i ti ai bi -> line_is (lines_given subject l) j tj aj bj ->
      ~ parallel ai bi aj bj -> p = ai \/ p = bi -> on_segment p aj bj -> exists e t, half_from d' e t p p.
Proof. exact C55_corner_lemma. Qed.
Print Assumptions C55_corner.
Example C55_case : Forall dcall_fin corner_R /\
  (line_is (lines_given subject corner_R) 0%nat subject (V2 0 0) (V2 4 0) /\ line_is (lines_given subject corner_R) 1%nat subject (V2 0 0) (V2 0 4) /\
   ~ parallel (V2 0 0) (V2 4 0) (V2 0 0) (V2 0 4) /\ on_segment (V2 0 0) (V2 0 0) (V2 0 4))%R /\
  exists d d' e t, dcalls_run dcel0 corner_R = Ok d /\ dcel_process en_plain d = Ok d' /\ half_from d' e t (V2 0 0)%R (V2 0 0)%R.
Proof. exact corner_R_case. Qed.
(** C55: two lines from one point *)
Theorem C55_refuted : let N := B64 lm_angle in
  exists l d d' e, dcalls_run dcel0 l = Ok d /\ dcel_process en_plain d = Ok d' /\ half_from d' e subject (zv 0 0) (zv 0 0).
Proof. exact corner_lemma. Qed.
Print Assumptions C55_refuted.

(** C56, the type: that set last, or that of a line given that became a half edge
    as it was.  Missing: the type of the line for the other half edges, see below. *)
Theorem C56_type_partial :
  forall (en : denv) (l : list (dcall R)) (d d' : dcel R), (forall l, Permutation (de_order en l) l) -> Forall dcall_fin l ->
    dcalls_run dcel0 l = Ok d -> dcel_process en d = Ok d' ->
    forall e t a b, half_from d' e t a b -> t = type_after subject l \/ In (t, (a, b)) (lines_given subject l).
Proof. exact C56_type_lemma. Qed.
Print Assumptions C56_type_partial.
(** C56: half of a line of the subject has the type of the clip. *)
Theorem C56_type_refuted : let N := B64 lm_angle in
  exists l d d' e, dcalls_run dcel0 l = Ok d /\ dcel_process en_plain d = Ok d' /\
    lines_given subject l = [(subject, (zv 0 0, zv 4 4)); (clip, (zv 0 4, zv 4 0))] /\ half_from d' e clip (zv 0 0) (zv 2 2).
Proof. exact mixed_lemma. Qed.
Print Assumptions C56_type_refuted.
(** C56: a half edge that knows no face *)
Theorem C56_face_refuted : let N := B64 lm_angle in
  exists l d d' e h, dcalls_run dcel0 l = Ok d /\ dcel_process en_plain d = Ok d' /\ live d' e h /\ h_face h = None.
Proof. exact faceless_lemma. Qed.
Print Assumptions C56_face_refuted.
(** C56: a half edge followed by one to the right though there is one to the left,
    so the face is not on its left. *)
Theorem C56_left_refuted : let N := B64 lm_angle in
  exists l d d' e h n e' a v b c, dcalls_run dcel0 l = Ok d /\ dcel_process en_plain d = Ok d' /\
    half_from d' e subject a v /\ live d' e h /\ h_next h = Some n /\ half_from d' n subject v b /\ turns_right a v b /\
    half_from d' e' subject v c /\ turns_left a v c.
Proof. exact right_lemma. Qed.
Print Assumptions C56_left_refuted.
