(** Straight segments as point sets, over the reals. *)
From Coq Require Import Reals List.
From Verif Require Import Num Rmath.
Import ListNotations.
Local Open Scope R_scope.

(** The point of the line through p0 (parameter 0) and p1 (parameter 1). *)
Definition pt (p0 p1 : vec2 R) (t : R) : vec2 R :=
  V2 (vx p0 + t * (vx p1 - vx p0)) (vy p0 + t * (vy p1 - vy p0)).

Definition on_segment (p p0 p1 : vec2 R) : Prop := exists t, 0 <= t <= 1 /\ p = pt p0 p1 t.
Definition on_line (p p0 p1 : vec2 R) : Prop := exists t, p = pt p0 p1 t.

Definition sqdist (p q : vec2 R) : R := (vx p - vx q) ^ 2 + (vy p - vy q) ^ 2.

Definition parallel (p0 p1 p2 p3 : vec2 R) : Prop :=
  (vx p1 - vx p0) * (vy p3 - vy p2) = (vy p1 - vy p0) * (vx p3 - vx p2).

(** What a reported intersection of two segments has to satisfy. *)
Definition meets (p0 p1 p2 p3 : vec2 R) (i : isect R) : Prop :=
  0 <= it0 i <= 1 /\ 0 <= it1 i <= 1 /\
  ip i = pt p0 p1 (it0 i) /\ ip i = pt p2 p3 (it1 i).

(** The point is an end of one segment, lies on the other and is not an end of it. *)
Definition inner_end (p0 p1 p2 p3 p : vec2 R) : Prop :=
  ((p = p0 \/ p = p1) /\ on_segment p p2 p3 /\ p <> p2 /\ p <> p3) \/
  ((p = p2 \/ p = p3) /\ on_segment p p0 p1 /\ p <> p0 /\ p <> p1).

(** Closest point of a segment: [d] is the squared distance. *)
Definition is_sqdist_segment (p l0 l1 : vec2 R) (d : R) : Prop :=
  (exists t, 0 <= t <= 1 /\ d = sqdist p (pt l0 l1 t)) /\
  (forall t, 0 <= t <= 1 -> d <= sqdist p (pt l0 l1 t)).
Definition is_sqdist_line (p l0 l1 : vec2 R) (d : R) : Prop :=
  (exists t, d = sqdist p (pt l0 l1 t)) /\ (forall t, d <= sqdist p (pt l0 l1 t)).

(** The foot of the perpendicular from p falls between the end points. *)
Definition projects_inside (p p0 p1 : vec2 R) : Prop :=
  exists t, 0 <= t <= 1 /\
    (vx p - vx (pt p0 p1 t)) * (vx p1 - vx p0) + (vy p - vy (pt p0 p1 t)) * (vy p1 - vy p0) = 0.

(** Coordinates between -DBL_MAX and DBL_MAX; segments of non-zero length. *)
Definition fin (p : vec2 R) : Prop := - R_huge <= vx p <= R_huge /\ - R_huge <= vy p <= R_huge.
Definition ends_ok (p0 p1 p2 p3 : vec2 R) : Prop :=
  p0 <> p1 /\ p2 <> p3 /\ fin p0 /\ fin p1 /\ fin p2 /\ fin p3.
