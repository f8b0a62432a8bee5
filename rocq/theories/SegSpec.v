(** What a segment is, as a curve from its start point. *)
From Coq Require Import Reals List.
From Verif Require Import Num Rmath Segment BezierSpec LineSpec EquationSpec.
Import ListNotations.
Local Open Scope R_scope.

(** Straight and cubic segments, parametrised over [0,1]. *)
Definition seg_point (s : seg R) (from : vec2 R) (t : R) : option (vec2 R) :=
  match s with
  | SLine target => Some (pt from target t)
  | SCubic c1 c2 target => Some (curve (Bez from c1 c2 target) t)
  | _ => None
  end.

(** Parameters at which the segment has height y. *)
Definition at_height (s : seg R) (from : vec2 R) (y t : R) : Prop :=
  0 <= t <= 1 /\ exists p, seg_point s from t = Some p /\ vy p = y.

(** Power-basis coefficients of a Bezier coordinate with controls a b c d. *)
Definition pw3 (a b c d : R) : R := d - 3 * c + 3 * b - a.
Definition pw2 (a b c : R) : R := 3 * c - 6 * b + 3 * a.
Definition pw1 (a b : R) : R := 3 * b - 3 * a.

(** Where a cubic meets the line A x + B y + C = 0: a cubic equation in t. *)
Definition line_coefs (A B C : R) (z : bezier R) : R * R * R * R :=
  (A * pw3 (vx (b0 z)) (vx (b1 z)) (vx (b2 z)) (vx (b3 z)) +
   B * pw3 (vy (b0 z)) (vy (b1 z)) (vy (b2 z)) (vy (b3 z)),
   A * pw2 (vx (b0 z)) (vx (b1 z)) (vx (b2 z)) + B * pw2 (vy (b0 z)) (vy (b1 z)) (vy (b2 z)),
   A * pw1 (vx (b0 z)) (vx (b1 z)) + B * pw1 (vy (b0 z)) (vy (b1 z)),
   A * vx (b0 z) + B * vy (b0 z) + C).

(** Same for the height y, and when the solver is exact for it. *)
Definition y_coefs (z : bezier R) (y : R) : R * R * R * R :=
  (pw3 (vy (b0 z)) (vy (b1 z)) (vy (b2 z)) (vy (b3 z)),
   pw2 (vy (b0 z)) (vy (b1 z)) (vy (b2 z)), pw1 (vy (b0 z)) (vy (b1 z)), vy (b0 z) - y).
Definition y_solvable (z : bezier R) (y : R) : Prop :=
  let '(a3, a2, a1, a0) := y_coefs z y in
  cubic_clear a3 a2 a1 a0 /\ (a3 <> 0 -> 0 <= disc a3 a2 a1 a0).
