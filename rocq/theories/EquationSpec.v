(** Real polynomial equations. *)
From Coq Require Import Reals List.
From Verif Require Import BezierSpec.
Import ListNotations.
Local Open Scope R_scope.

Definition quad (a b c x : R) : R := a * x ^ 2 + b * x + c.
Definition cubic (a3 a2 a1 a0 x : R) : R := a3 * x ^ 3 + a2 * x ^ 2 + a1 * x + a0.

(** The list holds every solution, nothing else, and no repetition. *)
Definition solves (f : R -> R) (l : list R) : Prop :=
  NoDup l /\ forall x, In x l <-> f x = 0.

(** Coefficients and discriminant are zero or clear of the tolerance band, and
    the equation is not 0 = 0. *)
Definition quad_clear (a b c : R) : Prop :=
  clear a /\ (a = 0 -> clear b) /\ (a <> 0 -> clear (b * b - 4 * a * c)) /\
  ~ (a = 0 /\ b = 0 /\ c = 0).

(** x^3 + a x^2 + b x + c = y^3 + p y + q with y = x + a/3; [disc] < 0 exactly
    when there are three different real roots. *)
Definition dep_p (a b : R) : R := b - a * a / 3.
Definition dep_q (a b c : R) : R := 2 * (a * a) * a / 27 - a * b / 3 + c.
Definition dep_k (p q : R) : R := (q / 2) ^ 2 + (p / 3) ^ 3.
Definition cub_p (a3 a2 a1 : R) : R := dep_p (a2 / a3) (a1 / a3).
Definition cub_q (a3 a2 a1 a0 : R) : R := dep_q (a2 / a3) (a1 / a3) (a0 / a3).
Definition disc (a3 a2 a1 a0 : R) : R := dep_k (cub_p a3 a2 a1) (cub_q a3 a2 a1 a0).

(** Same for the cubic: leading coefficient and discriminant clear of the band;
    with discriminant zero also the double root is not within 1e-8 of the
    single one without being equal to it; and the case of one real root
    excludes (x + a)^3 = -c with c > 0, where the code divides 0 by 0. *)
Definition cubic_clear (a3 a2 a1 a0 : R) : Prop :=
  clear a3 /\
  (a3 = 0 -> quad_clear a2 a1 a0) /\
  (a3 <> 0 -> let q := cub_q a3 a2 a1 a0 in
     clear (disc a3 a2 a1 a0) /\
     (disc a3 a2 a1 a0 = 0 -> q = 0 \/ 2 * (/ 100000000) ^ 3 <= Rabs q) /\
     (0 < disc a3 a2 a1 a0 -> cub_p a3 a2 a1 <> 0 \/ q < 0)).

(** [x] approximates the root r to a relative 1e-10 of the spread of the roots. *)
Definition near (x r r0 r1 r2 : R) : Prop :=
  Rabs (x - r) <= / 10000000000 * (Rabs (r0 - r1) + Rabs (r1 - r2) + Rabs (r2 - r0)).
