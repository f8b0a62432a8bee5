(** Cubic Bezier curves as functions of the parameter, over the reals. *)
From Coq Require Import Reals List.
From Verif Require Import Num Rmath.
Import ListNotations.
Local Open Scope R_scope.

(** Bernstein form of one coordinate. *)
Definition bern (a b c d t : R) : R :=
  (1 - t) ^ 3 * a + 3 * (1 - t) ^ 2 * t * b + 3 * (1 - t) * t ^ 2 * c + t ^ 3 * d.

Definition curve (z : bezier R) (t : R) : vec2 R :=
  V2 (bern (vx (b0 z)) (vx (b1 z)) (vx (b2 z)) (vx (b3 z)) t)
     (bern (vy (b0 z)) (vy (b1 z)) (vy (b2 z)) (vy (b3 z)) t).

(** [c] traces the part of [z] between parameters u and v. *)
Definition traces (c z : bezier R) (u v : R) : Prop :=
  forall s, curve c s = curve z (u + (v - u) * s).

(** Strictly increasing list with all elements above [lo] and below [hi]. *)
Fixpoint increasing (lo : R) (l : list R) (hi : R) : Prop :=
  match l with
  | [] => lo < hi
  | t :: l' => lo < t /\ increasing t l' hi
  end.

(** Consecutive pieces of [z] cut at the parameters of the list. *)
Fixpoint pieces_of (z : bezier R) (lo : R) (ts : list R) (ps : list (bezier R)) : Prop :=
  match ts, ps with
  | [], [p] => traces p z lo 1
  | t :: ts', p :: ps' => traces p z lo t /\ pieces_of z t ts' ps'
  | _, _ => False
  end.

(** End of each piece is exactly the start of the next one. *)
Fixpoint joined (ps : list (bezier R)) : Prop :=
  match ps with
  | p :: ((q :: _) as ps') => b3 p = b0 q /\ joined ps'
  | _ => True
  end.

(** Monotone (in either direction) on [0,1]. *)
Definition monotone01 (f : R -> R) : Prop :=
  (forall u v, 0 <= u -> u <= v -> v <= 1 -> f u <= f v) \/
  (forall u v, 0 <= u -> u <= v -> v <= 1 -> f v <= f u).

(** The code treats a number strictly between -1e-8 and 1e-8 as zero: exact
    zero, or clear of that band. *)
Definition clear (v : R) : Prop := v = 0 \/ v <= - / 100000000 \/ / 100000000 <= v.

(** The derivative of the coordinate with control values a, b, c, d is
    A t^2 + B t + C; its leading coefficients are not inside the band. *)
Definition axis_clear (a b c d : R) : Prop :=
  clear (3 * (d - 3 * c + 3 * b - a)) /\
  (d - 3 * c + 3 * b - a = 0 -> clear (6 * (a - 2 * b + c))).
Definition x_clear (z : bezier R) : Prop :=
  axis_clear (vx (b0 z)) (vx (b1 z)) (vx (b2 z)) (vx (b3 z)).
Definition y_clear (z : bezier R) : Prop :=
  axis_clear (vy (b0 z)) (vy (b1 z)) (vy (b2 z)) (vy (b3 z)).

(** Largest step between neighbouring control points, in either coordinate. *)
Definition near_ctl (z : bezier R) (D : R) : Prop :=
  let c (p q : vec2 R) := Rabs (vx p - vx q) <= D /\ Rabs (vy p - vy q) <= D in
  c (b1 z) (b0 z) /\ c (b2 z) (b1 z) /\ c (b3 z) (b2 z).
