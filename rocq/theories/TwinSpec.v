(** The curve along which an active edge runs, over the reals. *)
From Coq Require Import ZArith Bool List Reals.
From Verif Require Import Outcome Num Rmath Segment VState VAel VOut BezierSpec BreakSpec AelSpec WindSpec.
Import ListNotations.

Definition upwards (e : edge R) : bool := (e_dx e <? 0)%Z.
(** The edge goes along [g], which ends where it should. *)
Definition spans (s : clipper R) (e : edge R) (g : seg R) : Prop :=
  runs_along s e g /\ seg_target g = (if upwards e then e_top e else e_bot e).
(** The point at parameter [t] on the way from the bottom to the top *)
Definition course (e : edge R) (g : seg R) (t : R) : vec2 R :=
  if upwards e then seg_at (e_bot e) g t else seg_at (e_top e) g (1 - t).
(** Both are straight or both are cubics. *)
Definition same_kind (g h : seg R) : Prop :=
  match g, h with SLine _, SLine _ => True | SCubic _ _ _, SCubic _ _ _ => True | _, _ => False end.
