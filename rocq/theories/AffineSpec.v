(** Polygons that are moved and scaled. *)
From Coq Require Import ZArith Bool List Reals.
From Verif Require Import Outcome Num Rmath Segment Path PathSpec VState RingSpec StretchSpec BoxSpec.
Import ListNotations.

(** A scale and a shift of one coordinate *)
Definition affine (a b x : R) : R := (a * x + b)%R.
(** All corners of the polygon lie strictly between the sentinels +-DBL_MAX. *)
Definition in_range (o : outline (T := R)) : Prop :=
  Forall (fun p => moderate (vx p) /\ moderate (vy p)) (fst o :: map endpoint (snd o)).
