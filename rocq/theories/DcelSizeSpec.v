(** Lines with coordinates between -DBL_MAX and DBL_MAX, any arithmetic (C62). *)
From Verif Require Import Num Order Rmath RectSpec VState Dcel.

Definition dcall_finite {T} {N : Num T} {O : OrdNum T} (c : dcall T) : Prop :=
  match c with DType _ => True | DLine x1 y1 x2 y2 => finite_point (V2 x1 y1) /\ finite_point (V2 x2 y2) end.
