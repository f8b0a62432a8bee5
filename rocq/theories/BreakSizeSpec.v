(** Contours that can be swept, any arithmetic (C63). *)
From Coq Require Import ZArith Bool List.
From Verif Require Import Num Order Rmath Segment Path RectSpec VState VPath PathSpec RingSpec.

(** The segment that starts at vertex [i] is a line with coordinates
    between -DBL_MAX and DBL_MAX. *)
Definition finite_side {T} {N : Num T} {O : OrdNum T} (vs : list (vertex T)) (i : nat) : Prop :=
  exists v q, nth_error vs i = Some v /\ v_seg v = Some (SLine q) /\ finite_point (v_pt v) /\ finite_point q.
(** The box of the segment that starts at vertex [i] is not inverted. *)
Definition sound_box {T} {N : Num T} {O : OrdNum T} (vs : list (vertex T)) (i : nat) : Prop :=
  exists v g, nth_error vs i = Some v /\ v_seg v = Some g /\ rect_wf (seg_boundary g (v_pt v)).
(** The parameters 0 and 1 are not inside a segment; so in the reals and in binary64. *)
Definition open_ends {T} {N : Num T} : Prop := in_open (n_ofZ 0%Z) = false /\ in_open (n_ofZ 1%Z) = false.
(** The vertices that an element of a path can make: a point, or up to three pieces *)
Definition elem_room (e : Z) : nat :=
  if Z.eqb e ty_moveto || Z.eqb e ty_lineto then 1 else if Z.eqb e ty_cubicto then 3 else 0.
(** The same for outlines drawn: the first point, and one or three for each call *)
Definition outline_room {T} (o : outline (T := T)) : nat := S (list_sum (map (fun c => match c with PCubic _ _ _ => 3 | _ => 1 end) (snd o))).
