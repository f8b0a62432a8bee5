(** Where the pieces of the output come from. *)
From Coq Require Import ZArith Bool List.
From Verif Require Import Outcome Num Rmath Segment VState VAel VOut VMain RingSpec ClipSpec.
Import ListNotations.

Section Piece.
  Context {T : Type} {N : Num T}.
  (** The segment that leads back along the line or curve [g] to its start [p] *)
  Definition backwards (p : vec2 T) (g : seg T) : seg T :=
    match g with
    | SCubic a b _ => SCubic b a p
    | _ => SLine p
    end.
  (** From [p] to [q], [g] is a segment of a contour or the same segment backwards. *)
  Definition piece (vs : list (vertex T)) (p q : vec2 T) (g : seg T) : Prop :=
    exists i j h v w, link vs i j h /\ nth_error vs i = Some v /\ nth_error vs j = Some w /\
      ((p = v_pt v /\ q = v_pt w /\ g = h) \/ (p = v_pt w /\ q = v_pt v /\ g = backwards (v_pt v) h)).
  Definition corner (vs : list (vertex T)) (p : vec2 T) : Prop := exists v, In v vs /\ p = v_pt v.
  (** A contour starts at a vertex, curves are pieces of the broken contours, and lines
      lead to the height of a vertex. *)
  Definition has_source (vs : list (vertex T)) (c : call (T := T)) : Prop :=
    match c with
    | MoveTo _ p => corner vs p
    | LineTo _ p => exists q, corner vs q /\ vy p = vy q
    | CubicTo _ a b p => exists q, piece vs q p (SCubic a b p)
    end.

  (** *** The calls spell the polygons of the output list *)
  Definition spells (c : call (T := T)) (g : seg T) : Prop :=
    match c, g with
    | LineTo _ p, SLine q => p = q
    | CubicTo _ a b p, SCubic a' b' q => a = a' /\ b = b' /\ p = q
    | _, _ => False
    end.
  (** From its origin along the up path, then along the down path from its end *)
  Definition spelled (o : poly T) (l : list (call (T := T))) : Prop :=
    exists p r, l = MoveTo p (o_origin o) :: r /\ Forall2 spells r (o_up o ++ rev (o_down o)).
  (** A polygon is written when it is closed and has a piece. *)
  Definition written (o : poly T) : bool :=
    o_complete o && match o_up o, o_down o with [], [] => false | _, _ => true end.
End Piece.
