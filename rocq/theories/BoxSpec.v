(** Two rectangles, and what the operations on them should give. *)
From Coq Require Import ZArith Bool List Reals.
From Verif Require Import Outcome Num Rmath Segment Path PathSpec VState VPath VBreak VAel VOut VMain RingSpec ClipSpec BreakSpec.
Import ListNotations.

Section Boxes.
  Context {T : Type} {N : Num T}.
  Implicit Types r s c : rect T.
  Definition x0 r := vx (rmin r).
  Definition x1 r := vx (rmax r).
  Definition y0 r := vy (rmin r).
  Definition y1 r := vy (rmax r).

  (** The corners in positive (counterclockwise) order, y upwards *)
  Definition box_corners r : list (vec2 T) := [V2 (x0 r) (y0 r); V2 (x1 r) (y0 r); V2 (x1 r) (y1 r); V2 (x0 r) (y1 r)].
  (** The rectangle drawn in that order from corner [k]: moveto and three linetos *)
  Definition box_outline (k : nat) r : outline (T := T) :=
    match skipn k (box_corners r) ++ firstn k (box_corners r) with
    | p :: q => (p, map PLine q)
    | [] => (rmin r, [])
    end.
  (** Subject and clip, added in this order or in the other *)
  Definition box_paths (subject_first : bool) (k k' : nat) s c : list (path_type * list (list (outline (T := T)))) :=
    let a := (subject, [[box_outline k s]]) in let b := (clip, [[box_outline k' c]]) in
    if subject_first then [a; b] else [b; a].

  (** The point belongs to the rectangle.  On the border this follows
      [ClipSpec.inside]: the left and upper sides do not belong to it. *)
  Definition in_box (p : vec2 T) r : bool :=
    n_ltb (x0 r) (vx p) && n_leb (vx p) (x1 r) && n_leb (y0 r) (vy p) && n_ltb (vy p) (y1 r).
  (** The winding number is 1 in the rectangle and 0 outside. *)
  Definition covers (fill : fill_rule) r (p : vec2 T) : bool := match fill with negative => false | _ => in_box p r end.

  (** *** The pairs of rectangles on which the code is right *)
  Definition x_overlap s c : bool := n_ltb (x0 s) (x1 c) && n_ltb (x0 c) (x1 s).
  Definition y_overlap s c : bool := n_ltb (y0 s) (y1 c) && n_ltb (y0 c) (y1 s).
  (** The clip takes the middle of the upper side of the subject. *)
  Definition bites_top s c : bool :=
    n_ltb (x0 s) (x0 c) && n_ltb (x1 c) (x1 s) && n_ltb (y0 s) (y0 c) && n_ltb (y0 c) (y1 s) && n_ltb (y1 s) (y1 c).
  (** The clip takes a part, but not the whole, of the lower side of the subject. *)
  Definition bites_bottom s c : bool :=
    n_ltb (y0 c) (y0 s) && n_ltb (y0 s) (y1 c) && x_overlap s c && negb (n_ltb (x0 c) (x0 s) && n_ltb (x1 s) (x1 c)).
  (** They lie to each other in x as they do in y. *)
  Definition like s c : bool := Bool.eqb (n_ltb (x0 s) (x0 c)) (n_ltb (y0 s) (y0 c)) && Bool.eqb (n_ltb (x1 s) (x1 c)) (n_ltb (y1 s) (y1 c)).
  Definition clean (op : clip_type) s c : bool :=
    match op with
    | op_difference => negb (bites_top s c) && negb (bites_bottom s c)
    | op_xor => negb (x_overlap s c && y_overlap s c) || like s c
    | _ => true
    end.
  (** Under the rule negative both regions are empty, and so is the answer. *)
  Definition right_on (op : clip_type) (fill : fill_rule) s c : bool := match fill with negative => true | _ => clean op s c end.
End Boxes.

(** *** Over the reals *)
(** A side from [a] to [c] and a coordinate [u]: not within a millionth of the side
    of its ends *)
Definition clear_of (a c u : R) : Prop := (Rabs (u - a) > (c - a) / 1000000 /\ Rabs (u - c) > (c - a) / 1000000)%R.
Definition clear_axis (a c a' c' : R) : Prop := clear_of a c a' /\ clear_of a c c' /\ clear_of a' c' a /\ clear_of a' c' c.
(** Coordinates that the code can represent, away from the sentinels +-DBL_MAX *)
Definition moderate (x : R) : Prop := (- R_huge < x < R_huge)%R.
Definition a_box (r : rect R) : Prop :=
  (x0 r < x1 r /\ y0 r < y1 r)%R /\ moderate (x0 r) /\ moderate (x1 r) /\ moderate (y0 r) /\ moderate (y1 r).
(** No two sides on one line, nor nearly so *)
Definition general (s c : rect R) : Prop :=
  a_box s /\ a_box c /\ clear_axis (x0 s) (x1 s) (x0 c) (x1 c) /\ clear_axis (y0 s) (y1 s) (y0 c) (y1 c).
(** Every line is parallel to an axis. *)
Definition upright (l : list (call (T := R))) : Prop :=
  Forall (fun c => match c with LineTo a b => vx a = vx b \/ vy a = vy b | MoveTo _ _ => True | CubicTo _ _ _ _ => False end) l.
