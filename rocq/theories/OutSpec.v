(** What is drawn by the calls of the write functions. *)
From Coq Require Import ZArith Bool List Reals.
From Verif Require Import Outcome Num Rmath Segment Path PathSpec VState VPath VAel VOut VMain BreakSpec ClipSpec WindSpec SpanSpec PlaneSpec.
Import ListNotations.
Local Open Scope Z_scope.

(** The lines drawn, from point to point *)
Definition lines_of (cs : list (call (T := R))) : list (vec2 R * vec2 R) :=
  flat_map (fun c => match c with LineTo a b => [(a, b)] | _ => [] end) cs.
(** No curve is drawn. *)
Definition only_lines (cs : list (call (T := R))) : Prop :=
  Forall (fun c => match c with CubicTo _ _ _ _ => False | _ => True end) cs.
(** Whether the point [(x,z)] is in the result of the operation *)
Definition result ps (op : clip_type) (fill : fill_rule) (x z : R) : bool :=
  bool_op op (in_fill fill (winding (typed_sides ps subject) x z)) (in_fill fill (winding (typed_sides ps clip) x z)).
(** At any one height, the result goes with the winding numbers ([d = 1]) or against
    them ([d = -1]): where neither of the two falls, the result is not left (not
    entered). *)
Definition consistent (d : Z) ps (op : clip_type) (fill : fill_rule) : Prop :=
  (d = 1 \/ d = -1) /\
  forall x x' z,
    winding (typed_sides ps subject) x z <= winding (typed_sides ps subject) x' z ->
    winding (typed_sides ps clip) x z <= winding (typed_sides ps clip) x' z ->
    if d =? 1 then result ps op fill x z = true -> result ps op fill x' z = true
    else result ps op fill x' z = true -> result ps op fill x z = true.
