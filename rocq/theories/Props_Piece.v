(** C31, C36, C45: where the pieces of the output come from, in any arithmetic. *)
From Coq Require Import ZArith Bool List.
From Verif Require Import Outcome Num Rmath Segment Path PathSpec VState VPath VBreak VAel VOut VMain RingSpec BreakSpec BreakDrawn ClipSpec ClipCases PieceSpec Piece PieceCases.
Import ListNotations.

(** C45: every contour starts at a vertex of the broken contours, every curve is one of
    their segments in one direction or the other, and every line ends at the height of
    a vertex.  [verts s'] are the broken contours of C23. *)
Theorem C45_sources :
  forall (T : Type) (N : Num T) en n ps (s : clipper T) op fill s' l,
    drawable_paths ps -> add_all clipper0 ps = Ok s -> process en n s op fill = Ok (s', l) -> Forall (has_source (verts s')) l.
Proof. exact (@sources). Qed.
Print Assumptions C45_sources.
Example C45_case : let N := B64 lm_plain in
  drawable_paths ps_leaf /\ exists s s', add_all clipper0 ps_leaf = Ok s /\ process env0 100 s op_union non_zero = Ok (s', leaf_calls).
Proof. exact leaf_case. Qed.

(** C36, at every scan line of every run: a copy of the segment of an edge, taken in the
    direction of the edge or reversed, leads from its bottom to its top or back,
    whichever is wanted. *)
Theorem C36_copies :
  forall (T : Type) (N : Num T) en n ps (s : clipper T) op fill s' y e up,
    drawable_paths ps -> add_all clipper0 ps = Ok s -> seen en n s op fill s' y -> In e (edges s') ->
    exists g, copy_seg s' e (xorb (Z.ltb (e_dx e) 0) up) = Ok g /\
      piece (verts s') (if up then e_bot e else e_top e) (if up then e_top e else e_bot e) g.
Proof. exact (@copies). Qed.
Print Assumptions C36_copies.
Example C36_copies_case : let N := B64 lm_plain in
  drawable_paths ps_leaf /\ exists s s' y e, add_all clipper0 ps_leaf = Ok s /\ seen env0 100 s op_union non_zero s' y /\
    In e (edges s') /\ e_bot e = zp 0 0 /\ e_top e = zp 0 9 /\ copy_seg s' e (xorb (Z.ltb (e_dx e) 0) false) = Ok (SCubic (zp 8 6) (zp 8 3) (zp 0 0)).
Proof. exact leaf_copy_case. Qed.

(** C31: the calls are the closed polygons of the output list, piece by piece: lines as
    lineto, curves as cubicto with the same control points. *)
Theorem C31_spelled :
  forall (T : Type) (N : Num T) en n ps (s : clipper T) op fill s' l,
    drawable_paths ps -> add_all clipper0 ps = Ok s -> process en n s op fill = Ok (s', l) ->
    exists cs, l = concat cs /\ Forall2 spelled (filter written (polys s')) cs.
Proof. exact (@spelling). Qed.
Print Assumptions C31_spelled.
Example C31_spelled_case : let N := B64 lm_plain in
  drawable_paths ps_leaf /\ exists s s', add_all clipper0 ps_leaf = Ok s /\ process env0 100 s op_union non_zero = Ok (s', leaf_calls).
Proof. exact leaf_case. Qed.
