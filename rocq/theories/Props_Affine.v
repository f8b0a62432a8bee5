(** C58 in exact arithmetic, and the same drawing in doubles.
    [en] is what C++ leaves open: where sort puts equal keys and the addresses of objects. *)
From Coq Require Import ZArith Bool List Reals Lra Lia Permutation Floats.SpecFloat.
From Verif Require Import Outcome Num Rmath Segment Path PathSpec VState VPath VBreak VAel VOut VMain RingSpec BreakSpec ClipCases StretchSpec LayoutSpec ListCases ReuseCases
  AffineSpec AffineRun AffineCases.
Import ListNotations.

(** C58: any number of polygons, any operation and fill rule.  Multiplying the
    coordinates by positive numbers and adding others does not change the way the run
    ends, and it does the same to the output, point by point. *)
Theorem C58_moved :
  forall en fuel ps op fill a b c d s s2,
    (forall l, Permutation (en_order en l) l) -> (forall i j, en_addr en i = en_addr en j -> i = j) ->
    (0 < a)%R -> (0 < c)%R -> Forall polygon (all_outlines ps) ->
    Forall in_range (all_outlines ps) -> Forall in_range (all_outlines (moved_paths (affine a b) (affine c d) ps)) ->
    add_all clipper0 ps = Ok s -> add_all clipper0 (moved_paths (affine a b) (affine c d) ps) = Ok s2 ->
    same_run (affine a b) (affine c d) (process en fuel s op fill) (process en fuel s2 op fill).
Proof. exact affine_run. Qed.
Print Assumptions C58_moved.
Example C58_moved_case : lawful env0 /\ Forall polygon (all_outlines (ListCases.rings IZR z_move)) /\ Forall in_range (all_outlines (ListCases.rings IZR z_move)) /\
  Forall in_range (all_outlines (moved_paths (affine 2 (-5)) (affine 3 1) (ListCases.rings IZR z_move))) /\
  exists s s2, add_all clipper0 (ListCases.rings IZR z_move) = Ok s /\ add_all clipper0 (moved_paths (affine 2 (-5)) (affine 3 1) (ListCases.rings IZR z_move)) = Ok s2.
Proof. exact move_case. Qed.

(** C58, doubles: three triangles with corners at integers between 1 and 9.  One unit
    further to the right and upwards the same union has 19 calls in place of 18. *)
Theorem C58_double_refuted :
  forall lm : libm, let N := B64 lm in
  exists en n (s s2 s' s2' : clipper spec_float) l l', lawful en /\
    add_all clipper0 (ListCases.rings SFofZ z_anew) = Ok s /\ add_all clipper0 (ListCases.rings (z_there lm) z_anew) = Ok s2 /\
    process en n s op_union non_zero = Ok (s', l) /\ process en n s2 op_union non_zero = Ok (s2', l') /\ length l = 18 /\ length l' = 19.
Proof. exact move_doubles. Qed.
Print Assumptions C58_double_refuted.

(** C58, doubles, curves: an arch with two straight sides below.  The same shape 2^40
    times smaller, without any rounding, comes out as a triangle: whether a curve turns is
    decided with the fixed bound 1e-8. *)
Theorem C58_curve_refuted :
  forall lm : libm, let N := B64 lm in
  exists en n (s s2 s' s2' : clipper spec_float) l l', lawful en /\
    add_all clipper0 (z_arch SFofZ) = Ok s /\ add_all clipper0 (z_arch (z_small lm)) = Ok s2 /\
    process en n s op_union non_zero = Ok (s', l) /\ process en n s2 op_union non_zero = Ok (s2', l') /\
    length (filter is_curve l) = 2 /\ length l' = 4 /\ filter is_curve l' = [].
Proof. exact arch_doubles. Qed.
Print Assumptions C58_curve_refuted.
