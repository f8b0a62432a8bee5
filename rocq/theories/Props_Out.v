(** C51: polygons in general position, what is drawn in every run. *)
From Coq Require Import ZArith Bool List Reals Permutation.
From Verif Require Import Outcome Num Order Rmath Segment Path PathSpec VState VPath VBreak VAel VOut VMain RingSpec LineSpec BreakSpec ClipSpec AelSpec WindSpec ClimbSpec SpanSpec PlaneSpec OutSpec OutRun OutEven ClipCases PlaneCases.
Import ListNotations.
Local Open Scope Z_scope.
Local Open Scope out.

(** C51: any number of polygons in general position over the reals, and an operation
    whose result goes with the winding numbers or against them.  With enough turns of
    the loops the run ends well; with no number of turns is there undefined behaviour;
    only closed contours of lines are drawn; and the winding number of what is drawn is
    [d] at the points of the result of the operation and nought at all others. *)
Theorem C51_winding :
  forall en ps (s : clipper R),
    (forall l, Permutation (en_order en l) l) -> (forall i j, en_addr en i = en_addr en j -> i = j) ->
    Forall polygon (all_outlines ps) -> Forall above_end (all_outlines ps) -> generic (all_sides ps) -> add_all clipper0 ps = Ok s ->
    exists k, forall n op fill d, consistent d ps op fill ->
      ((k <= n)%nat -> exists s' cs, process en n s op fill = Ok (s', cs)) /\
      (forall u, process en n s op fill <> UB u) /\
      forall s' cs, process en n s op fill = Ok (s', cs) ->
        only_lines cs /\ (exists ks, ClipSpec.contours cs ks /\ Forall closed ks) /\
        forall x z, winding (lines_of cs) x z = if result ps op fill x z then d else 0.
Proof. exact polygons_out. Qed.
Print Assumptions C51_winding.
(** By the even-odd rule what is drawn is the result of the operation, at every point. *)
Theorem C51_inside :
  forall en ps (s : clipper R),
    (forall l, Permutation (en_order en l) l) -> (forall i j, en_addr en i = en_addr en j -> i = j) ->
    Forall polygon (all_outlines ps) -> Forall above_end (all_outlines ps) -> generic (all_sides ps) -> add_all clipper0 ps = Ok s ->
    forall n op fill d s' cs, consistent d ps op fill -> process en n s op fill = Ok (s', cs) ->
      forall x z, inside (V2 x z) cs = result ps op fill x z.
Proof. exact polygons_even. Qed.
Print Assumptions C51_inside.
(** Union and intersection are of that kind under the rules positive and negative, and
    under the others if all polygons are drawn the same way round; the difference is if
    the clipping polygons are drawn the other way round. *)
Theorem C51_consistent :
  forall ps op fill, op = op_union \/ op = op_intersection ->
    let S := winding (typed_sides ps subject) in let C := winding (typed_sides ps clip) in
    consistent 1 ps op positive /\ consistent (-1) ps op negative /\
    ((forall x z, 0 <= S x z /\ 0 <= C x z) -> consistent 1 ps op non_zero) /\
    ((forall x z, S x z <= 0 /\ C x z <= 0) -> consistent (-1) ps op non_zero) /\
    ((forall x z, 0 <= S x z <= 1 /\ 0 <= C x z <= 1) -> consistent 1 ps op even_odd) /\
    ((forall x z, -1 <= S x z <= 0 /\ -1 <= C x z <= 0) -> consistent (-1) ps op even_odd) /\
    consistent 1 ps op_none fill /\
    ((forall x z, 0 <= S x z /\ C x z <= 0) -> consistent 1 ps op_difference non_zero) /\
    ((forall x z, S x z <= 0 /\ 0 <= C x z) -> consistent (-1) ps op_difference non_zero) /\
    ((forall x z, 0 <= S x z <= 1 /\ -1 <= C x z <= 0) -> consistent 1 ps op_difference even_odd) /\
    ((forall x z, -1 <= S x z <= 0 /\ 0 <= C x z <= 1) -> consistent (-1) ps op_difference even_odd).
Proof. exact consistent_turn. Qed.
Print Assumptions C51_consistent.
(** Two triangles that cross: the hypotheses hold, and there is a run. *)
Example C51_case : Forall polygon (all_outlines ps_plane) /\ Forall above_end (all_outlines ps_plane) /\ generic (all_sides ps_plane) /\
  (forall l, Permutation (en_order env0 l) l) /\ (forall i j, en_addr env0 i = en_addr env0 j -> i = j) /\ exists s, add_all clipper0 ps_plane = Ok s.
Proof. exact plane_case. Qed.
Example C51_case_results : consistent 1 ps_plane op_union positive /\ consistent 1 ps_plane op_intersection non_zero /\ consistent 1 ps_plane op_union even_odd /\
  result ps_plane op_intersection non_zero 4 3 = true /\ result ps_plane op_union even_odd 8 4 = true /\ result ps_plane op_intersection non_zero 8 4 = false.
Proof. exact out_case. Qed.
Example C51_case_run : exists s n s' cs, add_all clipper0 ps_plane = Ok s /\ process env0 n s op_intersection non_zero = Ok (s', cs) /\
  inside (V2 4%R 3%R) cs = true /\ inside (V2 8%R 4%R) cs = false.
Proof. exact out_run. Qed.
