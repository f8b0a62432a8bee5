(** C60: subject and clip exchanged, union and intersection compared. *)
From Coq Require Import ZArith Bool List Reals Permutation Floats.SpecFloat.
From Verif Require Import Outcome Num Order Rmath Segment Path PathSpec VState VPath VBreak VAel VOut VMain RingSpec LineSpec BreakSpec ClipSpec AelSpec WindSpec ClimbSpec SpanSpec PlaneSpec OutSpec
  ClipCases PlaneCases LayoutSpec ListCases SwapSpec Swap SwapCases.
Import ListNotations.
Local Open Scope Z_scope.

(** C60: polygons in general position over the reals, an operation other than the
    difference whose result follows the winding numbers.  With the subject made clip and
    the clip made subject the run ends as well, and what the two runs draw has the same
    winding number at every point; memory may be laid out differently.
    Missing: the other polygons; for some it is false, see below. *)
Theorem C60_swap_partial :
  forall en en' ps (s s2 : clipper R), lawful en -> lawful en' ->
    Forall polygon (all_outlines ps) -> Forall above_end (all_outlines ps) -> generic (PlaneSpec.all_sides ps) ->
    add_all clipper0 ps = Ok s -> add_all clipper0 (swapped ps) = Ok s2 ->
    exists k, forall n op fill d, symmetric op -> consistent d ps op fill ->
      ((k <= n)%nat -> (exists x cs, process en n s op fill = Ok (x, cs)) /\ exists x cs, process en' n s2 op fill = Ok (x, cs)) /\
      forall m x x' cs cs', process en n s op fill = Ok (x, cs) -> process en' m s2 op fill = Ok (x', cs') ->
        forall u v, winding (lines_of cs') u v = winding (lines_of cs) u v /\ ClipSpec.inside (V2 u v) cs' = ClipSpec.inside (V2 u v) cs.
Proof. exact swap_run. Qed.
Print Assumptions C60_swap_partial.
(** C60: what is drawn for the intersection lies in what is drawn for the union, and the
    two together cover every point as often as the two operands do. *)
Theorem C60_together_partial :
  forall en ps (s : clipper R), lawful en ->
    Forall polygon (all_outlines ps) -> Forall above_end (all_outlines ps) -> generic (PlaneSpec.all_sides ps) -> add_all clipper0 ps = Ok s ->
    forall fill d n m x x' cu ci, consistent d ps op_union fill -> consistent d ps op_intersection fill ->
      process en n s op_union fill = Ok (x, cu) -> process en m s op_intersection fill = Ok (x', ci) ->
      forall u v, (winding (lines_of ci) u v <> 0 -> winding (lines_of cu) u v <> 0) /\
        winding (lines_of cu) u v + winding (lines_of ci) u v =
          (if in_fill fill (winding (typed_sides ps subject) u v) then d else 0) + (if in_fill fill (winding (typed_sides ps clip) u v) then d else 0).
Proof. exact both_runs. Qed.
Print Assumptions C60_together_partial.
(** Two triangles that cross: the hypotheses of both hold. *)
Example C60_case : lawful env0 /\ Forall polygon (all_outlines ps_plane) /\ Forall above_end (all_outlines ps_plane) /\ generic (PlaneSpec.all_sides ps_plane) /\
  (exists s, add_all clipper0 ps_plane = Ok s) /\ (exists s, add_all clipper0 (swapped ps_plane) = Ok s) /\
  symmetric op_union /\ symmetric op_intersection /\ consistent 1 ps_plane op_union positive /\ consistent 1 ps_plane op_intersection positive /\ result ps_plane op_intersection non_zero 4 3 = true.
Proof. exact swap_case. Qed.

(** C60 is false of the code: the intersection of a triangle with itself is empty, or it
    is the triangle, depending on whether it is given as subject first or as clip first. *)
Theorem C60_self_refuted :
  forall lm : libm, let N := B64 lm in
  exists en n (s s2 s' s2' : clipper spec_float) l, lawful en /\
    add_all clipper0 (ListCases.rings SFofZ z_self) = Ok s /\ add_all clipper0 (swapped (ListCases.rings SFofZ z_self)) = Ok s2 /\
    process en n s op_intersection non_zero = Ok (s', []) /\ process en n s2 op_intersection non_zero = Ok (s2', l) /\ length l = 4%nat.
Proof. exact self_lemma. Qed.
Print Assumptions C60_self_refuted.
