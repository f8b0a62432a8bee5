(** C43 in exact arithmetic.
    [en] is what C++ leaves open: where sort puts equal keys and the addresses of objects. *)
From Coq Require Import ZArith Bool List Reals Lra Lia Permutation.
From Verif Require Import Outcome Num Rmath Segment Path PathSpec VState VPath VBreak VAel VOut VMain RingSpec BreakSpec EquiSpec ClipCases BoxCases
  StretchSpec Stretch StretchCases.
Import ListNotations.

(** C43: any number of polygons with axis-parallel edges, no two on one line, any
    operation and fill rule.  Increasing maps of the coordinates do not change the
    way the run ends, and they move its output. *)
Theorem C43_moved :
  forall fx fy, stretch fx -> stretch fy ->
  forall en fuel ps op fill s s2,
    (forall l, Permutation (en_order en l) l) -> (forall i j, en_addr en i = en_addr en j -> i = j) ->
    Forall polygon (all_outlines ps) ->
    add_all clipper0 ps = Ok s -> add_all clipper0 (moved_paths fx fy ps) = Ok s2 ->
    right_angled s -> well_met s -> well_met s2 ->
    same_run fx fy (process en fuel s op fill) (process en fuel s2 op fill).
Proof. exact stretched_run. Qed.
Print Assumptions C43_moved.
Example C43_moved_case :
  stretch bend /\ Forall polygon (all_outlines (ell IZR)) /\
  exists s s2, add_all clipper0 (ell IZR) = Ok s /\ add_all clipper0 (moved_paths bend bend (ell IZR)) = Ok s2 /\ right_angled s /\ well_met s /\ well_met s2.
Proof. exact ell_case. Qed.
