(** C49, C50: polygons in general position, order and counts in every run. *)
From Coq Require Import ZArith Bool List Reals Permutation.
From Verif Require Import Outcome Num Order Rmath Segment Path PathSpec VState VPath VBreak VAel VOut VMain RingSpec LineSpec BreakSpec ClipSpec AelSpec WindSpec ClimbSpec SpanSpec PlaneSpec PlaneEnd ClipCases PlaneCases.
Import ListNotations.
Local Open Scope out.

(** C49: polygons in general position over the reals.  Between two scan lines the
    active edges stand from left to right. *)
Theorem C49_order_partial :
  forall en ps (s : clipper R),
    (forall l, Permutation (en_order en l) l) -> (forall i j, en_addr en i = en_addr en j -> i = j) ->
    Forall polygon (all_outlines ps) -> Forall above_end (all_outlines ps) -> generic (all_sides ps) -> add_all clipper0 ps = Ok s ->
    forall n op fill y ys s1 s2 y' s3 z l,
      visits en n s op fill (y :: ys) s1 -> scan_at n s1 y = Ok s2 -> pop_scanline s2 y = (Some y', s3) -> (y < z < y')%R -> active s2 l ->
      ForallOrdPairs (fun i j => forall e f, nth_error (edges s2) i = Some e -> nth_error (edges s2) j = Some f -> (ex e z < ex f z)%R) l.
Proof. exact C49_lemma. Qed.
Print Assumptions C49_order_partial.
(** Two triangles that cross six times *)
Example C49_case : Forall polygon (all_outlines ps_plane) /\ Forall above_end (all_outlines ps_plane) /\ generic (all_sides ps_plane) /\
  (forall l, Permutation (en_order env0 l) l) /\ (forall i j, en_addr env0 i = en_addr env0 j -> i = j) /\ exists s, add_all clipper0 ps_plane = Ok s.
Proof. exact plane_case. Qed.
(** Missing: polygons not in general position, curves, and doubles, where it is false
    (C25_insert_minimum_refuted). *)

(** C50: at every point between two scan lines the edges to its left give the winding
    numbers of the polygons there, and all counts are right. *)
Theorem C50_counts_partial :
  forall en ps (s : clipper R),
    (forall l, Permutation (en_order en l) l) -> (forall i j, en_addr en i = en_addr en j -> i = j) ->
    Forall polygon (all_outlines ps) -> Forall above_end (all_outlines ps) -> generic (all_sides ps) -> add_all clipper0 ps = Ok s ->
    forall n op fill y ys s1 s2 y' s3 z x,
      visits en n s op fill (y :: ys) s1 -> scan_at n s1 y = Ok s2 -> pop_scanline s2 y = (Some y', s3) -> (y < z < y')%R ->
      exists l1 l2, active s2 (l1 ++ l2) /\ all_counted fill s2 (l1 ++ l2) /\
        (forall i e, In i l1 -> nth_error (edges s2) i = Some e -> (ex e z < x)%R) /\
        (forall i e, In i l2 -> nth_error (edges s2) i = Some e -> (x <= ex e z)%R) /\
        wind s2 subject l1 (winding (typed_sides ps subject) x z) /\ wind s2 clip l1 (winding (typed_sides ps clip) x z).
Proof. exact C50_counts_lemma. Qed.
Print Assumptions C50_counts_partial.
(** An odd number of the edges to the left of a point are kept exactly if the point is
    in the result of the operation. *)
Theorem C50_inside_partial :
  forall en ps (s : clipper R),
    (forall l, Permutation (en_order en l) l) -> (forall i j, en_addr en i = en_addr en j -> i = j) ->
    Forall polygon (all_outlines ps) -> Forall above_end (all_outlines ps) -> generic (all_sides ps) -> add_all clipper0 ps = Ok s ->
    forall n op fill y ys s1 s2 y' s3 z x,
      visits en n s op fill (y :: ys) s1 -> scan_at n s1 y = Ok s2 -> pop_scanline s2 y = (Some y', s3) -> (y < z < y')%R ->
      exists l1 l2 k, active s2 (l1 ++ l2) /\
        (forall i e, In i l1 -> nth_error (edges s2) i = Some e -> (ex e z < x)%R) /\
        (forall i e, In i l2 -> nth_error (edges s2) i = Some e -> (x <= ex e z)%R) /\
        kept s2 l1 k /\
        Nat.odd (length k) = bool_op op (in_fill fill (winding (typed_sides ps subject) x z)) (in_fill fill (winding (typed_sides ps clip) x z)).
Proof. exact C50_inside_lemma. Qed.
Print Assumptions C50_inside_partial.
(** The same triangles; winding numbers at a point in both, in one and in none *)
Example C50_case : (generic (all_sides ps_plane) /\
  winding (typed_sides ps_plane subject) 4 3 = 1 /\ winding (typed_sides ps_plane clip) 4 3 = 1 /\
  winding (typed_sides ps_plane subject) 8 4 = 0 /\ winding (typed_sides ps_plane clip) 8 4 = 1 /\
  winding (typed_sides ps_plane subject) 0 4 = 0 /\ winding (typed_sides ps_plane clip) 0 4 = 0)%Z.
Proof. exact (conj ps_generic ps_winding). Qed.
(** Missing as for C49; for doubles it is false (C26_run_refuted). *)
