(** C48: the active edges are the sides of the contours that the scan line meets. *)
From Coq Require Import ZArith Bool List Reals Permutation.
From Verif Require Import Outcome Num Order Rmath Segment Path PathSpec VState VPath VBreak VAel VOut VMain RingSpec BezierSpec BreakSpec ClimbSpec ClipCases BreakCases
  BreakDrawn ClimbCases SpanSpec SpanEnd SpanCases.
Import ListNotations.

(** Contours without crossings, in any arithmetic with ordered numbers: when the
    work at a scan line is done, the active edges are the sides that start at or
    below that line and end above it: each once, from its lower corner to its
    upper one. *)
Theorem C48_apart_partial :
  forall (T : Type) (N : Num T) (O : OrdNum T) en (ps : list (path_type * list (list (outline (T := T))))) (s : clipper T),
    drawable_paths ps -> add_all clipper0 ps = Ok s ->
    Forall (fun v => nvalid (vy (v_pt v))) (verts s) -> not_at_end s -> find_breaks en (verts s) (starts s) = Ok [] ->
    exists ls, rings (verts s) ls /\ starts s = map (hd 0) ls /\
      forall n op fill y ys s1 s2, visits en n s op fill (y :: ys) s1 -> scan_at n s1 y = Ok s2 -> verts s2 = verts s /\ spans s2 ls y.
Proof. exact (@apart_spans). Qed.
Print Assumptions C48_apart_partial.
Example C48_apart_case (lm : libm) : let N := B64 lm in
  exists s y s1 s2, add_all clipper0 ps_apart = Ok s /\ drawable_paths ps_apart /\
    Forall (fun v : vertex b64 => @nvalid b64 (B64 lm) (B64_ord lm) (vy (v_pt v))) (verts s) /\ not_at_end s /\
    find_breaks env0 (verts s) (starts s) = Ok [] /\
    visits env0 20 s op_union even_odd [y] s1 /\ scan_at 20 s1 y = Ok s2 /\ length (edges s2) = 2 /\ ael s2 <> None.
Proof. exact (apart_spans_case lm). Qed.
(** Polygons over the reals, crossing in any way: the same for the contours broken at
    the crossings. *)
Theorem C48_polygons_partial :
  forall en (ps : list (path_type * list (list (outline (T := R))))) (s : clipper R),
    (forall l, Permutation (en_order en l) l) -> (forall i j, en_addr en i = en_addr en j -> i = j) ->
    Forall polygon (all_outlines ps) -> Forall above_end (all_outlines ps) -> add_all clipper0 ps = Ok s ->
    exists ls news s', process_intersect en s = Ok s' /\ rings (verts s) ls /\ starts s = map (hd 0) ls /\
      (forall l, In l (map (with_new news) ls) -> exists gs, ring (verts s') l gs) /\ NoDup (concat (map (with_new news) ls)) /\
      forall n op fill y ys s1 s2, visits en n s op fill (y :: ys) s1 -> scan_at n s1 y = Ok s2 ->
        verts s2 = verts s' /\ spans s2 (map (with_new news) ls) y.
Proof. exact polygon_spans. Qed.
Print Assumptions C48_polygons_partial.
Example C48_polygons_case : let ps := [(subject, [[sqR 0]]); (clip, [[sqR 2]])] in
  Forall polygon (all_outlines ps) /\ Forall above_end (all_outlines ps) /\ (forall l, Permutation (en_order env0 l) l) /\
  exists s, add_all clipper0 ps = Ok s.
Proof. exact squares_above. Qed.
(** A vertex as low as a double can be is taken for the start of the sweep: its
    contour is not swept, nor is any other, and the output is empty. *)
Theorem C48_lowest_refuted :
  forall lm : libm, let N := B64 lm in
  exists ps s y s1 s2, add_all clipper0 ps = Ok s /\ drawable_paths ps /\
    Forall (fun v : vertex b64 => @nvalid b64 (B64 lm) (B64_ord lm) (vy (v_pt v))) (verts s) /\
    find_breaks env0 (verts s) (starts s) = Ok [] /\
    visits env0 20 s op_union even_odd [y] s1 /\ scan_at 20 s1 y = Ok s2 /\
    (forall ls, rings (verts s) ls -> starts s = map (hd 0) ls -> ~ spans s2 ls y) /\
    exists t, process env0 20 s op_union even_odd = Ok (t, []).
Proof. exact deep_case. Qed.
Print Assumptions C48_lowest_refuted.
