(** C53: one processor used for several runs.  [uses en n s js] is what the runs [js] of one
    processor write, one after the other; [totals [] ls] is each list of [ls] with the lists
    before it in front. *)
From Coq Require Import ZArith Bool List Reals Floats.SpecFloat.
From Verif Require Import Outcome Num Order Rmath Segment Path PathSpec VState VPath VBreak VAel VOut VMain RingSpec BreakSpec BreakDrawn ClipSpec ClipCases
  SpanSpec PlaneSpec PlaneCases OutSpec LayoutSpec LayoutCases ListSpec ListCases ReuseSpec ReuseRun ReusePoly ReuseCases.
Import ListNotations.
Local Open Scope out.

(** C53, any numbers with an order, contours of lines and curves: if no coordinate of a local
    minimum is NaN and the contours, once broken, have no more crossings, then each run of one
    processor writes what all the runs before it wrote, and then what a new processor would write. *)
Theorem C53_again_partial :
  forall {T} {N : Num T} {O : OrdNum T} en n ps (s : clipper T) js ls,
    drawable_paths ps -> add_all clipper0 ps = Ok s -> minima_valid s -> quiet en s ->
    Forall2 (fun j l => exists s', process en n s (fst j) (snd j) = Ok (s', l)) js ls ->
    uses en n s js = Ok (totals [] ls).
Proof. exact @uses_drawn. Qed.
Print Assumptions C53_again_partial.
Example C53_again_case : forall lm : libm, let N := B64 lm in
  let s := loaded64 lm z_reuse in drawable_paths (ListCases.rings SFofZ z_reuse) /\ add_all clipper0 (ListCases.rings SFofZ z_reuse) = Ok s /\ minima_valid s /\ quiet env0 s /\
    exists s' s'' l l', process env0 200 s op_union non_zero = Ok (s', l) /\ process env0 200 s op_intersection non_zero = Ok (s'', l') /\ length l = 8 /\ length l' = 4.
Proof. exact reuse_double. Qed.

(** C53: polygons in general position over the reals need no such assumption. *)
Theorem C53_polygons :
  forall en n ps (s : clipper R) js ls,
    lawful en -> Forall polygon (all_outlines ps) -> generic (PlaneSpec.all_sides ps) -> add_all clipper0 ps = Ok s ->
    Forall2 (fun j l => exists s', process en n s (fst j) (snd j) = Ok (s', l)) js ls ->
    uses en n s js = Ok (totals [] ls).
Proof. exact uses_polygons. Qed.
Print Assumptions C53_polygons.
(** C53: with enough turns of the loops all the runs end well, and what each of them adds to the
    calls before it is by the even-odd rule the result of its operation. *)
Theorem C53_results :
  forall en ps (s : clipper R),
    lawful en -> Forall polygon (all_outlines ps) -> Forall above_end (all_outlines ps) -> generic (PlaneSpec.all_sides ps) -> add_all clipper0 ps = Ok s ->
    exists k, forall n js, k <= n -> Forall (fun j => exists d, consistent d ps (fst j) (snd j)) js ->
      exists ls, uses en n s js = Ok (totals [] ls) /\
        Forall2 (fun j l => only_lines l /\ forall x z, ClipSpec.inside (V2 x z) l = result ps (fst j) (snd j) x z) js ls.
Proof. exact uses_results. Qed.
Print Assumptions C53_results.
(** C53: the same run twice.  The second writes the contours of the first once more, and by the
    even-odd rule nothing is inside the path it writes. *)
Theorem C53_twice :
  forall en n ps (s s' : clipper R) op fill l,
    lawful en -> Forall polygon (all_outlines ps) -> generic (PlaneSpec.all_sides ps) -> add_all clipper0 ps = Ok s ->
    process en n s op fill = Ok (s', l) ->
    uses en n s [(op, fill); (op, fill)] = Ok [l; l ++ l] /\ forall x z, ClipSpec.inside (V2 x z) (l ++ l) = false.
Proof. exact uses_twice. Qed.
Print Assumptions C53_twice.
(** Two triangles: their union, and then their intersection *)
Example C53_polygons_case : lawful env0 /\ Forall polygon (all_outlines ps_plane) /\ Forall above_end (all_outlines ps_plane) /\ generic (PlaneSpec.all_sides ps_plane) /\
  exists s n s' s'' l l', add_all clipper0 ps_plane = Ok s /\ process env0 n s op_union positive = Ok (s', l) /\ process env0 n s op_intersection non_zero = Ok (s'', l') /\
    ClipSpec.inside (V2 8%R 4%R) l = true /\ ClipSpec.inside (V2 8%R 4%R) l' = false /\ ClipSpec.inside (V2 4%R 3%R) l' = true.
Proof. exact reuse_plane. Qed.

(** C53, doubles: three triangles whose contours, once broken, have new crossings.  The first run
    writes 18 calls and the same run again 42. *)
Theorem C53_double_refuted :
  forall lm : libm, let N := B64 lm in
  exists en n (s s' : clipper spec_float) l l', lawful en /\ drawable_paths (ListCases.rings SFofZ z_anew) /\ add_all clipper0 (ListCases.rings SFofZ z_anew) = Ok s /\ minima_valid s /\
    process en n s op_union non_zero = Ok (s', l) /\ uses en n s [(op_union, non_zero); (op_union, non_zero)] = Ok [l; l'] /\ length l = 18 /\ length l' = 42.
Proof. exact reuse_anew. Qed.
Print Assumptions C53_double_refuted.
