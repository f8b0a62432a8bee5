(** C52: what the answer owes to the way in which std::sort orders equivalent elements.
    [process_by srt] is the clipper with [srt] in place of std::sort; [sorts] is what the language
    promises of it. *)
From Coq Require Import ZArith Bool List Reals Floats.SpecFloat.
From Verif Require Import Outcome Num Rmath Segment Path PathSpec VState VPath VBreak VAel VOut VMain RingSpec BreakSpec BreakDrawn ClipSpec ClipCases BoxSpec BoxCases
  LayoutSpec LayoutCases ListSpec ListCases SortSpec VSort SortRun SortCases.
Import ListNotations.

(** C52: polygons in exact arithmetic, no two corners at one place: any two ways of sorting give
    the same run. *)
Theorem C52_polygons_partial :
  forall srt, sorts srt -> forall en n ps (s : clipper R) op fill,
    Forall polygon (all_outlines ps) -> distinct_corners (listing ps) -> add_all clipper0 ps = Ok s -> lawful en ->
    process_by srt en n s op fill = process en n s op fill.
Proof. exact polygons_sort. Qed.
Print Assumptions C52_polygons_partial.
(** C52: curves, when no segment is recorded at one parameter with two different points and no two
    local minima are at one place. *)
Theorem C52_curves_partial :
  forall srt, sorts srt -> forall en n ps (s : clipper R) op fill,
    drawable_paths ps -> add_all clipper0 ps = Ok s -> lawful en ->
    (forall bs, find_breaks en (verts s) (starts s) = Ok bs -> told_once bs) -> minima_apart s ->
    process_by srt en n s op fill = process en n s op fill.
Proof. exact curves_sort. Qed.
Print Assumptions C52_curves_partial.
(** Two ways of sorting that differ *)
Example C52_sorts_case : sorts (@sort_by) /\ sorts sort_back /\
  sort_back _ (fun a b => Nat.ltb (fst a) (fst b)) [(1, 1); (1, 2)] <> sort_by (fun a b => Nat.ltb (fst a) (fst b)) [(1, 1); (1, 2)].
Proof. exact back_case. Qed.
Example C52_polygons_case : Forall polygon (all_outlines ps_squares) /\ distinct_corners (listing ps_squares) /\ lawful env0 /\
  exists s t l, add_all clipper0 ps_squares = Ok s /\ process_by sort_back env0 60 s op_union non_zero = Ok (t, l) /\
    (forall p, moderate (vx p) -> moderate (vy p) -> inside p l = in_box p sqA || in_box p sqB)%bool.
Proof. exact sorted_squares. Qed.
Example C52_curves_case : drawable_paths ps_squares /\ lawful env0 /\ exists s bs, add_all clipper0 ps_squares = Ok s /\ minima_apart s /\
  find_breaks env0 (verts s) (starts s) = Ok bs /\ told_once bs.
Proof. exact curves_squares. Qed.

(** C52, doubles: three triangles with sides through one point; one way of sorting gives 19 calls,
    another 14. *)
Theorem C52_breaks_refuted :
  forall lm : libm, let N := B64 lm in
  exists en n srt srt' s t t' l l', lawful en /\ sorts srt /\ sorts srt' /\ drawable_paths ps_meet /\ add_all clipper0 ps_meet = Ok s /\
    process_by srt en n s op_union non_zero = Ok (t, l) /\ process_by srt' en n s op_union non_zero = Ok (t', l') /\ length l = 19 /\ length l' = 14.
Proof. exact sorted_meet. Qed.
Print Assumptions C52_breaks_refuted.
(** C52, doubles: two polygons with the same lowest corner; the way of sorting decides whether
    their intersection is empty. *)
Theorem C52_minima_refuted :
  forall lm : libm, let N := B64 lm in
  exists en n srt srt' s t t' l l', lawful en /\ sorts srt /\ sorts srt' /\ drawable_paths (rings SFofZ z_shared) /\ add_all clipper0 (rings SFofZ z_shared) = Ok s /\
    process_by srt en n s op_intersection non_zero = Ok (t, l) /\ process_by srt' en n s op_intersection non_zero = Ok (t', l') /\ length l = 4 /\ length l' = 0.
Proof. exact sorted_shared. Qed.
Print Assumptions C52_minima_refuted.
