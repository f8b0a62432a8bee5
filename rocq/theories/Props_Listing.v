(** C47: what the answer owes to the way in which the contours are listed.
    [listing] gives the contours with their corners in the order of drawing; [same_contours]
    allows another order of the contours and another first corner of each. *)
From Coq Require Import ZArith Bool List Reals Floats.SpecFloat.
From Verif Require Import Outcome Num Rmath Segment Path PathSpec VState VPath VBreak VAel VOut VMain RingSpec BreakSpec BreakDrawn ClipSpec ClipCases BoxSpec BoxCases
  LayoutSpec LayoutCases ListSpec ListProofs ListCases.
Import ListNotations.

(** C47: polygons in exact arithmetic, no two corners at one place and no two sides over each
    other: neither the order of the contours nor their first corners change the calls. *)
Theorem C47_listing_partial :
  forall en en' n ps ps' (s s' : clipper R) op fill,
    Forall polygon (all_outlines ps) -> Forall polygon (all_outlines ps') -> same_contours (listing ps) (listing ps') ->
    distinct_corners (listing ps) -> no_overlap (listing ps) ->
    add_all clipper0 ps = Ok s -> add_all clipper0 ps' = Ok s' ->
    lawful en -> lawful en' -> en_fuel en = en_fuel en' ->
    same_answer (process en n s op fill) (process en' n s' op fill).
Proof. exact listing_answer. Qed.
Print Assumptions C47_listing_partial.
Example C47_listing_case :
  Forall polygon (all_outlines ps_squares) /\ Forall polygon (all_outlines ps_relisted) /\
  same_contours (listing ps_squares) (listing ps_relisted) /\ listing ps_squares <> listing ps_relisted /\
  distinct_corners (listing ps_squares) /\ no_overlap (listing ps_squares) /\
  exists s s' t l, add_all clipper0 ps_squares = Ok s /\ add_all clipper0 ps_relisted = Ok s' /\ process env0 60 s op_union non_zero = Ok (t, l) /\
    (forall p, moderate (vx p) -> moderate (vy p) -> inside p l = in_box p sqA || in_box p sqB)%bool.
Proof. exact relisted_case. Qed.

(** C47, doubles: under the same conditions, the order of the contours changes the number of
    calls from 16 to 14, and the first corners change the calls. *)
Theorem C47_order_refuted :
  forall lm : libm, let N := B64 lm in
  distinct_corners (listing (rings IZR z_order)) /\ no_overlap (listing (rings IZR z_order)) /\
  same_contours (listing (rings SFofZ z_order)) (listing (rings SFofZ (rev z_order))) /\
  exists s s' t t' l l', add_all clipper0 (rings SFofZ z_order) = Ok s /\ add_all clipper0 (rings SFofZ (rev z_order)) = Ok s' /\
    process env0 200 s op_xor non_zero = Ok (t, l) /\ process env0 200 s' op_xor non_zero = Ok (t', l') /\ length l = 16 /\ length l' = 14 /\ l <> l'.
Proof. exact order_case. Qed.
Print Assumptions C47_order_refuted.
Theorem C47_start_refuted :
  forall lm : libm, let N := B64 lm in
  distinct_corners (listing (rings IZR z_start)) /\ no_overlap (listing (rings IZR z_start)) /\
  same_contours (listing (rings SFofZ z_start)) (listing (rings SFofZ (later z_start))) /\
  exists s s' t t' l l', add_all clipper0 (rings SFofZ z_start) = Ok s /\ add_all clipper0 (rings SFofZ (later z_start)) = Ok s' /\
    process env0 200 s op_difference non_zero = Ok (t, l) /\ process env0 200 s' op_difference non_zero = Ok (t', l') /\ length l = 8 /\ length l' = 8 /\ l <> l'.
Proof. exact start_case. Qed.
Print Assumptions C47_start_refuted.
(** C47, doubles: with a common lowest corner, or with a triangle without area, the order of the
    contours decides whether the intersection is empty. *)
Theorem C47_shared_refuted :
  forall lm : libm, let N := B64 lm in
  no_overlap (listing (rings IZR z_shared)) /\
  same_contours (listing (rings SFofZ z_shared)) (listing (rings SFofZ (rev z_shared))) /\
  exists s s' t t' l l', add_all clipper0 (rings SFofZ z_shared) = Ok s /\ add_all clipper0 (rings SFofZ (rev z_shared)) = Ok s' /\
    process env0 200 s op_intersection non_zero = Ok (t, l) /\ process env0 200 s' op_intersection non_zero = Ok (t', l') /\ length l = 4 /\ length l' = 0 /\ l <> l'.
Proof. exact shared_case. Qed.
Print Assumptions C47_shared_refuted.
Theorem C47_flat_refuted :
  forall lm : libm, let N := B64 lm in
  distinct_corners (listing (rings IZR z_flat)) /\
  same_contours (listing (rings SFofZ z_flat)) (listing (rings SFofZ (rev z_flat))) /\
  exists s s' t t' l l', add_all clipper0 (rings SFofZ z_flat) = Ok s /\ add_all clipper0 (rings SFofZ (rev z_flat)) = Ok s' /\
    process env0 200 s op_intersection non_zero = Ok (t, l) /\ process env0 200 s' op_intersection non_zero = Ok (t', l') /\ length l = 4 /\ length l' = 0 /\ l <> l'.
Proof. exact flat_case. Qed.
Print Assumptions C47_flat_refuted.
