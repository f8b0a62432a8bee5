(** C29, C32, C35 and C42 for two counterclockwise rectangles in exact arithmetic.
    [en] is what C++ leaves open: where sort puts equal keys and the addresses of objects.
    [fs] is which rectangle is added first, [k] and [k'] the corners at which the outlines start. *)
From Coq Require Import ZArith Bool List Reals Lra Lia Permutation.
From Verif Require Import Outcome Num Rmath RTac Segment Path PathSpec VState VPath VBreak VAel VOut VMain RingSpec ClipSpec ClipCases BreakSpec BoxSpec BoxProofs BoxCases.
Import ListNotations.

(** C35: when [right_on] says so, the run ends well, with closed contours of
    upright lines, and holds exactly the points that it should. *)
Theorem C35_boxes_partial :
  forall en fuel (S C : rect R) fs k k' op fill,
    (forall l, Permutation (en_order en l) l) -> (forall i j, en_addr en i = en_addr en j -> i = j) ->
    general S C -> (60 <= fuel)%nat -> right_on op fill S C = true ->
    exists s s' l cs, add_all clipper0 (box_paths fs k k' S C) = Ok s /\ process en fuel s op fill = Ok (s', l) /\
      contours l cs /\ Forall closed cs /\ upright l /\
      forall p, moderate (vx p) -> moderate (vy p) -> inside p l = bool_op op (covers fill S p) (covers fill C p).
Proof. exact boxes_right. Qed.
Print Assumptions C35_boxes_partial.
Example C35_boxes_case :
  general sqA sqB /\ (forall op fill, right_on op fill sqA sqB = true) /\
  (forall l, Permutation (en_order env0 l) l) /\ (forall i j, en_addr env0 i = en_addr env0 j -> i = j) /\
  in_box (V2 7 8)%R sqA = true /\ in_box (V2 7 8)%R sqB = true /\ in_box (V2 7 2)%R sqA = true /\ in_box (V2 7 2)%R sqB = false.
Proof.
  exact (conj general_squares (conj squares_right (conj (proj1 env0_fair) (conj (proj2 env0_fair) points_AB)))).
Qed.

(** C35, C32, C42: otherwise every run is wrong: undefined behaviour, or a
    contour that is open or has a line that is not parallel to an axis. *)
Theorem C35_boxes_otherwise_partial :
  forall en fuel (S C : rect R) fs k k' op fill,
    (forall l, Permutation (en_order en l) l) -> (forall i j, en_addr en i = en_addr en j -> i = j) ->
    general S C -> (60 <= fuel)%nat -> right_on op fill S C = false ->
    exists s, add_all clipper0 (box_paths fs k k' S C) = Ok s /\
      ((exists w, process en fuel s op fill = UB w) \/
       exists s' l cs, process en fuel s op fill = Ok (s', l) /\ contours l cs /\ ~ (upright l /\ Forall closed cs)).
Proof. exact boxes_wrong. Qed.
Print Assumptions C35_boxes_otherwise_partial.
Example C35_boxes_otherwise_case : general wide tall /\ right_on op_difference even_odd wide tall = false.
Proof. exact (conj general_wide wide_wrong). Qed.

(** C35: drawn clockwise, two squares do not meet under non_zero, although each holds the point. *)
Theorem C35_clockwise_refuted :
  forall lm : libm, let N := B64 lm in
  exists l, run lm [clockwise 0 0 10 10] [clockwise 5 5 15 15] op_intersection non_zero = Ok l /\ inside (pt64 7 7) l = false /\
  exists a b, run lm [clockwise 0 0 10 10] [] op_union non_zero = Ok a /\ inside (pt64 7 7) a = true /\
              run lm [clockwise 5 5 15 15] [] op_union non_zero = Ok b /\ inside (pt64 7 7) b = true.
Proof. exact clockwise_lemma. Qed.
Print Assumptions C35_clockwise_refuted.

(** C29: such a run always comes to an end, within 60 turns of any loop. *)
Theorem C29_boxes_partial :
  forall en fuel (S C : rect R) fs k k' op fill,
    (forall l, Permutation (en_order en l) l) -> (forall i j, en_addr en i = en_addr en j -> i = j) ->
    general S C -> (60 <= fuel)%nat ->
    exists s, add_all clipper0 (box_paths fs k k' S C) = Ok s /\ process en fuel s op fill <> NoFuel.
Proof. exact boxes_end. Qed.
Print Assumptions C29_boxes_partial.
Example C29_boxes_case : general sqA sqB /\ general wide tall.
Proof. exact (conj general_squares general_wide). Qed.
