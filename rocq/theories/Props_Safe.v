(** C42: undefined behaviour in clipping runs, where it can and cannot be. *)
From Coq Require Import ZArith Bool List Reals Permutation.
From Verif Require Import Outcome Num Rmath Segment Path PathSpec VState VPath VBreak VAel VOut VMain RingSpec BreakSpec SafeSpec
  BreakDrawn ClipCases BreakCases SafeCases VSafeEnd.
Import ListNotations.

(** In any arithmetic, for any contours and any operation: nothing is thrown, and a
    run can do something undefined in two places only.  The search for crossings
    may write past the result array of two crossing lines; the code that links
    output bounds may follow a null pointer or an end iterator. *)
Theorem C42_places_partial :
  forall (T : Type) (N : Num T) en n (ps : list (path_type * list (list (outline (T := T))))) (s : clipper T) op fill,
    (forall l x, In x (en_order en l) -> In x l) -> drawable_paths ps -> add_all clipper0 ps = Ok s ->
    process en n s op fill <> Throw /\
    forall k, process en n s op fill = UB k ->
      (k = OobWrite /\ find_breaks en (verts s) (starts s) = UB OobWrite) \/ output_fails en n s op fill k.
Proof. exact (@safe_lemma). Qed.
Print Assumptions C42_places_partial.
Example C42_places_case (lm : libm) : let N := B64 lm in
  (forall l x, In x (en_order env0 l) -> In x l) /\ drawable_paths ps_null /\
  exists s, add_all clipper0 ps_null = Ok s /\ process env0 1000 s op_difference even_odd = UB NullDeref.
Proof. exact (null_case lm). Qed.
(** The first of them happens: in doubles, two triangles so small that products underflow. *)
Theorem C42_oob_write_refuted :
  forall lm : libm, let N := B64 lm in
    drawable_paths ps_tiny /\ exists s, add_all clipper0 ps_tiny = Ok s /\ process env0 1000 s op_union even_odd = UB OobWrite.
Proof. exact tiny_case. Qed.
Print Assumptions C42_oob_write_refuted.

(** For polygons over the reals only the output bounds remain. *)
Theorem C42_polygons_partial :
  forall en n (ps : list (path_type * list (list (outline (T := R))))) (s : clipper R),
    (forall l, Permutation (en_order en l) l) -> (forall i j, en_addr en i = en_addr en j -> i = j) ->
    Forall polygon (all_outlines ps) -> add_all clipper0 ps = Ok s ->
    forall op fill k, process en n s op fill = UB k -> output_fails en n s op fill k.
Proof. exact safe_polygons. Qed.
Print Assumptions C42_polygons_partial.
Example C42_polygons_case : let ps := [(subject, [[sqR 0]]); (clip, [[sqR 2]])] in
  Forall polygon (all_outlines ps) /\ (forall l, Permutation (en_order env0 l) l) /\ (forall i j, en_addr env0 i = en_addr env0 j -> i = j) /\
  exists s, add_all clipper0 ps = Ok s.
Proof. exact squares_safe_case. Qed.

(** With the operation none, once the crossings are found, nothing undefined is done. *)
Theorem C42_none_partial :
  forall (T : Type) (N : Num T) en n (ps : list (path_type * list (list (outline (T := T))))) (s : clipper T) bs fill,
    drawable_paths ps -> add_all clipper0 ps = Ok s -> find_breaks en (verts s) (starts s) = Ok bs ->
    (exists s', process en n s op_none fill = Ok (s', [])) \/ process en n s op_none fill = NoFuel.
Proof. exact (@safe_none). Qed.
Print Assumptions C42_none_partial.
Example C42_none_case (lm : libm) : let N := B64 lm in
  drawable_paths ps_cut /\ exists s bs, add_all clipper0 ps_cut = Ok s /\ find_breaks env0 (verts s) (starts s) = Ok bs /\ bs <> [].
Proof. exact (cut_case lm). Qed.
(** Polygons over the reals: clip_type::none always ends, and with an empty answer. *)
Theorem C42_none_polygons_partial :
  forall en (ps : list (path_type * list (list (outline (T := R))))) (s : clipper R),
    (forall l, Permutation (en_order en l) l) -> (forall i j, en_addr en i = en_addr en j -> i = j) ->
    Forall polygon (all_outlines ps) -> add_all clipper0 ps = Ok s ->
    exists k, forall n fill, k <= n -> exists s', process en n s op_none fill = Ok (s', []).
Proof. exact none_polygons. Qed.
Print Assumptions C42_none_polygons_partial.
Example C42_none_polygons_case : let ps := [(subject, [[sqR 0]]); (clip, [[sqR 2]])] in
  Forall polygon (all_outlines ps) /\ exists s, add_all clipper0 ps = Ok s.
Proof. destruct squares_safe_case as (A & _ & _ & B). exact (conj A B). Qed.
