(** C29: does clipping end? *)
From Coq Require Import ZArith Bool List Reals Permutation Floats.SpecFloat.
From Verif Require Import Outcome Num Order Rmath Segment Path PathSpec VState VPath VBreak VAel VOut VMain ClipSpec RingSpec BreakSpec ClimbSpec
  VFuel BreakDrawn ClipCases BreakCases RunCases FuelCases EndCases ClimbNone ClimbCases.
Import ListNotations.

(** Not always: the union of a rectangle and a square it overlaps runs for ever,
    in floating point and whatever the mathematical library returns.  Two output
    bounds become each other's successor and close_output walks round them. *)
Theorem C29_endless_refuted :
  forall lm : libm, let N := B64 lm in
    exists s, load lm [[(3, 15); (6, 15); (6, 4); (3, 4)]%Z] [box 5 1 14 11] = Ok s /\
      forall n, process env0 n s op_union even_odd = NoFuel.
Proof. exact C29_refuted_lemma. Qed.
Print Assumptions C29_endless_refuted.
(** An answer does not depend on the loop bound of the model: any larger bound
    gives the same one.  So [NoFuel] for every bound means that the program does
    not end, and an answer is the answer of the program. *)
Theorem C29_answer_partial :
  forall (T : Type) (N : Num T) en n m (s : clipper T) op fill r,
    n <= m -> r <> NoFuel -> process en n s op fill = r -> process en m s op fill = r.
Proof. exact (@process_answer). Qed.
Print Assumptions C29_answer_partial.
Example C29_case (lm : libm) : let N := B64 lm in
  exists s r, load lm [box 0 0 4 4] [box 2 2 6 6] = Ok s /\ process env0 100 s op_intersection positive = Ok r /\ snd r <> [].
Proof. exact (C29_case_lemma lm). Qed.

(** Over ordered numbers: when both ways from every queued minimum lead up to a
    maximum, the main loop visits each height once, from the bottom up, and no more
    heights than there are vertices.  Every inner loop but the two walks along the
    output bounds ends.  With the operation none all of it ends. *)
Theorem C29_valleys_partial :
  forall (T : Type) (N : Num T) (O : OrdNum T) en (s s1 : clipper T),
    process_intersect en s = Ok s1 -> edges s1 = [] -> scans s1 = [] -> polys s = [] ->
    Forall (fun v => nvalid (vy (v_pt v))) (verts s1) -> all_valleys s1 ->
    bounded_sweep en s (length (verts s1)).
Proof. exact (@valleys_end). Qed.
Print Assumptions C29_valleys_partial.
(** All contours are such when none meets another or itself; so for the doubles too. *)
Theorem C29_apart_partial :
  forall (T : Type) (N : Num T) (O : OrdNum T) en (ps : list (path_type * list (list (outline (T := T))))) (s : clipper T),
    drawable_paths ps -> add_all clipper0 ps = Ok s ->
    Forall (fun v => nvalid (vy (v_pt v))) (verts s) -> find_breaks en (verts s) (starts s) = Ok [] ->
    bounded_sweep en s (length (verts s)).
Proof. exact (@apart_end). Qed.
Print Assumptions C29_apart_partial.
Example C29_apart_case (lm : libm) : let N := B64 lm in
  exists s, add_all clipper0 ps_apart = Ok s /\ drawable_paths ps_apart /\
    Forall (fun v : vertex b64 => @nvalid b64 (B64 lm) (B64_ord lm) (vy (v_pt v))) (verts s) /\
    find_breaks env0 (verts s) (starts s) = Ok [] /\ length (verts s) = 8.
Proof. exact (apart_case lm). Qed.
(** Polygons over the reals may also cross, in any way. *)
Theorem C29_polygons_partial :
  forall en (ps : list (path_type * list (list (outline (T := R))))) (s : clipper R),
    (forall l, Permutation (en_order en l) l) -> (forall i j, en_addr en i = en_addr en j -> i = j) ->
    Forall polygon (all_outlines ps) -> add_all clipper0 ps = Ok s ->
    exists s1, process_intersect en s = Ok s1 /\ bounded_sweep en s (length (verts s1)).
Proof. exact polygons_end. Qed.
Print Assumptions C29_polygons_partial.
Example C29_polygons_case : let ps := [(subject, [[sqR 0]]); (clip, [[sqR 2]])] in
  Forall polygon (all_outlines ps) /\ (forall l, Permutation (en_order env0 l) l) /\ exists s, add_all clipper0 ps = Ok s.
Proof. exact squares_case. Qed.
