(** C63: how many vertices breaking adds. *)
From Coq Require Import ZArith Bool List Reals Floats.SpecFloat Permutation.
From Verif Require Import Outcome Num Order Rmath Segment Path PathSpec RectSpec VState VPath VBreak RingSpec BreakSpec BreakSizeSpec ClipCases BreakCases BreakLines DcelCases BreakCount BreakLoad BreakSizeCases.
Import ListNotations.

(** C63: m sides gain at most m(m-1) vertices, in any arithmetic whose comparison is
    an order (reals, binary64). *)
Theorem C63_lines :
  forall (T : Type) (N : Num T) (O : OrdNum T) en (s s' : clipper T) ls,
    open_ends -> (forall l, Permutation (en_order en l) l) -> rings (verts s) ls -> starts s = map (hd 0) ls ->
    Forall (finite_side (verts s)) (concat ls) -> process_intersect en s = Ok s' ->
    let m := length (concat ls) in length (verts s') <= length (verts s) + m * (m - 1).
Proof. exact (@C63_lines_lemma). Qed.
Print Assumptions C63_lines.
(** Two squares *)
Example C63_lines_example (lm : libm) : let N := B64 lm in let O := B64_ord lm in
  open_ends /\ exists s ls s', (forall l, Permutation (en_order env0 l) l) /\ rings (verts s) ls /\ starts s = map (hd 0) ls /\ Forall (finite_side (verts s)) (concat ls) /\
    process_intersect env0 s = Ok s' /\ length (concat ls) = 8 /\ length (verts s) = 8 /\ length (verts s') = 12.
Proof. exact (C63_lines_case lm). Qed.
(** C63: the same in binary64, where the first condition always holds. *)
Theorem C63_lines_binary64 :
  forall (lm : libm) en (s s' : clipper b64) ls, let N := B64 lm in let O := B64_ord lm in
    (forall l, Permutation (en_order en l) l) -> rings (verts s) ls -> starts s = map (hd 0) ls ->
    Forall (finite_side (verts s)) (concat ls) -> process_intersect en s = Ok s' ->
    let m := length (concat ls) in length (verts s') <= length (verts s) + m * (m - 1).
Proof. exact (fun lm en s s' ls => @C63_lines_lemma b64 (B64 lm) (B64_ord lm) en s s' ls (open_64 lm)). Qed.
Print Assumptions C63_lines_binary64.
(** Exact arithmetic meets the first condition of [C63_lines], too. *)
Example C63_open_real : @open_ends R R_num.
Proof. exact open_R. Qed.
(** C63: m lines and curves gain at most 9m(m-1) vertices, if no box is inverted. *)
Theorem C63_boxes :
  forall (T : Type) (N : Num T) (O : OrdNum T) en (s s' : clipper T) ls,
    (forall l, Permutation (en_order en l) l) -> rings (verts s) ls -> starts s = map (hd 0) ls ->
    Forall (sound_box (verts s)) (concat ls) -> process_intersect en s = Ok s' ->
    let m := length (concat ls) in length (verts s') <= length (verts s) + 9 * (m * (m - 1)).
Proof. exact (@C63_boxes_lemma). Qed.
Print Assumptions C63_boxes.
(** An arch and a triangle across it *)
Example C63_boxes_example : let N := B64 lm_angle in let O := B64_ord lm_angle in
  exists ls s', add_all clipper0 ps_bar = Ok s_bar /\ rings (verts s_bar) ls /\ starts s_bar = map (hd 0) ls /\ Forall (sound_box (verts s_bar)) (concat ls) /\
    process_intersect env0 s_bar = Ok s' /\ length (concat ls) = 6 /\ length (verts s_bar) = 6 /\ length (verts s') = 10.
Proof. exact C63_boxes_case. Qed.
(** C63 for everything that is drawn, exact arithmetic: no box is inverted. *)
Theorem C63_drawn :
  forall en (ps : list (path_type * list (list (outline (T := R))))) (s s' : clipper R), (forall l, Permutation (en_order en l) l) ->
    Forall (fun o => Forall drawing (snd o)) (all_outlines ps) -> add_all clipper0 ps = Ok s -> process_intersect en s = Ok s' ->
    let n := length (verts s) in length (verts s') <= n + 9 * (n * (n - 1)).
Proof. exact C63_drawn_lemma. Qed.
Print Assumptions C63_drawn.
(** Two squares *)
Example C63_drawn_example : let ps := [(subject, [[sqR 0]]); (clip, [[sqR 2]])] in
  (forall l, Permutation (en_order env0 l) l) /\ Forall (fun o => Forall drawing (snd o)) (all_outlines ps) /\
  exists s s', add_all clipper0 ps = Ok s /\ process_intersect env0 s = Ok s'.
Proof. exact C63_drawn_case. Qed.
(** C63: adding paths makes at most one vertex for a point or a line and three for a
    curve, any arithmetic and any paths. *)
Theorem C63_loaded :
  forall (T : Type) (N : Num T) (ps : list (path T)) pt (s s' : clipper T), add_paths s ps pt = Ok s' ->
    length (verts s') <= length (verts s) + list_sum (map (fun p => list_sum (map elem_room (p_types p))) ps).
Proof. exact (@C63_loaded_lemma). Qed.
Print Assumptions C63_loaded.
(** An arch and a triangle *)
Example C63_loaded_example : let N := B64 lm_angle in let p := run_calls (flat_map outline_calls [o_bow; o_bar]) in
  exists s', add_paths clipper0 [p] subject = Ok s' /\ length (verts s') = 6 /\ list_sum (map elem_room (p_types p)) = 7.
Proof. exact C63_loaded_case. Qed.
(** C63 from the calls that draw to the broken contours, exact arithmetic. *)
Theorem C63_whole :
  forall en (ps : list (path_type * list (list (outline (T := R))))) (s s' : clipper R), (forall l, Permutation (en_order en l) l) ->
    Forall (fun o => Forall drawing (snd o)) (all_outlines ps) -> add_all clipper0 ps = Ok s -> process_intersect en s = Ok s' ->
    let n := list_sum (map outline_room (all_outlines ps)) in length (verts s') <= n + 9 * (n * (n - 1)).
Proof. exact C63_whole_lemma. Qed.
Print Assumptions C63_whole.
(** The two squares of [C63_drawn_example] *)
Example C63_whole_example : list_sum (map outline_room (all_outlines [(subject, [[sqR 0]]); (clip, [[sqR 2]])])) = 8.
Proof. reflexivity. Qed.
