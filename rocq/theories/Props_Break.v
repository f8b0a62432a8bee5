(** C23: contours broken at intersections. *)
From Coq Require Import ZArith Bool List Reals Floats.SpecFloat Permutation.
From Verif Require Import Outcome Num Order Rmath Segment Path PathSpec ScanLine VState VPath VBreak RingSpec BezierSpec LineSpec BreakSpec ClipCases RingStatements
  BreakStatements BreakLines BreakDrawn BreakCases TraceR BreakMixed.
Import ListNotations.

(** C23: for any set of rings and any records on their vertices, breaking runs
    without undefined behaviour.  Every ring stays closed and linked with its
    vertices in place and new ones after them, rings stay disjoint, every old
    vertex keeps its point and flags, new ones have none, and the chain at every
    vertex consists of the pieces specified by [pieces_from]. *)
Theorem C23_rings :
  forall (T : Type) (N : Num T) (s : clipper T) ls (bs : list (break_info T)),
    rings (verts s) ls -> Forall (fun b => In (br_vert b) (concat ls)) bs ->
    exists vs' news, break_all (length bs) s bs = Ok (w_verts s vs') /\
      Forall (fun l => ring vs' (with_new news l) (flat_map (pieces_from (verts s) bs) l)) ls /\
      NoDup (concat (map (with_new news) ls)) /\
      (forall i, In i (concat ls) -> length (pieces_from (verts s) bs i) = S (length (news i))) /\
      (forall i v, nth_error (verts s) i = Some v -> exists w, nth_error vs' i = Some w /\
         v_pt w = v_pt v /\ v_min w = v_min v /\ v_max w = v_max v) /\
      (forall i j, In j (news i) -> length (verts s) <= j) /\
      (forall j w, length (verts s) <= j -> nth_error vs' j = Some w -> v_min w = false /\ v_max w = false).
Proof. exact (@C23_rings_lemma). Qed.
Print Assumptions C23_rings.
(** An arch, its first curve broken once and its base twice *)
Example C23_rings_case (lm : libm) : let N := B64 lm in
  exists ls, rings (verts (s_bow lm)) ls /\ Forall (fun b => In (br_vert b) (concat ls)) (bs_bow lm) /\
    map (fun i => length (pieces_from (verts (s_bow lm)) (bs_bow lm) i)) (concat ls) = [2; 1; 3].
Proof.
  intros N. destruct (bow_rings lm) as (ls & R & E). exists ls. split; [exact R|]. split; [exact (bow_in lm ls E)|].
  rewrite E. exact (bow_facts lm).
Qed.

(** C23 for process_intersect: whenever the intersections are found, they are
    inserted as above and the starts of the contours stay. *)
Theorem C23_process :
  forall (T : Type) (N : Num T) en (s : clipper T) ls bs,
    rings (verts s) ls -> starts s = map (hd 0) ls -> find_breaks en (verts s) (starts s) = Ok bs ->
    let bs := tidy_breaks en bs in
    exists s' news, process_intersect en s = Ok s' /\ starts s' = starts s /\
      Forall (fun l => ring (verts s') (with_new news l) (flat_map (pieces_from (verts s) bs) l)) ls /\
      NoDup (concat (map (with_new news) ls)) /\
      (forall i, In i (concat ls) -> length (pieces_from (verts s) bs i) = S (length (news i))) /\
      (forall i v, nth_error (verts s) i = Some v -> exists w, nth_error (verts s') i = Some w /\
         v_pt w = v_pt v /\ v_min w = v_min v /\ v_max w = v_max v) /\
      (forall i j, In j (news i) -> length (verts s) <= j) /\
      (forall j w, length (verts s) <= j -> nth_error (verts s') j = Some w -> v_min w = false /\ v_max w = false).
Proof. exact (@C23_process_lemma). Qed.
Print Assumptions C23_process.
(** Two squares: four new vertices *)
Example C23_process_case (lm : libm) : let N := B64 lm in
  exists s ls bs s', rings (verts s) ls /\ starts s = map (hd 0) ls /\ find_breaks env0 (verts s) (starts s) = Ok bs /\
    process_intersect env0 s = Ok s' /\ map (@br_vert b64) (tidy_breaks env0 bs) = [1; 2; 4; 7] /\
    length (verts s) = 8 /\ length (verts s') = 12.
Proof.
  intros N. destruct (cut_rings lm) as (ls & R & S). exists (s_cut lm), ls, (bs_cut lm), (s_cut' lm).
  exact (conj R (conj S (conj (bs_cut_ok lm) (conj (s_cut_ok' lm) (cut_facts lm))))).
Qed.

(** Contours that were drawn are such rings. *)
Theorem C23_drawn_rings :
  forall (T : Type) (N : Num T) (ps : list (path_type * list (list (outline (T := T))))),
    Forall (fun o => Forall drawing (snd o)) (all_outlines ps) ->
    exists s ls, add_all clipper0 ps = Ok s /\ rings (verts s) ls /\ starts s = map (hd 0) ls /\
      forall l, In l ls -> exists o, In o (all_outlines ps) /\ accepted (outline_segs o) = true /\ ring (verts s) l (outline_segs o).
Proof. exact (@drawn_rings). Qed.
Print Assumptions C23_drawn_rings.
Example C23_drawn_rings_case :
  Forall (fun o => Forall drawing (snd o)) (all_outlines ps_cut) /\ length (all_outlines ps_cut) = 2.
Proof. split; [repeat constructor|reflexivity]. Qed.

(** C23, over the reals: records that lie on the segment in increasing order cut
    it into pieces that trace it. *)
Theorem C23_pieces_trace :
  forall p g (bs : list (break_info R)), drawable g -> bs <> [] -> increasing 0 (map br_t bs) 1 ->
    Forall (fun b => br_pt b = seg_at p g (br_t b)) bs -> follows p p g 0 (map br_t bs) (cut p g bs).
Proof. exact cut_follows. Qed.
Print Assumptions C23_pieces_trace.
Example C23_pieces_trace_case : let g := SCubic (ptR 0 16) (ptR 32 16) (ptR 32 0) in
  let bs := [Break 0 (ptR 16 12) (1 / 2)%R] in
  increasing 0 (map br_t bs) 1 /\ Forall (fun b => br_pt b = seg_at (ptR 0 0) g (br_t b)) bs.
Proof. exact bow_exact. Qed.
(** Sorting and removing duplicates brings the records into that form, in
    whatever order they were found: the chain of every segment traces it, with a
    new vertex at exactly the recorded parameters. *)
Theorem C23_chains_trace :
  forall en (s : clipper R) ls bs, (forall i j, en_addr en i = en_addr en j -> i = j) ->
    rings (verts s) ls -> Forall (exact_break (verts s)) bs ->
    forall i v g, In i (concat ls) -> nth_error (verts s) i = Some v -> v_seg v = Some g ->
    exists ts, increasing 0 ts 1 /\ follows (v_pt v) (v_pt v) g 0 ts (pieces_from (verts s) (tidy_breaks en bs) i) /\
      forall t, In t ts <-> exists b, In b bs /\ br_vert b = i /\ br_t b = t.
Proof. exact C23_exact_lemma. Qed.
Print Assumptions C23_chains_trace.
(** Three unsorted records, two of them equal *)
Example C23_chains_trace_case : (forall i j, en_addr env0 i = en_addr env0 j -> i = j) /\ rings (verts s_thereback) [[0; 1]] /\
  Forall (exact_break (verts s_thereback)) bs_thereback.
Proof. exact thereback_ok. Qed.

(** C23 for polygons, over the reals: nothing is assumed of the intersections.
    They are found, all chains trace their edges, and every proper crossing not
    too near an end becomes a vertex. *)
Theorem C23_polygons :
  forall en (ps : list (path_type * list (list (outline (T := R))))),
    (forall l, Permutation (en_order en l) l) -> (forall i j, en_addr en i = en_addr en j -> i = j) ->
    Forall polygon (all_outlines ps) ->
    exists s ls s' news hs, add_all clipper0 ps = Ok s /\ rings (verts s) ls /\ starts s = map (hd 0) ls /\
      process_intersect en s = Ok s' /\
      Forall (fun l => ring (verts s') (with_new news l) (flat_map hs l)) ls /\ NoDup (concat (map (with_new news) ls)) /\
      forall i v g, In i (concat ls) -> nth_error (verts s) i = Some v -> v_seg v = Some g ->
        exists ts, increasing 0 ts 1 /\ length ts = length (news i) /\ follows (v_pt v) (v_pt v) g 0 ts (hs i) /\
          forall j t, In j (concat ls) -> i <> j -> crosses (verts s) i j t -> well_inside t -> In t ts.
Proof. exact C23_polygons_lemma. Qed.
Print Assumptions C23_polygons.
Example C23_polygons_case : let ps := [(subject, [[sqR 0]]); (clip, [[sqR 2]])] in
  Forall polygon (all_outlines ps) /\ forall l, Permutation (en_order env0 l) l.
Proof.
  split; [|reflexivity]. cbn [all_outlines flat_map concat app snd].
  repeat (apply Forall_cons; [apply sqR_polygon; split; discriminate|]). apply Forall_nil.
Qed.

(** A line and a curve, in either order and any arithmetic: records name one of the
    two, and those that name the curve tell a point of it. *)
Theorem C23_line_curve_records :
  forall (T : Type) (N : Num T) en (vs : list (vertex T)) i j v w q c1 c2 r bs,
    nth_error vs i = Some v -> v_seg v = Some (SLine q) -> nth_error vs j = Some w -> v_seg w = Some (SCubic c1 c2 r) ->
    seg_intersect en vs i j = Ok bs \/ seg_intersect en vs j i = Ok bs ->
    Forall (fun b => (br_vert b = i \/ br_vert b = j) /\ (br_vert b = j -> br_pt b = point_at (Bez (v_pt w) c1 c2 r) (br_t b))) bs.
Proof. exact (@mixed_records). Qed.
Print Assumptions C23_line_curve_records.
(** Over the reals, when the line meets the curve in at most two points (see C18):
    all records are exact, and all common points are recorded on both. *)
Theorem C23_line_curve_exact_partial :
  forall en (vs : list (vertex R)) i j v w q c1 c2 r, let z := Bez (v_pt w) c1 c2 r in
    nth_error vs i = Some v -> v_seg v = Some (SLine q) -> nth_error vs j = Some w -> v_seg w = Some (SCubic c1 c2 r) ->
    v_pt v <> q -> fin (v_pt v) -> fin q -> two_roots (v_pt v) q z ->
    exists bs, seg_intersect en vs i j = Ok bs /\ seg_intersect en vs j i = Ok bs /\ Forall (exact_break vs) bs /\
      forall t u, (0 <= t <= 1)%R -> (0 <= u <= 1)%R -> pt (v_pt v) q t = curve z u ->
        (well_inside t -> In (Break i (curve z u) t) bs) /\ (well_inside u -> In (Break j (curve z u) u) bs).
Proof. exact mixed_exact. Qed.
Print Assumptions C23_line_curve_exact_partial.
(** The arch is met at an inner point of both. *)
Example C23_line_curve_case : let z := (Bez (V2 0 0) (V2 1 2) (V2 2 2) (V2 3 0))%R in
  (V2 0 1 <> V2 4 1)%R /\ fin (V2 0 1)%R /\ fin (V2 4 1)%R /\ two_roots (V2 0 1)%R (V2 4 1)%R z /\
  exists t u, (0 <= t <= 1)%R /\ well_inside t /\ well_inside u /\ pt (V2 0 1)%R (V2 4 1)%R t = curve z u.
Proof. exact arch_ok. Qed.
