(** C21, C22: the contours add_path builds and their local extrema. *)
From Coq Require Import ZArith Bool List Floats.SpecFloat.
From Verif Require Import Outcome Num Order Rmath Segment Path PathSpec VState VPath AelSpec RingSpec RingStatements.
Import ListNotations.

(** C21: paths drawn as contours (a moveto, then lines and curves) are always read
    without undefined behaviour.  The accepted contours become rings of new
    vertices, disjoint and in input order, with exactly the segments specified by
    [outline_segs]; older vertices are untouched. *)
Theorem C21_add_path :
  forall (T : Type) (N : Num T) (s : clipper T) pt (oss : list (list (outline (T := T)))),
    Forall (Forall (fun o => Forall drawing (snd o))) oss ->
    exists s' ls,
      add_paths s (map (fun os => run_calls (flat_map outline_calls os)) oss) pt = Ok s' /\
      Forall2 (ring (verts s')) ls (filter accepted (map outline_segs (concat oss))) /\
      starts s' = starts s ++ map (hd 0) ls /\
      NoDup (concat ls) /\ (forall i, In i (concat ls) -> length (verts s) <= i) /\
      (forall i, i < length (verts s) -> nth_error (verts s') i = nth_error (verts s) i).
Proof. exact (@C21_lemma). Qed.
Print Assumptions C21_add_path.
(** Three contours of which the horizontal one is not accepted *)
Example C21_case (lm : libm) : let N := B64 lm in
  Forall (Forall (fun o => Forall drawing (snd o))) [[o_M; o_flat]; [o_arch]] /\
  map (fun o => (length (outline_segs o), accepted (outline_segs o))) [o_M; o_flat; o_arch] = [(5, true); (3, false); (3, true)] /\
  exists s, add_paths clipper0 (map (fun os => run_calls (flat_map outline_calls os)) [[o_M; o_flat]; [o_arch]]) subject = Ok s /\
    starts s = [0; 8].
Proof.
  intros N. split; [repeat constructor|]. split; [exact (proj1 (s_ring_facts lm))|].
  exists (s_ring lm). exact (conj (s_ring_ok lm) (proj1 (proj2 (s_ring_facts lm)))).
Qed.
(** Not every path: one that starts with a line dereferences null. *)
Theorem C21_no_moveto_refuted :
  forall lm : libm, let N := B64 lm in
    exists calls : list (pcall b64), add_paths clipper0 [run_calls calls] subject = UB NullDeref.
Proof. exact (fun lm => ex_intro _ [PLine (pt_ 1 1)] (no_moveto lm)). Qed.
Print Assumptions C21_no_moveto_refuted.

(** C22: of every accepted contour exactly the local minima are queued, in order;
    the flags tell the minima and the maxima; both alternate around the contour,
    are equally many and there are some. *)
Theorem C22_extrema :
  forall (T : Type) (N : Num T) (O : OrdNum T) (s : clipper T) pt (oss : list (list (outline (T := T)))),
    Forall (Forall (fun o => Forall drawing (snd o))) oss ->
    Forall yvalid (map outline_segs (concat oss)) ->
    exists s' ls exs,
      add_paths s (map (fun os => run_calls (flat_map outline_calls os)) oss) pt = Ok s' /\
      Forall2 (ring (verts s')) ls (filter accepted (map outline_segs (concat oss))) /\
      Forall2 (extrema (height (verts s'))) ls exs /\
      (let mins := map fst (filter snd (concat exs)) in
       lmins s' = lmins s ++ map (fun v => Lmin v pt) mins /\
       minima s' = minima s ++ seq (length (lmins s)) (length mins)) /\
      (forall l i v, In l ls -> In i l -> nth_error (verts s') i = Some v ->
         (v_min v = true <-> lowest (height (verts s')) l i) /\ (v_max v = true <-> highest (height (verts s')) l i)).
Proof. exact (@C22_lemma). Qed.
Print Assumptions C22_extrema.
(** The two minima of an M, the horizontal bottom counted once, and that of an arch *)
Example C22_case (lm : libm) : let N := B64 lm in let O := B64_ord lm in
  Forall yvalid (map outline_segs [o_M; o_flat; o_arch]) /\
  exists s, add_paths clipper0 (map (fun os => run_calls (flat_map outline_calls os)) [[o_M; o_flat]; [o_arch]]) subject = Ok s /\
    map lm_vert (lmins s) = [1; 3; 8].
Proof.
  intros N O. split; [exact (o_valid lm)|].
  exists (s_ring lm). exact (conj (s_ring_ok lm) (proj2 (proj2 (s_ring_facts lm)))).
Qed.
