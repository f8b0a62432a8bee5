(** Contours broken at points on their segments. *)
From Coq Require Import ZArith Bool List Reals.
From Verif Require Import Outcome Num Order Rmath Segment Path PathSpec VState VPath VBreak RingSpec BezierSpec LineSpec.
Import ListNotations.

Section Cut.
  Context {T : Type} {N : Num T}.
  (** A segment that can be drawn *)
  Definition drawable (g : seg T) : Prop := match g with SLine _ | SCubic _ _ _ => True | _ => False end.
  (** The curve pieces [zs] with their inner ends moved to the points of [bs] *)
  Fixpoint moved (zs : list (bezier T)) (bs : list (break_info T)) (target : vec2 T) : list (seg T) :=
    match zs, bs with
    | z :: zs, b :: bs => SCubic (b1 z) (b2 z) (br_pt b) :: moved zs bs target
    | z :: _, [] => [SCubic (b1 z) (b2 z) target]
    | [], _ => []
    end.
  (** The pieces of the segment [g] from [p], broken at [bs] *)
  Definition cut (p : vec2 T) (g : seg T) (bs : list (break_info T)) : list (seg T) :=
    match g with
    | SLine q => map (fun b => SLine (br_pt b)) bs ++ [SLine q]
    | SCubic c1 c2 q =>
      let bs := sort_by (fun l r => n_ltb (br_t l) (br_t r)) bs in
      moved (bsplit_many (Bez p c1 c2 q) (map br_t bs)) bs q
    | g => [g]
    end.
  (** The records [bs] as consecutive runs of the same vertex *)
  Fixpoint runs (bs : list (break_info T)) : list (nat * list (break_info T)) :=
    match bs with
    | [] => []
    | b :: r =>
      match runs r with
      | (v, x) :: t => if Nat.eqb (br_vert b) v then (v, b :: x) :: t else (br_vert b, [b]) :: (v, x) :: t
      | [] => [(br_vert b, [b])]
      end
    end.
  Definition runs_for (i : nat) (bs : list (break_info T)) : list (list (break_info T)) :=
    map snd (filter (fun x => Nat.eqb (fst x) i) (runs bs)).
  (** What becomes of the segment [g] from [p]: every run cuts the first piece. *)
  Definition recut (p : vec2 T) (hs : list (seg T)) (bs : list (break_info T)) : list (seg T) :=
    match hs with [] => [] | h :: t => cut p h bs ++ t end.
  Definition cuts (p : vec2 T) (g : seg T) (rs : list (list (break_info T))) : list (seg T) := fold_left (recut p) rs [g].

  (** Contours: disjoint rings of at least two vertices *)
  Definition rings (vs : list (vertex T)) (ls : list (list nat)) : Prop :=
    Forall (fun l => exists gs, ring vs l gs /\ Forall drawable gs /\ 2 <= length l) ls /\ NoDup (concat ls).
  (** Each vertex followed by the new ones *)
  Definition with_new (news : nat -> list nat) (l : list nat) : list nat := flat_map (fun i => i :: news i) l.
  (** Outlines added in several calls, as subject or as clip *)
  Fixpoint add_all (s : clipper T) (ps : list (path_type * list (list (outline (T := T))))) : outcome (clipper T) :=
    match ps with
    | [] => Ok s
    | (pt, oss) :: r => bind (add_paths s (map (fun os => run_calls (flat_map outline_calls os)) oss) pt) (fun s => add_all s r)
    end.
  Definition all_outlines (ps : list (path_type * list (list (outline (T := T))))) : list outline := flat_map (fun x => concat (snd x)) ps.
  Definition seg_of (vs : list (vertex T)) (i : nat) : option (seg T) :=
    match nth_error vs i with Some v => v_seg v | None => None end.
  (** The pieces of the segment that starts at vertex [i] *)
  Definition pieces_from (vs : list (vertex T)) (bs : list (break_info T)) (i : nat) : list (seg T) :=
    match nth_error vs i with
    | Some v => match v_seg v with Some g => cuts (v_pt v) g (runs_for i bs) | None => [] end
    | None => []
    end.
End Cut.

(** *** Tracing, over the reals *)
(** The point of the segment [g] from [p] at parameter [u] *)
Definition seg_at (p : vec2 R) (g : seg R) (u : R) : vec2 R :=
  match g with
  | SLine q => V2 (vx p + (vx q - vx p) * u) (vy p + (vy q - vy p) * u)
  | SCubic a b q => curve (Bez p a b q) u
  | g => seg_target g
  end%R.
(** The pieces [hs], starting at [p0], trace [g] from [p] between the parameters
    [lo], [ts] and 1. *)
Fixpoint follows (p0 p : vec2 R) (g : seg R) (lo : R) (ts : list R) (hs : list (seg R)) : Prop :=
  match ts, hs with
  | [], [h] => forall u, seg_at p0 h u = seg_at p g (lo + (1 - lo) * u)%R
  | t :: ts, h :: hs => (forall u, seg_at p0 h u = seg_at p g (lo + (t - lo) * u)%R) /\ follows (seg_target h) p g t ts hs
  | _, _ => False
  end.

(** A record tells a point inside its segment. *)
Definition exact_break (vs : list (vertex R)) (b : break_info R) : Prop :=
  (0 < br_t b < 1)%R /\ exists v g, nth_error vs (br_vert b) = Some v /\ v_seg v = Some g /\ br_pt b = seg_at (v_pt v) g (br_t b).
(** The code ignores intersections this close to an end. *)
Definition well_inside (t : R) : Prop := (1 / 1000000 < t < 1 - 1 / 1000000)%R.
(** *** Polygons, over the reals *)
Definition polygon (o : outline (T := R)) : Prop :=
  fin (fst o) /\ Forall (fun c => match c with PLine p => fin p | _ => False end) (snd o).
(** The edges that start at the vertices [i] and [j] are not parallel and meet, at
    parameter [t] of the first. *)
Definition crosses (vs : list (vertex R)) (i j : nat) (t : R) : Prop :=
  exists v q w r u, nth_error vs i = Some v /\ v_seg v = Some (SLine q) /\ nth_error vs j = Some w /\ v_seg w = Some (SLine r) /\
    ~ parallel (v_pt v) q (v_pt w) r /\ (0 <= t <= 1)%R /\ (0 <= u <= 1)%R /\ pt (v_pt v) q t = pt (v_pt w) r u.
