(** Contours in general position in the plane, and the order of their sides from
    left to right. *)
From Coq Require Import ZArith Bool List Reals.
From Verif Require Import Outcome Num Rmath Segment Path PathSpec VState VPath VAel RingSpec BezierSpec LineSpec BreakSpec ClimbSpec AelSpec SpanSpec.
Import ListNotations.
Local Open Scope R_scope.

(** The abscissa at height [z] on the line through [a] and [b] *)
Definition xat (a b : vec2 R) (z : R) : R := vx a + (vx b - vx a) * ((z - vy a) / (vy b - vy a)).
Definition ex (e : edge R) (z : R) : R := xat (e_bot e) (e_top e) z.
(** Just above the height [y], and as far as both reach, [e] is left of [f]. *)
Definition before (y : R) (e f : edge R) : Prop :=
  forall z, y < z -> z < vy (e_top e) -> z < vy (e_top f) -> ex e z < ex f z.
(** The edges [l] are in their order from left to right just above [y]. *)
Definition sorted (y : R) (es : list (edge R)) (l : list nat) : Prop :=
  ForallOrdPairs (fun i j => forall e f, nth_error es i = Some e -> nth_error es j = Some f -> before y e f) l.

(** The sides of the contours are straight and not level.  Where two of them meet,
    both have a corner.  No other corner is at the place of a lowest one. *)
Record plane (vs : list (vertex R)) (P M : nat -> Prop) : Prop := {
  pl_line : forall j k, P j -> side vs true j k -> exists v w, nth_error vs j = Some v /\ nth_error vs k = Some w /\ v_seg v = Some (SLine (v_pt w));
  pl_level : forall j k, P j -> side vs true j k -> height vs j <> height vs k;
  pl_apart : forall j k j' k' a b a' b' p, P j -> P j' -> side vs true j k -> side vs true j' k' -> j <> j' ->
    nth_error vs j = Some a -> nth_error vs k = Some b -> nth_error vs j' = Some a' -> nth_error vs k' = Some b' ->
    on_segment p (v_pt a) (v_pt b) -> on_segment p (v_pt a') (v_pt b') ->
    (p = v_pt a \/ p = v_pt b) /\ (p = v_pt a' \/ p = v_pt b');
  pl_low : forall i j v w, M i -> P j -> nth_error vs i = Some v -> nth_error vs j = Some w -> v_pt v = v_pt w -> i = j
}.

(** *** Winding numbers *)
(** Whether the side from [a] to [b] passes left of the point ([x], [z]): 1 if it
    goes down there, -1 if it goes up *)
Definition passes (a b : vec2 R) (x z : R) : Z :=
  if Rleb (vy a) z && Rltb z (vy b) then if Rltb (xat a b z) x then -1 else 0
  else if Rleb (vy b) z && Rltb z (vy a) then if Rltb (xat a b z) x then 1 else 0
  else 0.
(** The winding number of closed contours with these sides about that point *)
Definition winding (S : list (vec2 R * vec2 R)) (x z : R) : Z := fold_right Z.add 0%Z (map (fun ab => passes (fst ab) (snd ab) x z) S).

(** *** Polygons in general position *)
(** The sides of a closed contour: the end points of its segments, each with the one before *)
Definition sides_of (gs : list (seg R)) : list (vec2 R * vec2 R) :=
  let ps := map seg_target gs in combine (last ps (V2 0 0) :: ps) ps.
(** The contours that are drawn, as subject or as clip *)
Definition contours (ps : list (path_type * list (list (outline (T := R))))) : list (path_type * list (seg R)) :=
  filter (fun it => accepted (snd it)) (flat_map (fun x => map (fun o => (fst x, outline_segs o)) (concat (snd x))) ps).
Definition all_sides ps : list (vec2 R * vec2 R) := flat_map (fun it => sides_of (snd it)) (contours ps).
Definition typed_sides ps (t : path_type) : list (vec2 R * vec2 R) := flat_map (fun it => if ptype_eqb (fst it) t then sides_of (snd it) else []) (contours ps).
(** No side is level and all corners are different points.  Where two sides meet, both
    have a corner, or they cross, not too near the ends of either. *)
Record generic (S : list (vec2 R * vec2 R)) : Prop := {
  ge_level : forall a b, In (a, b) S -> vy a <> vy b;
  ge_corner : forall n m a b c d, nth_error S n = Some (a, b) -> nth_error S m = Some (c, d) -> a = c -> n = m;
  ge_meet : forall n m a b c d p, nth_error S n = Some (a, b) -> nth_error S m = Some (c, d) -> n <> m -> on_segment p a b -> on_segment p c d ->
    (p = a \/ p = b) /\ (p = c \/ p = d) \/
    ~ parallel a b c d /\ exists t u, well_inside t /\ well_inside u /\ p = pt a b t /\ p = pt c d u
}.
