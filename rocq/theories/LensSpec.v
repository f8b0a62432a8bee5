(** One contour with a single minimum and a single maximum. *)
From Coq Require Import ZArith Bool List Reals Sorted.
From Verif Require Import Outcome Num Order Rmath Segment VState VPath VBreak VAel VOut PathSpec RingSpec BreakSpec LineSpec BoxSpec.
Import ListNotations.

Section Lens.
  Context {T : Type} {N : Num T}.
  Variable vs : list (vertex T).
  (** From [i] the contour goes up to [j] along [g]; [fwd]: in its own direction *)
  Definition goes_up (fwd : bool) (i j : nat) (g : seg T) : Prop :=
    (if fwd then link vs i j g else link vs j i g) /\ drawable g /\ n_ltb (height vs i) (height vs j) = true.
  Definition is_top (i : nat) (b : bool) : Prop := exists v, nth_error vs i = Some v /\ v_max v = b.
  (** From [i] strictly up over the vertices [l], along [gs], to a maximum *)
  Fixpoint rises (fwd : bool) (i : nat) (l : list nat) (gs : list (seg T)) : Prop :=
    match l, gs with
    | [], [] => is_top i true
    | j :: l, g :: gs => is_top i false /\ goes_up fwd i j g /\ rises fwd j l gs
    | _, _ => False
    end.
  (** The x that the sweep gives to the edge from [i] up to [j] at height [y] *)
  Definition x_on (fwd : bool) (i j : nat) (y x : T) : Prop :=
    if n_eqb (height vs j) y then exists v, nth_error vs j = Some v /\ x = vx (v_pt v)
    else exists v g, nth_error vs (if fwd then i else j) = Some v /\ v_seg v = Some g /\ seg_curr_x g (v_pt v) y = Ok x.
  (** [i], [j] are neighbours in [l]. *)
  Definition next_in (l : list nat) (i j : nat) : Prop := exists p q, l = p ++ i :: j :: q.
  (** Below the top the edges of [ls] and those of [rs], both from [b], are apart at the
      height of every vertex; none is at the far left. *)
  Definition apart (b : nat) (ls rs : list nat) : Prop :=
    forall i j i' j' y, next_in (b :: ls) i j -> next_in (b :: rs) i' j' -> y = height vs j \/ y = height vs j' ->
      n_ltb (height vs i) y = true -> n_ltb (height vs i') y = true -> n_ltb (height vs j) y = false -> n_ltb (height vs j') y = false ->
      is_top j false \/ is_top j' false ->
      exists x x', x_on false i j y x /\ x_on true i' j' y x' /\ n_eqb x' x = false /\ n_eqb x (n_neg n_huge) = false.
End Lens.

(** *** Polygons over the reals that every level line cuts in at most two points *)
Definition strictly_up (l : list (vec2 R)) : Prop := Sorted (fun a b => (vy a < vy b)%R) l.
(** The open polygon [l] has the point (x, y). *)
Definition crossed_at (l : list (vec2 R)) (y x : R) : Prop :=
  exists p a b q t, l = p ++ a :: b :: q /\ (0 <= t <= 1)%R /\ pt a b t = V2 x y.
(** From the lowest vertex [bot] the vertices [right] lead up to the highest, [top],
    and so do the vertices [left]; between the two heights the second chain is to the
    left of the first.  No edge is level. *)
Record lens (bot top : vec2 R) (right left : list (vec2 R)) : Prop := {
  lens_right : strictly_up (bot :: right ++ [top]);
  lens_left : strictly_up (bot :: left ++ [top]);
  lens_sides : forall y x x', (vy bot < y < vy top)%R -> crossed_at (bot :: left ++ [top]) y x -> crossed_at (bot :: right ++ [top]) y x' -> (x < x')%R;
  lens_small : Forall (fun p => moderate (vx p) /\ moderate (vy p)) (bot :: top :: right ++ left) }.
(** The vertices in counterclockwise order, from [bot] *)
Definition around (bot top : vec2 R) (right left : list (vec2 R)) : list (vec2 R) := bot :: right ++ top :: rev left.
(** The client draws the closed polygon [pts], starting at any of its vertices. *)
Definition draws (o : outline (T := R)) (pts : list (vec2 R)) : Prop :=
  exists a c, fst o :: map endpoint (snd o) = a ++ c /\ pts = c ++ a /\ snd o = map PLine (map endpoint (snd o)).
(** The calls that draw it *)
Fixpoint lines_to (p : vec2 R) (l : list (vec2 R)) : list (call (T := R)) :=
  match l with [] => [] | q :: r => LineTo p q :: lines_to q r end.
Definition traced (l : list (vec2 R)) : list (call (T := R)) :=
  match l with [] => [] | p :: r => MoveTo (V2 0 0) p :: lines_to p (r ++ [p]) end%R.
(** A single counterclockwise region of the given type is the result, or the result
    is empty. *)
Definition kept (op : clip_type) (fill : fill_rule) (k : path_type) : bool :=
  match fill, op, k with
  | negative, _, _ => false
  | _, op_union, _ | _, op_xor, _ | _, op_difference, subject => true
  | _, _, _ => false
  end.
(** The points of the polygon; as in [ClipSpec.inside], the left border and the top do
    not belong to it. *)
Definition between (bot top : vec2 R) (right left : list (vec2 R)) (p : vec2 R) : Prop :=
  (vy bot <= vy p < vy top)%R /\
  exists x x', crossed_at (bot :: left ++ [top]) (vy p) x /\ crossed_at (bot :: right ++ [top]) (vy p) x' /\ (x < vx p <= x')%R.
(** The winding number 1 counts as inside, for the paths of type [x], when the polygon
    has type [k]. *)
Definition inside_of (fill : fill_rule) (k x : path_type) : bool :=
  match fill, k, x with negative, _, _ => false | _, subject, subject | _, clip, clip => true | _, _, _ => false end.
