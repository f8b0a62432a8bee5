(** Winding numbers along the active edge list, and what the counts stored in the
    edges should be. *)
From Coq Require Import ZArith Bool List.
From Verif Require Import Outcome Num Rmath Segment VState VAel VOut ClipSpec AelSpec.
Import ListNotations.
Local Open Scope Z_scope.

(** What the fill rules mean (river.h:10). *)
Definition in_fill (fill : fill_rule) (w : Z) : bool :=
  match fill with
  | even_odd => Z.odd w
  | non_zero => negb (w =? 0)
  | positive => 0 <? w
  | negative => w <? 0
  end.
Definition other (t : path_type) : path_type := match t with subject => clip | clip => subject end.
(** of two winding numbers the one further from zero *)
Definition deeper (a b : Z) : Z := if Z.abs a <? Z.abs b then b else a.

Section WindSpec.
  Context {T : Type}.
  Implicit Types s : clipper T.

  (** [i] is an edge of a polygon of type [t] with direction [d]. *)
  Definition edge_is s (i : nat) (t : path_type) (d : Z) : Prop :=
    exists e m, nth_error (edges s) i = Some e /\ nth_error (lmins s) (e_lmin e) = Some m /\
      lm_type m = t /\ e_dx e = d.
  (** The winding number of the polygons of type [t] at a point that has exactly
      the edges [l] to its left. *)
  Inductive wind s (t : path_type) : list nat -> Z -> Prop :=
  | wind_nil : wind s t [] 0
  | wind_own i l w d : edge_is s i t d -> wind s t l w -> wind s t (i :: l) (d + w)
  | wind_other i l w d : edge_is s i (other t) d -> wind s t l w -> wind s t (i :: l) w.
  (** Every edge goes up or down. *)
  Definition directed s (l : list nat) : Prop :=
    forall i, In i l -> exists t d, edge_is s i t d /\ (d = 1 \/ d = -1).

  (** The counts of edge [i] are right if the edges [l] are to its left. *)
  Definition counted (fill : fill_rule) s (l : list nat) (i : nat) : Prop :=
    forall e t d w v, nth_error (edges s) i = Some e -> edge_is s i t d ->
      wind s t l w -> wind s (other t) l v ->
      match fill with
      | even_odd => e_cnt e = d /\ e_cnt2 e = v mod 2
      | _ => e_cnt e = deeper w (w + d) /\ e_cnt2 e = v
      end.
  Definition all_counted (fill : fill_rule) s (l : list nat) : Prop :=
    forall l1 i l2, l = l1 ++ i :: l2 -> counted fill s l1 i.

  (** A point with the edges [l] to its left belongs to the result. *)
  Definition in_result (op : clip_type) (fill : fill_rule) s (l : list nat) (b : bool) : Prop :=
    exists w v, wind s subject l w /\ wind s clip l v /\ b = bool_op op (in_fill fill w) (in_fill fill v).
End WindSpec.

(** *** The edges kept as output boundary *)
Section KeptSpec.
  Context {T : Type} {N : Num T}.
  Implicit Types s : clipper T.
  (** The edge [i], with the edges [l] to its left, separates the result from the
      rest of the plane. *)
  Definition boundary op fill s (l : list nat) (i : nat) : Prop :=
    exists b, in_result op fill s l b /\ in_result op fill s (l ++ [i]) (negb b).
  (** [k] are those edges among [l] that the code keeps. *)
  Inductive kept s : list nat -> list nat -> Prop :=
  | kept_nil : kept s [] []
  | kept_yes i l k e : nth_error (edges s) i = Some e -> is_contributing s e = Ok true -> kept s l k -> kept s (i :: l) (i :: k)
  | kept_no i l k e : nth_error (edges s) i = Some e -> is_contributing s e = Ok false -> kept s l k -> kept s (i :: l) k.
  (** A segment is stored at the vertex where it starts: the one before the top for
      an edge drawn upwards, the top itself for one drawn downwards. *)
  Definition runs_along s (e : edge T) (g : seg T) : Prop :=
    exists v, nth_error (verts s) (e_vtop e) = Some v /\
      if (e_dx e <? 0)%Z then exists p u, v_prev v = Some p /\ nth_error (verts s) p = Some u /\ v_seg u = Some g else v_seg v = Some g.
  (** The edges have the same ends and are both straight, or both cubics with the
      same two control points. *)
  Definition coincide s (e f : edge T) : Prop :=
    veqb (e_bot e) (e_bot f) = true /\ veqb (e_top e) (e_top f) = true /\
    exists g h, runs_along s e g /\ runs_along s f h /\
      match g, h with
      | SLine _, SLine _ => True
      | SCubic a b _, SCubic c d _ => (veqb a c = true /\ veqb b d = true) \/ (veqb b c = true /\ veqb a d = true)
      | _, _ => False
      end.
  (** [k'] arises from [k] by taking out neighbours that coincide, *)
  Inductive cancels s : list nat -> list nat -> Prop :=
  | cancels_nil k : cancels s k k
  | cancels_pair a i j b k e f : nth_error (edges s) i = Some e -> nth_error (edges s) j = Some f ->
      coincide s f e -> cancels s (a ++ b) k -> cancels s (a ++ i :: j :: b) k.
  (** and none are left. *)
  Definition no_twins s (k : list nat) : Prop :=
    forall a i j b e f, k = a ++ i :: j :: b -> nth_error (edges s) i = Some e -> nth_error (edges s) j = Some f -> ~ coincide s f e.
End KeptSpec.

(** The numbers two by two are opposite. *)
Fixpoint opposite_pairs (l : list Z) : Prop :=
  match l with
  | [] => True
  | [a] => False
  | a :: b :: r => a = - b /\ opposite_pairs r
  end.
