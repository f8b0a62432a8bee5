(** The sides of the contours that a scan line meets. *)
From Coq Require Import ZArith Bool List.
From Verif Require Import Outcome Num Rmath Segment Path PathSpec VState VAel RingSpec AelSpec ClimbSpec.
Import ListNotations.

Section Span.
  Context {T : Type} {N : Num T}.
  (** The side of a contour from the vertex [j] to the vertex [k], walked in the
      direction of the contour ([fwd]) or against it *)
  Definition side (vs : list (vertex T)) (fwd : bool) (j k : nat) : Prop :=
    exists v w, nth_error vs j = Some v /\ nth_error vs k = Some w /\ neighbour fwd v = Some k /\ neighbour (negb fwd) w = Some j.
  (** The side that leads up to [k] starts at or below the line at height [y] and
      ends above it. *)
  Definition meets (vs : list (vertex T)) (ls : list (list nat)) (y : T) (u : bool * nat) : Prop :=
    exists l j, In l ls /\ In j l /\ In (snd u) l /\ side vs (fst u) j (snd u) /\
      n_leb (height vs j) y = true /\ n_ltb y (height vs (snd u)) = true.
  (** The side an edge stands for *)
  Definition edge_side (e : edge T) : bool * nat := (edge_up e, e_vtop e).
  Definition side_of (es : list (edge T)) (i : nat) : bool * nat :=
    match nth_error es i with Some e => edge_side e | None => (true, 0) end.
  (** The active edges are the sides that the line at height [y] meets, each once,
      and reach from the lower corner of the side to the upper one. *)
  Definition spans (s : clipper T) (ls : list (list nat)) (y : T) : Prop :=
    exists l, active s l /\ NoDup (map (side_of (edges s)) l) /\
      (forall u, In u (map (side_of (edges s)) l) <-> meets (verts s) ls y u) /\
      (forall i e, In i l -> nth_error (edges s) i = Some e ->
         exists j v w, side (verts s) (edge_up e) j (e_vtop e) /\ nth_error (verts s) j = Some v /\ nth_error (verts s) (e_vtop e) = Some w /\
           e_bot e = v_pt v /\ e_top e = v_pt w).
  (** No vertex is as low as a double can be: that height starts the sweep
      (vatti.cpp:402). *)
  Definition not_at_end (s : clipper T) : Prop := Forall (fun v => n_eqb (vy (v_pt v)) (n_neg n_huge) = false) (verts s).
End Span.
(** No corner of the polygon is that low. *)
Definition above_end {T} {N : Num T} (o : outline (T := T)) : Prop :=
  Forall (fun p => n_eqb (vy p) (n_neg n_huge) = false) (fst o :: map endpoint (snd o)).
