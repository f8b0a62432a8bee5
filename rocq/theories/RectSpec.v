(** Boxes as sets of points. *)
From Coq Require Import Bool List.
From Verif Require Import Num Order Rmath.

Section Spec.
  Context {T : Type} {N : Num T} {O : OrdNum T}.

  (** The point lies in the closed box. *)
  Definition inbox (r : rect T) (p : vec2 T) : Prop :=
    nle (vx (rmin r)) (vx p) /\ nle (vx p) (vx (rmax r)) /\
    nle (vy (rmin r)) (vy p) /\ nle (vy p) (vy (rmax r)).

  Definition vvalid (p : vec2 T) : Prop := nvalid (vx p) /\ nvalid (vy p).
  Definition rvalid (r : rect T) : Prop := vvalid (rmin r) /\ vvalid (rmax r).
  (** Not inverted. *)
  Definition rect_wf (r : rect T) : Prop :=
    rvalid r /\ nle (vx (rmin r)) (vx (rmax r)) /\ nle (vy (rmin r)) (vy (rmax r)).

  (** Coordinates between -DBL_MAX and DBL_MAX. *)
  Definition finite_point (p : vec2 T) : Prop :=
    vvalid p /\ nle (n_neg n_huge) (vx p) /\ nle (vx p) n_huge /\
    nle (n_neg n_huge) (vy p) /\ nle (vy p) n_huge.

  Definition finite_bezier (z : bezier T) : Prop :=
    finite_point (b0 z) /\ finite_point (b1 z) /\ finite_point (b2 z) /\ finite_point (b3 z).

  Definition rect_le (r r' : rect T) : Prop :=
    nle (vx (rmin r')) (vx (rmin r)) /\ nle (vx (rmax r)) (vx (rmax r')) /\
    nle (vy (rmin r')) (vy (rmin r)) /\ nle (vy (rmax r)) (vy (rmax r')).
End Spec.
