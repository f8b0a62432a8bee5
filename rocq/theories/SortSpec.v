(** What std::sort promises. *)
From Coq Require Import Bool List Sorted Permutation.
From Verif Require Import Outcome Num Rmath VState.
Import ListNotations.

(** The comparison is a strict weak order of the elements of [l]: this is required of it. *)
Definition weak_order {A} (lt : A -> A -> bool) (l : list A) : Prop :=
  (forall a, In a l -> lt a a = false) /\
  (forall a b c, In a l -> In b l -> In c l -> lt a b = true -> lt b c = true -> lt a c = true) /\
  (forall a b c, In a l -> In b l -> In c l -> lt a b = false -> lt b a = false -> lt b c = false -> lt c b = false -> lt a c = false /\ lt c a = false).
(** The elements come in some order, none after a greater one.  Nothing is said about elements
    that do not precede each other, nor about comparisons that are no strict weak order. *)
Definition sorts (srt : forall A : Type, (A -> A -> bool) -> list A -> list A) : Prop :=
  forall A (lt : A -> A -> bool) l, weak_order lt l ->
    Permutation l (srt A lt l) /\ StronglySorted (fun a b => lt b a = false) (srt A lt l).
(** No two of the local minima are at one place. *)
Definition minima_apart {T} (s : clipper T) : Prop :=
  forall a b m m' v v', In a (minima s) -> In b (minima s) -> nth_error (lmins s) a = Some m -> nth_error (lmins s) b = Some m' ->
    nth_error (verts s) (lm_vert m) = Some v -> nth_error (verts s) (lm_vert m') = Some v' -> v_pt v = v_pt v' -> a = b.
