(** The half-edge structure as a drawing of the lines it was given. *)
From Coq Require Import ZArith Bool List Reals.
From Verif Require Import Outcome Num Rmath LineSpec VState Dcel DcelSpec.
Import ListNotations.

Section Spec.
  Context {T : Type} {N : Num T}.
  (** The lines given, each with the type set before it; a line from a point to itself does not count. *)
  Fixpoint lines_given (t : path_type) (l : list (dcall T)) : list (path_type * (vec2 T * vec2 T)) :=
    match l with
    | [] => []
    | DType t' :: r => lines_given t' r
    | DLine x1 y1 x2 y2 :: r =>
      if veqb (V2 x1 y1) (V2 x2 y2) then lines_given t r else (t, (V2 x1 y1, V2 x2 y2)) :: lines_given t r
    end.
  (** The type set last *)
  Fixpoint type_after (t : path_type) (l : list (dcall T)) : path_type :=
    match l with
    | [] => t
    | DType t' :: r => type_after t' r
    | _ :: r => type_after t r
    end.
  (** Half edge [e] has type [t] and runs from [a] to [b]. *)
  Definition half_from (d : dcel T) (e : nat) (t : path_type) (a b : vec2 T) : Prop :=
    exists h p q, live d e h /\ h_type h = t /\
      nth_error (d_points d) (h_start h) = Some p /\ nth_error (d_points d) (h_end h) = Some q /\ p_at p = a /\ p_at q = b.
End Spec.

(** Line [i] of the list *)
Definition line_is {T} (ls : list (path_type * (vec2 T * vec2 T))) (i : nat) (t : path_type) (a b : vec2 T) : Prop := nth_error ls i = Some (t, (a, b)).
(** Two lines on the same straight line have no point in common but ends of both. *)
Definition no_lap (ls : list (path_type * (vec2 R * vec2 R))) : Prop :=
  forall i j t a b t' a' b' p, i <> j -> line_is ls i t a b -> line_is ls j t' a' b' -> parallel a b a' b' ->
    on_segment p a b -> on_segment p a' b' -> (p = a \/ p = b) /\ (p = a' \/ p = b').
(** Coming from [a] and going on from [v] to [b] turns to the left, to the right. *)
Definition bend {T} {N : Num T} (a v b : vec2 T) : T :=
  n_sub (n_mul (n_sub (vx v) (vx a)) (n_sub (vy b) (vy v))) (n_mul (n_sub (vy v) (vy a)) (n_sub (vx b) (vx v))).
Definition turns_left {T} {N : Num T} (a v b : vec2 T) : Prop := n_ltb (n_ofZ 0%Z) (bend a v b) = true.
Definition turns_right {T} {N : Num T} (a v b : vec2 T) : Prop := n_ltb (bend a v b) (n_ofZ 0%Z) = true.
