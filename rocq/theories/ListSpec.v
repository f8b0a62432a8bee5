(** The contours of a drawing, apart from how they are listed. *)
From Coq Require Import ZArith Bool List Reals Permutation.
From Verif Require Import Outcome Num Rmath Path PathSpec VState RingSpec LineSpec.
Import ListNotations.

Section Listed.
  Context {T : Type}.
  Implicit Types l : list (vec2 T).
  (** The closed contours with their corners, in the order of drawing *)
  Definition listing (ps : list (path_type * list (list (outline (T := T))))) : list (path_type * list (vec2 T)) :=
    flat_map (fun x => map (fun o => (fst x, fst o :: map endpoint (snd o))) (concat (snd x))) ps.
  (** The same closed contour from another corner *)
  Definition restarted l l' : Prop := exists a b, l = a ++ b /\ l' = b ++ a.
  (** The same contours, in any order and each from any of its corners *)
  Definition same_contours (cs cs' : list (path_type * list (vec2 T))) : Prop :=
    exists m, Permutation cs m /\ Forall2 (fun c c' => fst c = fst c' /\ restarted (snd c) (snd c')) m cs'.
  Definition sides l : list (vec2 T * vec2 T) := match l with [] => [] | p :: r => combine l (r ++ [p]) end.
  Definition all_sides (cs : list (path_type * list (vec2 T))) : list (vec2 T * vec2 T) := flat_map (fun c => sides (snd c)) cs.
  (** No two corners are at one place. *)
  Definition distinct_corners (cs : list (path_type * list (vec2 T))) : Prop := NoDup (flat_map snd cs).
End Listed.
(** Two sides in one line have at most end points in common. *)
Definition no_overlap (cs : list (path_type * list (vec2 R))) : Prop :=
  forall a b c d t u, In (a, b) (all_sides cs) -> In (c, d) (all_sides cs) -> a <> c -> parallel a b c d ->
    (0 <= t <= 1)%R -> (0 <= u <= 1)%R -> pt a b t = pt c d u -> t = 0%R \/ t = 1%R.
