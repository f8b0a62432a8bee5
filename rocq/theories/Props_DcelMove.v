(** C59: half-edge structures of lines that are moved and scaled. *)
From Coq Require Import ZArith Bool List Reals Permutation Floats.SpecFloat.
From Verif Require Import Outcome Num Rmath LineSpec VState Dcel DcelCases DcelAgainSpec AffineSpec DcelMoveSpec DcelMove DcelMoveCases.
Import ListNotations.

(** C59: any calls, [process] among them as often as one likes.  With all coordinates
    multiplied by one positive number and shifted, the calls end as before, and the
    structure is the same but for the places of its points: no half edge starts, ends or
    continues elsewhere, no face differs. *)
Theorem C59_moved :
  forall en k b d (l : list (use R)),
    (forall i, Permutation (de_order en i) i) -> (0 < k)%R ->
    Forall use_fin l -> Forall use_fin (map (moved_use k b d) l) ->
    same_life k b d (life en dcel0 l) (life en dcel0 (map (moved_use k b d) l)).
Proof. exact dcel_moved. Qed.
Print Assumptions C59_moved.
(** Two lines across each other at (2, 2): all conditions hold, and [process] ends. *)
Example C59_moved_case : (forall l : list nat, Permutation (de_order en_plain l) l) /\
  Forall use_fin cross_life /\ Forall use_fin (map (moved_use 3 1 (-2)) cross_life) /\
  exists s, life en_plain dcel0 cross_life = Ok s /\ exists q, In q (d_points s) /\ p_at q = V2 2%R 2%R.
Proof. exact cross_life_case. Qed.

(** C59, doubles: the diagonals of a square of side 1 have five points.  2^52 further to
    the right and upwards, where their ends are doubles still, they have four. *)
Theorem C59_double_refuted : let N := B64 lm_angle in exists s s',
  life en_plain dcel0 (diagonals 0) = Ok s /\ life en_plain dcel0 (diagonals (2 ^ 52)) = Ok s' /\ length (d_points s) = 5 /\ length (d_points s') = 4.
Proof. exact far_lemma. Qed.
Print Assumptions C59_double_refuted.
