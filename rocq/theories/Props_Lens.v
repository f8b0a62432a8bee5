(** C29, C32, C35 and C42 for one counterclockwise polygon in exact arithmetic that every
    level line cuts in at most two points, with any number of vertices.  [en] is what C++
    leaves open: where sort puts equal keys and the addresses of objects. *)
From Coq Require Import ZArith Bool List Reals Permutation.
From Verif Require Import Outcome Num Rmath Segment Path PathSpec VState VPath VBreak VAel VOut VMain RingSpec BreakSpec BoxSpec BoxCases ClipSpec ClipCases LensSpec LensCases.
Import ListNotations.

(** C35, C32, C42: with the other operand empty, the operation returns the polygon itself,
    traced once from its lowest vertex, or nothing; the contour is closed and holds exactly
    the points that it should. *)
Theorem C35_monotone_partial :
  forall en bot top right left (o : outline (T := R)) k op fill fuel,
    (forall l, Permutation (en_order en l) l) -> lens bot top right left -> draws o (around bot top right left) ->
    length (around bot top right left) <= fuel ->
    exists s s' l cs, add_all clipper0 [(k, [[o]])] = Ok s /\ process en fuel s op fill = Ok (s', l) /\
      l = (if kept op fill k then traced (around bot top right left) else []) /\ contours l cs /\ Forall closed cs /\
      forall p, (between bot top right left p -> inside p l = bool_op op (inside_of fill k subject) (inside_of fill k clip)) /\
        (~ between bot top right left p -> inside p l = false).
Proof. exact monotone_run. Qed.
Print Assumptions C35_monotone_partial.
Example C35_monotone_case :
  lens zbot ztop zright zleft /\ draws zdrawn (around zbot ztop zright zleft) /\ (forall l, Permutation (en_order env0 l) l) /\
  between zbot ztop zright zleft (V2 (IZR 1) (IZR 3)) /\ kept op_union non_zero subject = true /\ kept op_intersection non_zero subject = false.
Proof. exact (conj z_lens (conj z_draws (conj (proj1 env0_fair) (conj z_point (conj eq_refl eq_refl))))). Qed.

(** C29: a bound on the loops equal to the number of vertices is enough. *)
Theorem C29_monotone_partial :
  forall en bot top right left (o : outline (T := R)) k op fill fuel,
    (forall l, Permutation (en_order en l) l) -> lens bot top right left -> draws o (around bot top right left) ->
    length (around bot top right left) <= fuel ->
    exists s r, add_all clipper0 [(k, [[o]])] = Ok s /\ process en fuel s op fill = Ok r.
Proof. exact monotone_ends. Qed.
Print Assumptions C29_monotone_partial.
Example C29_monotone_case : lens zbot ztop zright zleft /\ draws zdrawn (around zbot ztop zright zleft) /\ length (around zbot ztop zright zleft) = 6.
Proof. exact (conj z_lens (conj z_draws eq_refl)). Qed.
