(** C64: how much the sweep makes. *)
From Coq Require Import ZArith List Permutation.
From Verif Require Import Outcome Num VState VPath VBreak VOut VMain VFuel ClipCases RunCases FuelCases EndCases EdgeCount BoundCount EdgeCases.
Import ListNotations.

(** C64: two edges for each local minimum taken, each minimum at most once; the minima
    stay the same but for their order. *)
Theorem C64_edges :
  forall (T : Type) (N : Num T) en fuel (s s' : clipper T) op fill out, process en fuel s op fill = Ok (s', out) ->
    length (edges s') = length (edges s) + 2 * cur s' /\ cur s' <= length (minima s) /\ Permutation (minima s) (minima s').
Proof. exact (fun T N en fuel s s' op fill out => @C64_edges_lemma T N en fuel s op fill s' out). Qed.
Print Assumptions C64_edges.
(** C64: two ends for each polygon begun. *)
Theorem C64_ends :
  forall (T : Type) (N : Num T) en fuel (s s' : clipper T) op fill out, process en fuel s op fill = Ok (s', out) ->
    length (bounds s') + 2 * length (polys s) = length (bounds s) + 2 * length (polys s').
Proof. exact (fun T N en fuel s s' op fill out => @C64_ends_lemma T N en fuel s op fill s' out). Qed.
Print Assumptions C64_ends.
(** Two squares: two minima, four edges, one polygon with two ends *)
Example C64_example (lm : libm) : let N := B64 lm in
  exists s s' out, load lm [box 0%Z 0%Z 4%Z 4%Z] [box 2%Z 2%Z 6%Z 6%Z] = Ok s /\ process env0 100 s op_intersection positive = Ok (s', out) /\
    (length (edges s), length (bounds s), length (polys s)) = (0, 0, 0) /\ length (minima s) = 2 /\
    cur s' = 2 /\ (length (edges s'), length (bounds s'), length (polys s')) = (4, 2, 1).
Proof. exact (C64_case lm). Qed.
