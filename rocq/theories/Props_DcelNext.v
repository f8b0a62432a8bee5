(** C61: which half edges there are. *)
From Coq Require Import ZArith Bool List Reals Floats.SpecFloat Permutation.
From Verif Require Import Outcome Num Rmath RectSpec LineSpec VState Dcel DcelSpec DcelCases DcelLaySpec DcelLayCases DcelNextSpec DcelNext DcelNextCases.
Import ListNotations.

(** C61, if lines on one straight line have no more than ends in common, exact
    arithmetic: two different points that are neighbours on a line are joined by
    exactly one half edge in this direction, and no other two different points by any.
    Missing: lines that overlap, see below. *)
Theorem C61_next_partial :
  forall (en : denv) (l : list (dcall R)) (d d' : dcel R), (forall l, Permutation (de_order en l) l) -> Forall dcall_fin l ->
    dcalls_run dcel0 l = Ok d -> dcel_process en d = Ok d' -> no_lap (lines_given subject l) ->
    forall a b, a <> b ->
      (neighbours (lines_given subject l) a b -> exists e, (exists t, half_from d' e t a b) /\ forall e', (exists t, half_from d' e' t a b) -> e' = e) /\
      ((exists e t, half_from d' e t a b) -> neighbours (lines_given subject l) a b).
Proof. exact C61_next_lemma. Qed.
Print Assumptions C61_next_partial.
Example C61_next_example : Forall dcall_fin cross_R /\ no_lap (lines_given subject cross_R) /\
  (neighbours (lines_given subject cross_R) (V2 0 0) (V2 2 2) /\ ~ neighbours (lines_given subject cross_R) (V2 0 0) (V2 4 4))%R /\
  exists d d', dcalls_run dcel0 cross_R = Ok d /\ dcel_process en_plain d = Ok d' /\
    (exists e t, half_from d' e t (V2 0 0) (V2 2 2))%R /\ ~ (exists e t, half_from d' e t (V2 0 0) (V2 4 4))%R.
Proof. exact C61_next_case. Qed.
(** C61: the order in which the lines are given, their direction, their type and
    where the memory lies change neither the points nor which of them are joined. *)
Theorem C61_order_partial :
  forall (en en' : denv) (l l' : list (dcall R)) (d d' g g' : dcel R),
    (forall l, Permutation (de_order en l) l) -> (forall l, Permutation (de_order en' l) l) -> Forall dcall_fin l -> Forall dcall_fin l' ->
    dcalls_run dcel0 l = Ok d -> dcel_process en d = Ok d' -> dcalls_run dcel0 l' = Ok g -> dcel_process en' g = Ok g' ->
    no_lap (lines_given subject l) -> no_lap (lines_given subject l') -> same_lines (lines_given subject l) (lines_given subject l') ->
    (forall p, (exists q, In q (d_points d') /\ p_at q = p) <-> exists q, In q (d_points g') /\ p_at q = p) /\
    forall a b, a <> b -> (exists e t, half_from d' e t a b) <-> exists e t, half_from g' e t a b.
Proof. exact C61_order_lemma. Qed.
Print Assumptions C61_order_partial.
Example C61_order_example : Forall dcall_fin cross_R /\ Forall dcall_fin cross_other /\ no_lap (lines_given subject cross_R) /\ no_lap (lines_given subject cross_other) /\
  same_lines (lines_given subject cross_R) (lines_given subject cross_other) /\
  exists d d' g g', dcalls_run dcel0 cross_R = Ok d /\ dcel_process en_plain d = Ok d' /\ dcalls_run dcel0 cross_other = Ok g /\ dcel_process en_plain g = Ok g' /\
    (exists e t, half_from d' e t (V2 0 0) (V2 2 2))%R /\ (exists e t, half_from g' e t (V2 0 0) (V2 2 2))%R.
Proof. exact C61_order_case. Qed.
(** C61 without the condition: a half edge that goes past a point of another line *)
Theorem C61_lap_refuted : let N := B64 lm_angle in
  exists l d d' e i q, dcalls_run dcel0 l = Ok d /\ dcel_process en_plain d = Ok d' /\
    half_from d' e subject (zv 0 0) (zv 10 0) /\ nth_error (d_points d') i = Some q /\ p_at q = zv 2 0.
Proof. exact C61_lap_lemma. Qed.
Print Assumptions C61_lap_refuted.
