(** C44: edges taken for one another, over the reals. *)
From Coq Require Import ZArith Bool List Reals.
From Verif Require Import Outcome Num Rmath Segment VState VAel VOut BezierSpec BreakSpec AelSpec WindSpec TwinSpec Twin TwinCases.
Import ListNotations.
Local Open Scope R_scope.

(** Edges along the same curve are recognised. *)
Theorem C44_found :
  forall s a b g h, spans s a g -> spans s b h -> same_kind g h -> (forall t, course a g t = course b h t) -> is_same s a b = Ok true.
Proof. exact same_found. Qed.
Print Assumptions C44_found.
(** Edges that are said to be the same are so, or are two cubics of which one has
    the control points of the other swapped. *)
Theorem C44_same_partial :
  forall s a b g h, spans s a g -> spans s b h -> is_same s a b = Ok true ->
    (forall t, course a g t = course b h t) \/
    exists p q, forall t, course a g t = curve (Bez (e_bot a) p q (e_top a)) t /\ course b h t = curve (Bez (e_bot a) q p (e_top a)) t.
Proof. exact same_course. Qed.
Print Assumptions C44_same_partial.
Example C44_same_case :
  spans bows (bow 1 (-1)) (SCubic c3 c7 high) /\ spans bows (bow 5 1) (SCubic c7 c3 low) /\
  forall t, course (bow 1 (-1)) (SCubic c3 c7 high) t = course (bow 5 1) (SCubic c7 c3 low) t.
Proof. exact bow_case. Qed.
(** In the second case they are different curves: a point of one is not on the other. *)
Theorem C44_swapped_refuted :
  exists (s : clipper R) a b g h, spans s a g /\ spans s b h /\ upwards a = true /\ upwards b = true /\ is_same s a b = Ok true /\
    exists t, 0 < t < 1 /\ forall u, course b h u <> course a g t.
Proof. exact swapped_lemma. Qed.
Print Assumptions C44_swapped_refuted.
