(** C26-C28: winding counts, kept edges and the pairs of output bounds. *)
From Coq Require Import ZArith Bool List Floats.SpecFloat.
From Verif Require Import Outcome Num Order Rmath Segment Path VState VPath VBreak VAel VOut VMain
  ClipSpec AelSpec WindSpec VAelProofs VWind VKept VPairs WindStatements ClipCases RunCases WindCases TwinCases.
Import ListNotations.
Local Open Scope out.

(** C26: counting an edge whose left neighbours are counted right succeeds, changes
    the counts of this edge only and makes them right. *)
Theorem C26_calc :
  forall (T : Type) (s : clipper T) a i b,
    active s (a ++ i :: b) -> directed s (a ++ i :: b) -> all_counted (cfill s) s a ->
    exists c c2, calc_windcnt s i = Ok (w_edges s (upd (edges s) i (set_ecnt c c2))) /\
      counted (cfill s) (w_edges s (upd (edges s) i (set_ecnt c c2))) a i.
Proof. exact (@calc_windcnt_ok). Qed.
Print Assumptions C26_calc.
(** After the recalculation all counts are right, if the list is ordered and every
    edge was counted right before or lies at an x marked as changed. *)
Theorem C26_recalc_partial :
  forall (T : Type) (N : Num T) (O : OrdNum T) (s : clipper T) l s',
    active s l -> directed s l -> ordered (edges s) l -> xvalid (edges s) l -> Forall nvalid (changes s) ->
    (forall l1 i l2 e, l = l1 ++ i :: l2 -> nth_error (edges s) i = Some e ->
       counted (cfill s) s l1 i \/ exists x, In x (changes s) /\ n_eqb (e_x e) x = true) ->
    recalc_windcnt s = Ok s' -> active s' l /\ all_counted (cfill s') s' l /\ cfill s' = cfill s.
Proof. exact (@recalc_windcnt_ok). Qed.
Print Assumptions C26_recalc_partial.
Example C26_case (lm : libm) : let N := B64 lm in
  exists s y m l s', seen env0 1000 (s24 lm) op_intersection positive s y /\ insert_local_minima_to_ael s y = Ok m /\
    length l = 4 /\ active m l /\ directed m l /\ ordered (edges m) l /\ xvalid (edges m) l /\ Forall nvalid (changes m) /\
    (forall l1 i l2 e, l = l1 ++ i :: l2 -> nth_error (edges m) i = Some e ->
       counted (cfill m) m l1 i \/ exists x, In x (changes m) /\ n_eqb (e_x e) x = true) /\
    recalc_windcnt m = Ok s'.
Proof. exact (C26_case_lemma lm). Qed.
(** Missing: the hypotheses in every run.  There they fail, and with them the
    claim: after the recalculation an active edge has count 0. *)
Theorem C26_run_refuted :
  forall lm : libm, let N := B64 lm in
    exists s s1 y s2 s3 l1 i l2 e, loaded s /\ seen env0 1000 s op_union negative s1 y /\
      insert_local_minima_to_ael s1 y = Ok s2 /\ recalc_windcnt s2 = Ok s3 /\
      active s3 (l1 ++ i :: l2) /\ directed s3 (l1 ++ i :: l2) /\ nth_error (edges s3) i = Some e /\ e_cnt e = 0%Z /\
      ~ counted (cfill s3) s3 l1 i.
Proof. exact C26_refuted_lemma. Qed.
Print Assumptions C26_run_refuted.

(** C27: with right counts an edge contributes exactly if it separates the result
    from the rest of the plane ... *)
Theorem C27_boundary :
  forall (T : Type) (s : clipper T) l i e,
    nth_error (edges s) i = Some e -> directed s (l ++ [i]) -> counted (cfill s) s l i ->
    exists k, is_contributing s e = Ok k /\ (k = true <-> boundary (cop s) (cfill s) s l i).
Proof. exact (@contributing_boundary). Qed.
Print Assumptions C27_boundary.
(** ... hence a point with the edges [l1] to its left is in the result exactly if
    an odd number of them is kept. *)
Theorem C27_parity :
  forall (T : Type) (s : clipper T) l1 l2,
    directed s (l1 ++ l2) -> all_counted (cfill s) s (l1 ++ l2) ->
    exists k, kept s l1 k /\ in_result (cop s) (cfill s) s l1 (Nat.odd (length k)).
Proof. exact (@parity_lemma). Qed.
Print Assumptions C27_parity.
(** Coinciding edges are told by their ends and control points. *)
Theorem C27_coincide :
  forall (T : Type) (N : Num T) (s : clipper T) a b c, is_same s a b = Ok c -> (c = true <-> coincide s a b).
Proof. exact (@is_same_exact). Qed.
Print Assumptions C27_coincide.
Example C27_coincide_case : is_same bows (bow 1 (-1)) (bow 3 (-1)) = Ok true.
Proof. exact bows_same. Qed.
(** The list that the output is built from are the kept edges without neighbours
    that coincide. *)
Theorem C27_collect :
  forall (T : Type) (N : Num T) (s : clipper T) l r,
    active s l -> directed s l -> all_counted (cfill s) s l ->
    collect (length (edges s)) s (ael s) [] = Ok r ->
    exists k, kept s l k /\ cancels s k (rev r) /\ no_twins s (rev r).
Proof. exact (@collect_lemma). Qed.
Print Assumptions C27_collect.
Example C27_case (lm : libm) : let N := B64 lm in
  exists (s : clipper b64) l, active s l /\ directed s l /\ all_counted (cfill s) s l /\
    kept s l [2; 1] /\ l = [0; 2; 1; 3] /\ in_result (cop s) (cfill s) s [0; 2] true.
Proof. exact (C27_case_lemma lm). Qed.

(** C28 for union and intersection with an oriented fill rule: the bounds created
    at a scan line are two by two of opposite direction. *)
Theorem C28_oriented_partial :
  forall (T : Type) (N : Num T) (O : OrdNum T) n (s : clipper T) y l s',
    (cop s = op_union \/ cop s = op_intersection) -> (cfill s = positive \/ cfill s = negative) ->
    active s l -> directed s l -> ordered (edges s) l -> xvalid (edges s) l -> all_counted (cfill s) s l ->
    update_output_bound n s y = Ok s' ->
    exists ds, map ob_dx (bounds s') = map ob_dx (bounds s) ++ ds /\ opposite_pairs ds.
Proof. exact (@pairs_lemma). Qed.
Print Assumptions C28_oriented_partial.
Example C28_case (lm : libm) : let N := B64 lm in
  exists (s : clipper b64) l y s', cop s = op_intersection /\ cfill s = positive /\ length l = 4 /\
    active s l /\ directed s l /\ ordered (edges s) l /\ xvalid (edges s) l /\ all_counted (cfill s) s l /\
    update_output_bound 1000 s y = Ok s' /\ map ob_dx (bounds s) = [] /\ map ob_dx (bounds s') = [1; -1]%Z.
Proof. exact (C28_case_lemma lm). Qed.
(** Missing: the other operations and fill rules, where it is false. *)
Theorem C28_difference_refuted :
  forall lm : libm, let N := B64 lm in
    exists s s1 y s2, load lm [box 2 2 14 18] [box 7 1 12 9] = Ok s /\ seen env0 1000 s op_difference positive s1 y /\
      scan_at 1000 s1 y = Ok s2 /\ map ob_dx (bounds s1) = [] /\ map ob_dx (bounds s2) = [1; 1; -1; -1]%Z.
Proof. exact C28_difference_lemma. Qed.
Print Assumptions C28_difference_refuted.
Theorem C28_union_refuted :
  forall lm : libm, let N := B64 lm in
    exists s s1 y s2, load lm [box 0 5 10 15] [[(5, 15); (15, 15); (15, 5); (5, 5)]%Z] = Ok s /\
      seen env0 1000 s op_union non_zero s1 y /\
      scan_at 1000 s1 y = Ok s2 /\ map ob_dx (bounds s1) = [] /\ map ob_dx (bounds s2) = [1; 1]%Z.
Proof. exact C28_union_lemma. Qed.
Print Assumptions C28_union_refuted.
