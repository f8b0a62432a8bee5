(** C24 and C25: the active edge list. *)
From Coq Require Import ZArith Bool List Permutation Floats.SpecFloat.
From Verif Require Import Outcome Num Order Rmath Segment Path VState VPath VBreak VAel VOut VMain
  ClipSpec AelSpec VAelProofs VAelRun VRun ClipCases RunCases.
Import ListNotations.
Local Open Scope out.

(** C24: inserting a new edge puts it somewhere into the list and touches nothing
    but links. *)
Theorem C24_insert :
  forall (T : Type) (N : Num T) (s : clipper T) l nw s',
    active s l -> ~ In nw l -> insert_into_ael s nw = Ok s' ->
    exists l1 l2, l = l1 ++ l2 /\ active s' (l1 ++ nw :: l2) /\ only_links s s'.
Proof. exact (@insert_ok_lemma). Qed.
Print Assumptions C24_insert.
(** The same for the insertion that starts at a given member. *)
Theorem C24_insert_left :
  forall (T : Type) (N : Num T) (s : clipper T) l1 l2 nw s',
    active s (l1 ++ l2) -> ~ In nw (l1 ++ l2) -> insert_into_ael_left s (last_or None l1) nw = Ok s' ->
    exists m1 m2, l1 ++ l2 = m1 ++ m2 /\ active s' (m1 ++ nw :: m2) /\ only_links s s'.
Proof. exact (@insert_left_lemma). Qed.
Print Assumptions C24_insert_left.
(** Both removals take out exactly the given member; the first always succeeds. *)
Theorem C24_take :
  forall (T : Type) (s : clipper T) a i b,
    active s (a ++ i :: b) ->
    exists s', take_from_ael s i = Ok s' /\ active s' (a ++ b) /\ only_links s s'.
Proof. exact (@take_ok_lemma). Qed.
Print Assumptions C24_take.
Theorem C24_delete :
  forall (T : Type) (s : clipper T) a i b,
    active s (a ++ i :: b) ->
    exists s', delete_active_edge s i = Ok (hd_or b None, s') /\ active s' (a ++ b) /\ only_links s s'.
Proof. exact (@delete_ok_lemma). Qed.
Print Assumptions C24_delete.
(** Re-sorting keeps the members and, apart from links and output bounds, the
    edges. *)
Theorem C24_resort :
  forall (T : Type) (N : Num T) (s : clipper T) l s',
    active s l -> resort_ael s = Ok s' ->
    exists l', Permutation l l' /\ active s' l' /\ erel same_but_links (edges s) (edges s').
Proof. exact (@resort_ael_ok). Qed.
Print Assumptions C24_resort.
(** Any history of these operations. *)
Theorem C24_history :
  forall (T : Type) (N : Num T) (ops : list ael_op) (s : clipper T) l m s',
    active s l -> members l ops m -> ael_run s ops = Ok s' ->
    exists m', Permutation m m' /\ active s' m' /\ erel same_but_links (edges s) (edges s').
Proof. exact (@history_lemma). Qed.
Print Assumptions C24_history.
(** The loops of these operations end: no history runs out of fuel. *)
Theorem C24_history_ends :
  forall (T : Type) (N : Num T) (ops : list ael_op) (s : clipper T) l m,
    active s l -> members l ops m -> ael_run s ops <> NoFuel.
Proof. exact (@history_fuel_lemma). Qed.
Print Assumptions C24_history_ends.
(** In any run of the clipper, from any state, the list is well formed at every
    scan line. *)
Theorem C24_run :
  forall (T : Type) (N : Num T) (en : env) (n : nat) (s0 : clipper T) op fill (s : clipper T) (y : T),
    seen en n s0 op fill s y -> exists l, active s l.
Proof. exact (@seen_list). Qed.
Print Assumptions C24_run.

(** The edges of two overlapping boxes at the second scan line: re-sorted, one
    removed and put back, the other deleted. *)
Example C24_case (lm : libm) : let N := B64 lm in
  exists s y l ops m s', seen env0 1000 (s24 lm) op_intersection positive s y /\ active s l /\ length l = 2 /\
    ops = [OpResort; OpTake 1; OpInsert 1; OpDelete 0] /\ members l ops m /\ m = [1] /\ ael_run s ops = Ok s'.
Proof. exact (C24_case_lemma lm). Qed.

(** C25: the search for the place of a newcomer from the front keeps the list in
    order of x, in any arithmetic whose order is total on the x involved. *)
Theorem C25_insert :
  forall (T : Type) (N : Num T) (O : OrdNum T) (s : clipper T) l nw s',
    active s l -> ~ In nw l -> xvalid (edges s) (nw :: l) ->
    ordered (edges s) l -> insert_into_ael s nw = Ok s' ->
    exists l1 l2, l = l1 ++ l2 /\ active s' (l1 ++ nw :: l2) /\ ordered (edges s') (l1 ++ nw :: l2).
Proof. exact (@insert_ordered_lemma). Qed.
Print Assumptions C25_insert.
(** From a given member on it does so if that member is not right of the newcomer.
    Missing: the caller does not make sure of this, see the counterexample. *)
Theorem C25_insert_left_partial :
  forall (T : Type) (N : Num T) (O : OrdNum T) (s : clipper T) l1 l2 nw s',
    active s (l1 ++ l2) -> ~ In nw (l1 ++ l2) -> xvalid (edges s) (nw :: l1 ++ l2) ->
    ordered (edges s) (l1 ++ l2) ->
    (forall p ep enw, last_or None l1 = Some p -> nth_error (edges s) p = Some ep ->
       nth_error (edges s) nw = Some enw -> n_leb (e_x ep) (e_x enw) = true) ->
    insert_into_ael_left s (last_or None l1) nw = Ok s' ->
    exists m1 m2, l1 ++ l2 = m1 ++ m2 /\ active s' (m1 ++ nw :: m2) /\ ordered (edges s') (m1 ++ nw :: m2).
Proof. exact (@insert_left_ordered_lemma). Qed.
Print Assumptions C25_insert_left_partial.
(** Re-sorting an ordered list keeps it ordered. *)
Theorem C25_resort :
  forall (T : Type) (N : Num T) (O : OrdNum T) (s : clipper T) l s',
    active s l -> ordered (edges s) l -> xvalid (edges s) l -> resort_ael s = Ok s' ->
    exists l', Permutation l l' /\ active s' l' /\ ordered (edges s') l'.
Proof. exact (@resort_ordered). Qed.
Print Assumptions C25_resort.
(** Inserting a local minimum can break the order, in a reachable state. *)
Theorem C25_insert_minimum_refuted :
  forall lm : libm, let N := B64 lm in
    exists s s1 y l s2 l', loaded s /\ seen env0 1000 s op_union negative s1 y /\
      active s1 l /\ ordered (edges s1) l /\
      insert_local_minima_to_ael s1 y = Ok s2 /\ active s2 l' /\ ~ ordered (edges s2) l'.
Proof. exact C25_refuted_lemma. Qed.
Print Assumptions C25_insert_minimum_refuted.
Example C25_case (lm : libm) : let N := B64 lm in
  exists s y s1 s2, seen env0 1000 (s24 lm) op_intersection positive s y /\
    take_from_ael s 1 = Ok s1 /\ active s1 [0] /\ ordered (edges s1) [0] /\ xvalid (edges s1) [1; 0] /\
    insert_into_ael s1 1 = Ok s2.
Proof. exact (C25_case_lemma lm). Qed.
