(** Contours seen by the sweep, from the bottom up. *)
From Coq Require Import ZArith Bool List Sorted.
From Verif Require Import Outcome Num Order Rmath Segment VState VPath VBreak VAel VOut VMain.
Import ListNotations.

Section Climb.
  Context {T : Type} {N : Num T}.
  Variable vs : list (vertex T).
  (** The neighbour in the direction of the contour ([fwd]) or against it *)
  Definition neighbour (fwd : bool) (v : vertex T) : option nat := if fwd then v_next v else v_prev v.
  (** From [i] on, no vertex is lower than the one before, up to the first that is
      marked as a maximum. *)
  Inductive climbs (fwd : bool) : nat -> Prop :=
  | climbs_top i v : nth_error vs i = Some v -> v_max v = true -> climbs fwd i
  | climbs_step i v j w : nth_error vs i = Some v -> v_max v = false -> neighbour fwd v = Some j -> nth_error vs j = Some w ->
      n_leb (vy (v_pt v)) (vy (v_pt w)) = true -> climbs fwd j -> climbs fwd i.
  (** From [i] on: vertices at the same height, then a higher one that [climbs]. *)
  Inductive leaves (fwd : bool) : nat -> Prop :=
  | leaves_rise i v j w : nth_error vs i = Some v -> neighbour fwd v = Some j -> nth_error vs j = Some w ->
      n_ltb (vy (v_pt v)) (vy (v_pt w)) = true -> climbs fwd j -> leaves fwd i
  | leaves_flat i v j w : nth_error vs i = Some v -> neighbour fwd v = Some j -> nth_error vs j = Some w ->
      n_eqb (vy (v_pt v)) (vy (v_pt w)) = true -> leaves fwd j -> leaves fwd i.
  (** Both ways up from a minimum *)
  Definition valley (i : nat) : Prop := leaves true i /\ leaves false i.
End Climb.

(** The queued minima are the bottoms of valleys. *)
Definition all_valleys {T} {N : Num T} (s : clipper T) : Prop :=
  forall m, In m (minima s) -> exists x, nth_error (lmins s) m = Some x /\ valley (verts s) (lm_vert x).

Section Visits.
  Context {T : Type} {N : Num T}.
  (** The scan lines visited so far (vatti.cpp:394-414), the last first, and the
      state at the start of that turn of the main loop. *)
  Inductive visits (en : env) (n : nat) (s0 : clipper T) (op : clip_type) (fill : fill_rule) : list T -> clipper T -> Prop :=
  | visits_first s1 s2 s3 y :
      process_intersect en (w_op s0 op fill) = Ok s1 -> reset s1 = Ok s2 ->
      pop_scanline s2 (n_neg n_huge) = (Some y, s3) -> visits en n s0 op fill [y] s3
  | visits_next y ys s s1 s2 s3 y' :
      visits en n s0 op fill (y :: ys) s -> scan_at n s y = Ok s1 ->
      pop_scanline s1 y = (Some y', s2) -> beam n s2 y' = Ok s3 -> visits en n s0 op fill (y' :: y :: ys) s3.
End Visits.

Section Stuck.
  Context {T : Type} {N : Num T}.
  (** The links of the output bounds lead from [c] over more than [k] bounds. *)
  Inductive far (bs : list (bound T)) : nat -> option nat -> Prop :=
  | far_here i : far bs 0 (Some i)
  | far_next k i b : nth_error bs i = Some b -> far bs k (ob_next b) -> far bs (S k) (Some i).
  (** At a scan line reached by the main loop, one of the two walks along the
      output bounds takes more than [n] steps. *)
  Definition stuck (en : env) (n : nat) (s0 : clipper T) (op : clip_type) (fill : fill_rule) : Prop :=
    exists y ys s, visits en n s0 op fill (y :: ys) s /\
      ((exists s1 s2 more, insert_local_minima_to_ael s y = Ok s1 /\ recalc_windcnt s1 = Ok s2 /\
          update_output_bound n s2 y = NoFuel /\ far (bounds s2 ++ more) n (obl s2)) \/
       (exists s1 y' s2 s3, scan_at n s y = Ok s1 /\ pop_scanline s1 y = (Some y', s2) /\
          do_top_of_scanbeam s2 y' = Ok s3 /\ close_output n s3 y' = NoFuel)).
  (** A run that visits at most [k] scan lines, one above the other, and in which only
      a walk along the output bounds can go on for ever. *)
  Definition bounded_sweep en (s : clipper T) (k : nat) : Prop :=
    forall op fill n,
      (forall ys s', visits en n s op fill ys s' -> StronglySorted (fun a b => n_ltb b a = true) ys /\ length ys <= k) /\
      (k <= n -> process en n s op fill = NoFuel -> stuck en n s op fill) /\
      (k <= n -> process en n s op_none fill <> NoFuel).
End Stuck.
