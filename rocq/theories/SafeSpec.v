(** Where a clipping run can do something undefined. *)
From Coq Require Import ZArith Bool List.
From Verif Require Import Outcome Num Rmath Segment VState VPath VBreak VAel VOut VMain ClimbSpec.
Import ListNotations.

Section Fails.
  Context {T : Type} {N : Num T}.
  (** At a scan line reached by the main loop, the step that updates the output
      bounds follows a null pointer or an end iterator, or the step that closes
      contours follows a null pointer. *)
  Definition output_fails (en : env) (n : nat) (s0 : clipper T) (op : clip_type) (fill : fill_rule) (k : ub) : Prop :=
    exists y ys s, visits en n s0 op fill (y :: ys) s /\
      (((k = NullDeref \/ k = EndDeref) /\
        exists s1 s2, insert_local_minima_to_ael s y = Ok s1 /\ recalc_windcnt s1 = Ok s2 /\ update_output_bound n s2 y = UB k) \/
       (k = NullDeref /\
        exists s1 y' s2 s3, scan_at n s y = Ok s1 /\ pop_scanline s1 y = (Some y', s2) /\
          do_top_of_scanbeam s2 y' = Ok s3 /\ close_output n s3 y' = UB k)).
End Fails.
