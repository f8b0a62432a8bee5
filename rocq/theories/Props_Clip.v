(** C30-C35 and C42: the clipper as a whole. *)
From Coq Require Import ZArith Bool List Floats.SpecFloat.
From Verif Require Import Outcome Num Rmath Segment Path PathSpec VState VPath VBreak VAel VOut VMain
  ClipSpec VOutProofs ClipCases ClipRefuted VRepeat RepeatCases.
Import ListNotations.
Local Open Scope Z_scope.

(** C30: whatever is loaded, clip_type::none emits nothing.  [en] is the part of
    the behaviour that C++ leaves open, [fuel] bounds the loops. *)
Theorem C30_none_empty :
  forall (T : Type) (N : Num T) (en : env) (fuel : nat) (s : clipper T) (fill : fill_rule) (s' : clipper T) l,
    loaded s -> process en fuel s op_none fill = Ok (s', l) -> l = [].
Proof. exact (@C30_lemma). Qed.
Print Assumptions C30_none_empty.
Example C30_case (lm : libm) :
  run lm [box 0 0 10 10] [box 5 5 15 15] op_none positive = Ok [] /\
  run lm [box 0 0 10 10] [box 5 5 15 15] op_union positive <> Ok [].
Proof. split; [vm_compute; reflexivity|vm_compute; discriminate]. Qed.

(** C31: the calls made by [process] from any state are a sequence of contours. *)
Theorem C31_well_formed :
  forall (T : Type) (N : Num T) (en : env) (fuel : nat) (s : clipper T) op fill (s' : clipper T) l,
    process en fuel s op fill = Ok (s', l) -> exists cs, contours l cs.
Proof. exact (@process_contours). Qed.
Print Assumptions C31_well_formed.
Example C31_case (lm : libm) :
  exists l, run lm [box 0 0 10 10] [box 5 5 15 15] op_xor even_odd = Ok l /\
    length (filter is_move l) = 2%nat.
Proof.
  exists (get [] (run lm [box 0 0 10 10] [box 5 5 15 15] op_xor even_odd)). split; vm_compute; reflexivity.
Qed.

(** C33: the overload that fills a vector of paths. *)
Theorem C33_overloads_agree :
  forall (T : Type) (N : Num T) (en : env) (fuel : nat) (s : clipper T) op fill out,
    match process en fuel s op fill with
    | Ok (s', l) => exists cs, contours l cs /\
        process_paths en fuel s op fill out = Ok (s', out ++ map as_path cs)
    | UB w => process_paths en fuel s op fill out = UB w
    | NoFuel => process_paths en fuel s op fill out = NoFuel
    | Throw => process_paths en fuel s op fill out = Throw
    end.
Proof. exact (@C33_lemma). Qed.
Print Assumptions C33_overloads_agree.
Example C33_case (lm : libm) : let N := B64 lm in
  exists s s' p, load lm [box 0 0 10 10] [box 5 5 15 15] = Ok s /\
    process_paths env0 1000 s op_intersection positive [path_empty] = Ok (s', [path_empty; p]) /\
    p = poly_path [(5, 5); (10, 5); (10, 10); (5, 10); (5, 5)].
Proof.
  intros N. set (s := get clipper0 (load lm [box 0 0 10 10] [box 5 5 15 15])).
  exists s, (fst (get (clipper0, []) (process_paths env0 1000 s op_intersection positive [path_empty]))),
    (poly_path [(5, 5); (10, 5); (10, 10); (5, 10); (5, 5)]).
  split; [|split]; vm_compute; reflexivity.
Qed.

(** C32 is false: the difference of two rectangles emits a contour that does not
    return to its start. *)
Theorem C32_closed_refuted :
  forall lm : libm, let N := B64 lm in
    exists s s' l c cs, loaded s /\ process env0 1000 s op_difference non_zero = Ok (s', l) /\
      contours l (c :: cs) /\ ~ closed c.
Proof. exact C32_refuted_lemma. Qed.
Print Assumptions C32_closed_refuted.

(** C34 is false: the second call emits the contours of the first again. *)
Theorem C34_repeat_refuted :
  forall lm : libm, let N := B64 lm in
    exists s s1 s2 l1 l2, loaded s /\
      process env0 1000 s op_intersection positive = Ok (s1, l1) /\
      process env0 1000 s1 op_intersection positive = Ok (s2, l2) /\
      l2 = l1 ++ l1 /\ l1 <> [].
Proof. exact C34_refuted_lemma. Qed.
Print Assumptions C34_repeat_refuted.

(** What holds instead: whatever happens to the processor in between, every later
    call begins with the calls emitted before, in the same order.  Not covered:
    what it adds to them. *)
Theorem C34_prefix_partial :
  forall (T : Type) (N : Num T) (s : clipper T) en fuel op fill (s1 : clipper T) l1 (s2 : clipper T) en' fuel' op' fill' (s3 : clipper T) l2,
    history clipper0 s -> process en fuel s op fill = Ok (s1, l1) ->
    history s1 s2 -> process en' fuel' s2 op' fill' = Ok (s3, l2) ->
    exists l3, l2 = l1 ++ l3.
Proof. exact (@C34_prefix_lemma). Qed.
Print Assumptions C34_prefix_partial.
Example C34_prefix_case : forall lm : libm, let N := B64 lm in
  exists s s1 l1 s2 s3 l2, history clipper0 s /\
    process env0 1000 s op_intersection positive = Ok (s1, l1) /\ history s1 s2 /\
    process env0 1000 s2 op_union positive = Ok (s3, l2) /\ l1 <> [] /\ (length l1 < length l2)%nat.
Proof. exact C34_prefix_case_lemma. Qed.

(** With clip_type::none nothing is added: a used processor repeats exactly the
    calls of the last run, also if paths were added since. *)
Theorem C34_none_partial :
  forall (T : Type) (N : Num T) (s : clipper T) en fuel op fill (s1 : clipper T) l1 (s2 : clipper T) en' fuel' fill' (s3 : clipper T) l2,
    history clipper0 s -> process en fuel s op fill = Ok (s1, l1) ->
    additions s1 s2 -> process en' fuel' s2 op_none fill' = Ok (s3, l2) ->
    l2 = l1.
Proof. exact (@C30_used_lemma). Qed.
Print Assumptions C34_none_partial.
Example C34_none_case : forall lm : libm, let N := B64 lm in
  exists s s1 l1 s2 s3 l2, history clipper0 s /\
    process env0 1000 s op_intersection positive = Ok (s1, l1) /\ additions s1 s2 /\ s2 <> s1 /\
    process env0 1000 s2 op_none positive = Ok (s3, l2) /\ l1 <> [].
Proof. exact C34_none_case_lemma. Qed.

(** C35 is false: a point of the difference of two overlapping rectangles (away
    from their sides) is outside of the emitted contours.  The arithmetic on the
    small integers involved is exact. *)
Theorem C35_difference_refuted :
  forall lm : libm, let N := B64 lm in
    exists l p, run lm [box 2 3 19 9] [box 7 1 8 16] op_difference even_odd = Ok l /\
      p = pt64 4 6 /\
      inside p l <> bool_op op_difference ((2 <? 4) && (4 <? 19) && (3 <? 6) && (6 <? 9))
                                          ((7 <? 4) && (4 <? 8) && (1 <? 6) && (6 <? 16)).
Proof. exact C35_refuted_lemma. Qed.
Print Assumptions C35_difference_refuted.
(** Also for union, when the contours run the other way. *)
Theorem C35_union_refuted :
  forall lm : libm, let N := B64 lm in
    run lm [[(7, 17); (19, 17); (19, 12); (7, 12)]] [box 0 7 13 18] op_union negative = Ok [] /\
    exists l, run lm [[(7, 17); (19, 17); (19, 12); (7, 12)]] [] op_union negative = Ok l /\
      inside (pt64 10 14) l = true.
Proof. exact C35_union_refuted_lemma. Qed.
Print Assumptions C35_union_refuted.
(** Three operations on two squares, as they should be. *)
Example C35_case (lm : libm) :
  let run op := get [] (run lm [box 0 0 10 10] [box 5 5 15 15] op positive) in
  (show (run op_intersection) =
       show_path (5, 5) [(10, 5); (10, 10); (5, 10); (5, 5)]) /\
  (show (run op_union) =
       show_path (0, 0) [(10, 0); (10, 5); (15, 5); (15, 15); (5, 15); (5, 10); (0, 10); (0, 0)]) /\
  (show (run op_difference) =
       show_path (0, 0) [(10, 0); (10, 5); (5, 5); (5, 10); (0, 10); (0, 0)]).
Proof. repeat split; vm_compute; reflexivity. Qed.

(** C42 is false: undefined behaviour on ordinary input.  A null pointer for two
    rectangles ... *)
Theorem C42_null_deref_refuted :
  forall lm : libm, run lm [box 1 7 18 15] [box 5 11 13 17] op_difference even_odd = UB NullDeref.
Proof. exact C42_null_lemma. Qed.
Print Assumptions C42_null_deref_refuted.
(** ... and the end iterator for two triangles. *)
Theorem C42_end_deref_refuted :
  forall lm : libm, run lm [[(7, 14); (10, 9); (12, 10)]] [[(19, 10); (2, 9); (1, 10)]] op_union non_zero = UB EndDeref.
Proof. exact C42_end_lemma. Qed.
Print Assumptions C42_end_deref_refuted.
