(** C15, C18, C19, C36, C38, C41: segments, curve intersections, arcs, circles. *)
From Coq Require Import ZArith Bool List Reals Lra Floats.SpecFloat.
From Verif Require Import Outcome Num Order Rmath RTac RectSpec BezierSpec LineSpec EquationSpec SegSpec Segment Arc.
From Verif Require Import BezierR MonotoneR LineR EquationR ClearR CurveR CircleR CubicsR ThreeR.
Import ListNotations.
Local Open Scope list_scope.

Definition d (z : Z) : b64 := SFofZ z.

(** C15, straight segments. *)
Theorem C15_curr_x_line :
  forall (from target : vec2 R) (y : R), vy from <> vy target ->
    (vy from <= y <= vy target \/ vy target <= y <= vy from)%R ->
    exists x, seg_curr_x (SLine target) from y = Ok x /\ on_segment (V2 x y) from target /\
      forall p, on_segment p from target -> vy p = y -> vx p = x.
Proof. exact C15_line_lemma. Qed.
Print Assumptions C15_curr_x_line.
(** C15, cubics with a single crossing, when the height equation has at most two
    different real solutions (over all of R). *)
Theorem C15_curr_x_cubic_partial :
  forall (c1 c2 target from : vec2 R) (y t : R), let z := Bez from c1 c2 target in
    y_solvable z y -> (0 <= t <= 1)%R -> vy (curve z t) = y ->
    (forall u, (0 <= u <= 1)%R -> vy (curve z u) = y -> u = t) ->
    seg_curr_x (SCubic c1 c2 target) from y = Ok (vx (curve z t)).
Proof. exact C15_cubic_lemma. Qed.
Print Assumptions C15_curr_x_cubic_partial.
(** C15, cubics with three real solutions of the height equation, one of them in
    [0,1] and the margins larger than the solver's 1e-10 error. *)
Theorem C15_curr_x_cubic_three_partial :
  forall (c1 c2 target from : vec2 R) (y : R), let z := Bez from c1 c2 target in
    let '(a3, a2, a1, a0) := y_coefs z y in
    (a3 <> 0 -> clear a3 -> disc a3 a2 a1 a0 < 0 -> clear (disc a3 a2 a1 a0) -> cub_q a3 a2 a1 a0 <> 0 ->
    exists r0 r1 r2, (forall t, vy (curve z t) = y <-> t = r0 \/ t = r1 \/ t = r2) /\
      let eps := / 10000000000 * (Rabs (r0 - r1) + Rabs (r1 - r2) + Rabs (r2 - r0)) in
      forall r, (forall t, In t [r0; r1; r2] -> if Req_EM_T t r then eps <= t <= 1 - eps
                                                else t < - eps \/ 1 + eps < t) ->
        In r [r0; r1; r2] -> r0 <> r1 -> r1 <> r2 -> r0 <> r2 ->
        exists t', Rabs (t' - r) <= eps /\ 0 <= t' <= 1 /\
          seg_curr_x (SCubic c1 c2 target) from y = Ok (vx (curve z t')))%R.
Proof. exact C15_three_lemma. Qed.
Print Assumptions C15_curr_x_cubic_three_partial.
(** Beside C15: with several crossings, or none, curr_x is that of the chord. *)
Theorem C15_curr_x_several :
  forall (c1 c2 target from : vec2 R) (y : R), let z := Bez from c1 c2 target in
    y_solvable z y -> ~ (exists t, 0 <= t <= 1 /\ vy (curve z t) = y /\ forall u, 0 <= u <= 1 -> vy (curve z u) = y -> u = t)%R ->
    seg_curr_x (SCubic c1 c2 target) from y = seg_curr_x (SLine target) from y.
Proof. exact C15_several_lemma. Qed.
Print Assumptions C15_curr_x_several.
(** The arch of height 3/2 is met twice at 9/8. *)
Example C15_several_case : let z := (Bez (V2 0 0) (V2 1 2) (V2 2 2) (V2 3 0))%R in
  y_solvable z (9 / 8)%R /\ vy (curve z (1 / 4)%R) = (9 / 8)%R /\ vy (curve z (3 / 4)%R) = (9 / 8)%R.
Proof.
  cbn. unfold y_solvable, y_coefs, bern. split; [|split; lra].
  cbn. unfold pw3, pw2, pw1, cubic_clear, quad_clear, clear. repeat split; try lra; intros; lra.
Qed.
(** C15 fails for cubics whose height equation is (t - 1)^3 = c, c < 0: at height
    7/8 the curve has x = 1, the code answers 7 (the chord).  Binary64, any math
    library that is exact on these three calls. *)
Theorem C15_curr_x_refuted :
  forall lm : libm, let N := B64 lm in
    lm_pow lm (SFdec 1 16) 2 = SFdec 1 256 -> lm_pow lm (d 0) 3 = d 0 -> lm_cbrt lm (d 0) = d 0 ->
    exists c1 c2 target from : vec2 b64,
      point_at (Bez from c1 c2 target) (SFdec 1 2) = V2 (d 1) (SFdec 7 8) /\
      seg_curr_x (SCubic c1 c2 target) from (SFdec 7 8) = Ok (d 7).
Proof.
  intros lm N H1 H2 H3. exists (V2 (d 0) (d 1)), (V2 (d 0) (d 1)), (V2 (d 8) (d 1)), (V2 (d 0) (d 0)).
  split; [vm_compute; reflexivity|].
  cbn [seg_curr_x]. rewrite point_at_y_eq.
  match goal with |- context [resolv_cubic_equa ?a ?b ?c ?e] =>
    replace a with (d 1) by (vm_compute; reflexivity); replace b with (d (-3)) by (vm_compute; reflexivity);
    replace c with (d 3) by (vm_compute; reflexivity); replace e with (SFdec (-7) 8) by (vm_compute; reflexivity) end.
  assert (E : resolv_cubic_equa (N := N) (d 1) (d (-3)) (d 3) (SFdec (-7) 8) = [S754_nan]).
  { unfold resolv_cubic_equa.
    replace (is_zero (N := N) (d 1)) with false by reflexivity. cbv zeta.
    change (n_pow (Num := N)) with (lm_pow lm). change (n_cbrt (Num := N)) with (lm_cbrt lm).
    match goal with |- context [lm_pow lm ?u 2] => replace u with (SFdec 1 16) by (vm_compute; reflexivity) end.
    match goal with |- context [lm_pow lm ?u 3] => replace u with (d 0) by (vm_compute; reflexivity) end.
    rewrite H1, H2.
    match goal with |- context [is_zero ?u] => replace (is_zero u) with false by (vm_compute; reflexivity) end.
    match goal with |- context [if ?u then _ else _] => replace u with true by (vm_compute; reflexivity) end.
    match goal with |- context [lm_cbrt lm ?u] => replace u with (d 0) by (vm_compute; reflexivity) end.
    rewrite H3. vm_compute. reflexivity. }
  rewrite E. vm_compute. reflexivity.
Qed.
Print Assumptions C15_curr_x_refuted.
Example C15_case : let z := (Bez (V2 0 0) (V2 1 1) (V2 2 2) (V2 3 3))%R in
  y_solvable z 1 /\ vy (curve z (1/3)%R) = 1%R.
Proof.
  cbn. unfold y_solvable, y_coefs, pw3, pw2, pw1, cubic_clear, quad_clear, clear, bern. cbn.
  repeat split; try lra; intros; repeat split; lra.
Qed.
Example C15_case_line : seg_curr_x (SLine (V2 4 2)%R) (V2 0 0)%R 1%R = Ok 2%R.
Proof. cbn. unfold chord_x. rn. f_equal. lra. Qed.

(** C18.  Any arithmetic: room for the results, point on the curve at a
    parameter in [0,1]. *)
Theorem C18_line_cubic_safe :
  forall (T : Type) (N : Num T) (s0 s1 : vec2 T) (z : bezier T),
    exists l, intersect_line_cubic s0 s1 z = Ok l /\ length l <= 3 /\
      forall i, In i l -> ip i = point_at z (it1 i) /\
        n_leb (n_ofZ 0) (it1 i) = true /\ n_leb (it1 i) (n_ofZ 1) = true.
Proof. exact (@C18_any_lemma). Qed.
Print Assumptions C18_line_cubic_safe.
(** Exact reals, when the combined equation has at most two different real
    solutions: precisely the common points are reported, each once.  Missing:
    three real solutions, where two of them carry the solver's 1e-10 error. *)
Theorem C18_line_cubic_exact_partial :
  forall (s0 s1 : vec2 R) (z : bezier R), s0 <> s1 -> fin s0 -> fin s1 ->
    (forall A B C, general_from s0 s1 = (A, B, C) ->
       let '(a3, a2, a1, a0) := line_coefs A B C z in
       cubic_clear a3 a2 a1 a0 /\ (a3 <> 0 -> 0 <= disc a3 a2 a1 a0)%R) ->
    exists l, intersect_line_cubic s0 s1 z = Ok l /\ NoDup l /\
      forall i, In i l <-> (0 <= it0 i <= 1)%R /\ (0 <= it1 i <= 1)%R /\
                           ip i = curve z (it1 i) /\ ip i = pt s0 s1 (it0 i).
Proof. exact C18_exact_lemma. Qed.
Print Assumptions C18_line_cubic_exact_partial.
Example C18_case :
  let s0 := (V2 0 1)%R in let s1 := (V2 4 1)%R in let z := (Bez (V2 0 0) (V2 1 2) (V2 2 2) (V2 3 0))%R in
  general_from s0 s1 = (0, 1, -1)%R /\
  let '(a3, a2, a1, a0) := line_coefs 0 1 (-1) z in
    cubic_clear a3 a2 a1 a0 /\ (a3 <> 0 -> 0 <= disc a3 a2 a1 a0)%R /\ (a2 * a2 <> 0)%R.
Proof.
  cbn. split.
  - unfold general_from. rewrite (proj2 (veqb_R_false _ _)) by (intros E; injection E; lra). rops.
    rewrite (proj2 (Reqb_false _ _)) by (cbn; lra). rewrite (proj2 (Reqb_true _ _)) by (cbn; lra).
    cbn. repeat f_equal; lra.
  - unfold pw3, pw2, pw1, cubic_clear, quad_clear, clear. repeat split; try lra; intros; lra.
Qed.

(** Three real solutions: reported points are curve points whose parameter is
    within the solver's 1e-10 (relative to the spread of the solutions) of a
    parameter where the curve meets the line; and a meeting that is inside the
    curve and the segment by more than that error is reported. *)
Theorem C18_line_cubic_three_partial :
  forall (s0 s1 : vec2 R) (z : bezier R), s0 <> s1 -> fin s0 -> fin s1 ->
    let '(A, B, C) := general_from s0 s1 in
    let '(a3, a2, a1, a0) := line_coefs A B C z in
    (a3 <> 0 -> clear a3 -> disc a3 a2 a1 a0 < 0 -> clear (disc a3 a2 a1 a0) -> cub_q a3 a2 a1 a0 <> 0 ->
    exists r0 r1 r2 l,
      (forall t, on_line (curve z t) s0 s1 <-> t = r0 \/ t = r1 \/ t = r2) /\
      intersect_line_cubic s0 s1 z = Ok l /\
      let eps := / 10000000000 * (Rabs (r0 - r1) + Rabs (r1 - r2) + Rabs (r2 - r0)) in
      (forall i, In i l -> 0 <= it1 i <= 1 /\ ip i = curve z (it1 i) /\
         exists r, In r [r0; r1; r2] /\ Rabs (it1 i - r) <= eps) /\
      (forall r, In r [r0; r1; r2] ->
         (forall t, Rabs (t - r) <= eps -> 0 <= t <= 1 /\ in_frame (curve z t) s0 s1) ->
         exists i, In i l /\ Rabs (it1 i - r) <= eps))%R.
Proof. exact C18_three_lemma. Qed.
Print Assumptions C18_line_cubic_three_partial.
Example C18_three_case :
  let s0 := (V2 0 (/ 4))%R in let s1 := (V2 4 (/ 4))%R in
  let z := (Bez (V2 0 0) (V2 1 3) (V2 2 (-2)) (V2 3 1))%R in
  s0 <> s1 /\ fin s0 /\ fin s1 /\ general_from s0 s1 = (0, 1, - / 4)%R /\
  let '(a3, a2, a1, a0) := line_coefs 0 1 (- / 4) z in
    (a3 <> 0 /\ clear a3 /\ disc a3 a2 a1 a0 < 0 /\ clear (disc a3 a2 a1 a0) /\ cub_q a3 a2 a1 a0 <> 0)%R.
Proof.
  cbn. split; [intros E; injection E; lra|].
  pose proof R_huge_big. split; [unfold fin; cbn; lra|]. split; [unfold fin; cbn; lra|]. split.
  - unfold general_from. rewrite (proj2 (veqb_R_false _ _)) by (intros E; injection E; lra). rops.
    rewrite (proj2 (Reqb_false _ _)) by (cbn; lra). rewrite (proj2 (Reqb_true _ _)) by (cbn; lra).
    cbn. repeat f_equal; lra.
  - unfold pw3, pw2, pw1, disc, cub_p, cub_q, dep_k, dep_p, dep_q, clear.
    repeat split; try lra.
Qed.

(** C19.  Any arithmetic: the search ends after a number of steps that depends
    on the precision only. *)
Theorem C19_cubics_terminate :
  forall (T : Type) (N : Num T) (z1 z2 : bezier T) (precise : Z),
    exists l, forall fuel, cc_fuel precise <= fuel -> intersect_cubics fuel z1 z2 precise = Ok l.
Proof. exact (@C19_terminates_lemma). Qed.
Print Assumptions C19_cubics_terminate.
Theorem C19_cubics_count :
  forall (T : Type) (N : Num T) (fuel : nat) (z1 z2 : bezier T) (precise : Z) (l : list (isect T)),
    intersect_cubics fuel z1 z2 precise = Ok l ->
    length l <= 9 /\ forall i, In i l -> ip i = point_at z1 (it0 i).
Proof. exact (@C19_count_lemma). Qed.
Print Assumptions C19_cubics_count.
(** Exact reals: parameters in [0,1], and the two curves are within an explicit
    distance of each other there. *)
Theorem C19_cubics_sound :
  forall (fuel : nat) (z1 z2 : bezier R) (precise : Z) (l : list (isect R)) (D1 D2 : R), (0 <= precise)%Z ->
    finite_bezier z1 -> finite_bezier z2 -> near_ctl z1 D1 -> near_ctl z2 D2 ->
    intersect_cubics fuel z1 z2 precise = Ok l ->
    forall i, In i l -> (0 <= it0 i <= 1 /\ 0 <= it1 i <= 1 /\ ip i = curve z1 (it0 i) /\
      let e := 3 * (D1 + D2) * (/ 2) ^ Z.to_nat (precise + 1) in
      Rabs (vx (curve z1 (it0 i)) - vx (curve z2 (it1 i))) <= e /\
      Rabs (vy (curve z1 (it0 i)) - vy (curve z2 (it1 i))) <= e)%R.
Proof. exact C19_sound_lemma. Qed.
Print Assumptions C19_cubics_sound.
(** Exact reals: unless nine results were reported, no common point is lost. *)
Theorem C19_cubics_complete :
  forall (fuel : nat) (z1 z2 : bezier R) (precise : Z) (l : list (isect R)) (s t : R), (0 <= precise)%Z ->
    finite_bezier z1 -> finite_bezier z2 ->
    intersect_cubics fuel z1 z2 precise = Ok l -> length l < 9 ->
    (0 <= s <= 1)%R -> (0 <= t <= 1)%R -> curve z1 s = curve z2 t ->
    exists i, In i l /\ (Rabs (it0 i - s) <= (/ 2) ^ Z.to_nat (precise + 1) + / 100000000)%R.
Proof. exact C19_complete_lemma. Qed.
Print Assumptions C19_cubics_complete.
(** However many results: a pair of cells that holds the common point is among the
    candidates of the subdivision. *)
Theorem C19_cubics_candidates :
  forall (fuel : nat) (z1 z2 : bezier R) (precise : Z) (l : list (isect R)) (s t : R), (0 <= precise)%Z ->
    finite_bezier z1 -> finite_bezier z2 -> intersect_cubics fuel z1 z2 precise = Ok l ->
    (0 <= s <= 1)%R -> (0 <= t <= 1)%R -> curve z1 s = curve z2 t ->
    exists out c1 c2,
      cc_loop fuel precise [(Cell z1 (rough_rect z1) 0%R 1%R 0%Z, Cell z2 (rough_rect z2) 0%R 1%R 0%Z)] [] = Ok out /\
      In (c1, c2) out /\ (c_t0 c1 <= s <= c_t1 c1)%R /\ (c_t0 c2 <= t <= c_t1 c2)%R /\
      (c_t1 c1 - c_t0 c1 = (/ 2) ^ Z.to_nat (precise + 1))%R /\ (c_t1 c2 - c_t0 c2 = (/ 2) ^ Z.to_nat (precise + 1))%R.
Proof. exact C19_candidates_lemma. Qed.
Print Assumptions C19_cubics_candidates.
(** Two crossing curves in binary64, precision 3. *)
Example C19_case (lm : libm) :
  match intersect_cubics (N := B64 lm) (cc_fuel 3)
    (Bez (V2 (d 0) (d 0)) (V2 (d 1) (d 1)) (V2 (d 2) (d 2)) (V2 (d 3) (d 3)))
    (Bez (V2 (d 0) (d 3)) (V2 (d 1) (d 2)) (V2 (d 2) (d 1)) (V2 (d 3) (d 0))) 3 with
  | Ok l => length l = 2 | _ => False end.
Proof. vm_compute. reflexivity. Qed.

(** C36 *)
Theorem C36_reverse_twice :
  forall (T : Type) (s : seg T) (from : vec2 T),
    seg_reverse (seg_reverse s from) (seg_target s) = s /\
    seg_target (seg_reverse s from) = from /\ seg_kind (seg_reverse s from) = seg_kind s.
Proof. exact (@C36_twice_lemma). Qed.
Print Assumptions C36_reverse_twice.
Theorem C36_reverse_traces :
  forall (s : seg R) (from : vec2 R) (t : R),
    seg_point (seg_reverse s from) (seg_target s) t = seg_point s from (1 - t)%R.
Proof. exact C36_trace_lemma. Qed.
Print Assumptions C36_reverse_traces.
Example C36_case : seg_reverse (SCubic (V2 1 2) (V2 3 4) (V2 5 6)) (V2 7 8) =
  SCubic (V2 3 4) (V2 1 2) (V2 7 8).
Proof. reflexivity. Qed.

(** C38.  Exact reals, with the code's value of pi. *)
Theorem C38_clamp_range :
  forall rad : R,
    (0 <= clamp_0_2pi rad < 2 * (3141592653589793 / 1000000000000000) /\
    exists k : Z, clamp_0_2pi rad = rad + IZR k * (2 * (3141592653589793 / 1000000000000000)))%R.
Proof. exact C38_clamp_lemma. Qed.
Print Assumptions C38_clamp_range.
(** In binary64 minus zero is mapped to two pi. *)
Theorem C38_clamp_refuted :
  forall lm : libm, let N := B64 lm in
    exists rad : b64, rad = S754_zero true /\ n_ltb (clamp_0_2pi rad) (n_mul n_pi (n_ofZ 2)) = false.
Proof. intros lm N. exists (S754_zero true). split; vm_compute; reflexivity. Qed.
Print Assumptions C38_clamp_refuted.
Theorem C38_arc_end :
  forall (s c : vec2 R) (sweep : R), let a := make_arc s c sweep in
    a_start a = s /\ a_center a = c /\ a_sweep a = sweep /\
    (a_radius a ^ 2 = sqdist s c)%R /\ (0 <= a_radius a)%R /\ sqdist (a_end a) c = sqdist s c /\
    (vx (a_end a) = vx c + a_radius a * cos (a_start_rad a + sweep))%R /\
    (vy (a_end a) = vy c + a_radius a * sin (a_start_rad a + sweep))%R.
Proof. exact C38_end_lemma. Qed.
Print Assumptions C38_arc_end.
(** The end angle is measured from the origin instead of the centre. *)
Theorem C38_arc_end_rad_refuted :
  exists (s c : vec2 R) (sweep : R), let a := make_arc s c sweep in
    a_end a = a_start a /\ a_end_rad a <> a_start_rad a.
Proof. exact C38_end_rad_refuted_lemma. Qed.
Print Assumptions C38_arc_end_rad_refuted.
(** Reversing an arc does not reverse its sweep. *)
Theorem C38_arc_reverse_refuted :
  exists (s c : vec2 R) (sweep : R), let a := arc_reverse (make_arc s c sweep) in
    vx (a_end a) <> (vx c + a_radius a * cos (a_start_rad a + a_sweep a))%R.
Proof. exact C38_reverse_refuted_lemma. Qed.
Print Assumptions C38_arc_reverse_refuted.

(** C41 *)
Theorem C41_circle_loop :
  forall (T : Type) (N : Num T) (c : vec2 T) (r : T),
    let e := vadd c (V2 r (n_ofZ 0)) in let n := vadd c (V2 (n_ofZ 0) r) in
    let w := vsub c (V2 r (n_ofZ 0)) in let s := vsub c (V2 (n_ofZ 0) r) in
    map b0 (circle c r) = [e; n; w; s] /\ map b3 (circle c r) = [n; w; s; e].
Proof. exact (@C41_loop_lemma). Qed.
Print Assumptions C41_circle_loop.
Theorem C41_circle_radius :
  forall (c : vec2 R) (r : R) (z : bezier R) (t : R), In z (circle c r) -> (0 <= t <= 1)%R ->
    (r ^ 2 <= sqdist (curve z t) c <= (10003 / 10000 * r) ^ 2)%R.
Proof. exact C41_radius_lemma. Qed.
Print Assumptions C41_circle_radius.
Example C41_case : length (circle (V2 1 2)%R 5%R) = 4.
Proof. reflexivity. Qed.
