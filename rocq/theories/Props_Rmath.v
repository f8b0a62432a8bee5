(** C06-C14, C16, C17, C39, C40: boxes, curves, equations and lines. *)
From Coq Require Import ZArith Bool List Reals Lra Floats.SpecFloat.
From Verif Require Import Outcome Num Order Rmath RectSpec RectProofs BezierSpec BezierR MonotoneR.
From Verif Require Import LineSpec LineR EquationSpec EquationR ClearR BandR RTac.
Import ListNotations.
Local Open Scope list_scope.

(** C06.  Any arithmetic with the order laws: both R and binary64. *)
Theorem C06_rect_from_least :
  forall (T : Type) (N : Num T) (O : OrdNum T) (l : list (vec2 T)),
    l <> [] -> (forall p, In p l -> finite_point p) ->
    rect_wf (rect_from l) /\
    (forall p, In p l -> inbox (rect_from l) p) /\
    (forall r, rvalid r -> (forall p, In p l -> inbox r p) -> rect_le (rect_from l) r).
Proof. exact (@C06_lemma). Qed.
Print Assumptions C06_rect_from_least.

Definition d (z : Z) : b64 := SFofZ z.
Example C06_case (lm : libm) : let N := B64 lm in
  rect_from [V2 (d 3) (d 1); V2 (d (-2)) (d 7); V2 (d 0) (d (-5))] =
    Rect (V2 (d (-2)) (d (-5))) (V2 (d 3) (d 7)) /\
  (forall p, In p [V2 (d 3) (d 1); V2 (d (-2)) (d 7); V2 (d 0) (d (-5))] -> finite_point p).
Proof.
  split; [vm_compute; reflexivity|]. intros p [<-|[<-|[<-|[]]]]; vm_compute; repeat split; discriminate.
Qed.

(** C07 *)
Theorem C07_intersect_exact :
  forall (T : Type) (N : Num T) (O : OrdNum T) (a b : rect T), rect_wf a -> rect_wf b ->
    (rect_intersect a b = true <-> exists p, vvalid p /\ inbox a p /\ inbox b p).
Proof. exact (@C07_lemma). Qed.
Print Assumptions C07_intersect_exact.
Theorem C07_intersect_symmetric :
  forall (T : Type) (N : Num T) (O : OrdNum T) (a b : rect T), rvalid a -> rvalid b ->
    rect_intersect a b = rect_intersect b a.
Proof. exact (@C07_sym_lemma). Qed.
Print Assumptions C07_intersect_symmetric.
Example C07_case (lm : libm) : let N := B64 lm in
  let a := Rect (V2 (d 0) (d 0)) (V2 (d 2) (d 2)) in
  let b := Rect (V2 (d 2) (d 1)) (V2 (d 5) (d 9)) in
  let c := Rect (V2 (d 3) (d 1)) (V2 (d 5) (d 9)) in
  rect_wf a /\ rect_wf b /\ rect_wf c /\ rect_intersect a b = true /\ rect_intersect a c = false.
Proof. vm_compute. repeat split; discriminate. Qed.

(** C08 is false: the upper corner is computed from the lower one. *)
Theorem C08_inflated_refuted :
  exists (r : rect R) (n : R) (p : vec2 R),
    rect_wf r /\ (0 <= n)%R /\ inbox r p /\ ~ inbox (rect_inflated r n) p.
Proof. exact C08_refuted_lemma. Qed.
Print Assumptions C08_inflated_refuted.
Theorem C08_inflated_refuted_b64 :
  forall lm : libm, let N := B64 lm in
  exists (r : rect b64) (n : b64) (p : vec2 b64),
    rect_wf r /\ nle (SFofZ 0) n /\ inbox r p /\ ~ inbox (rect_inflated r n) p.
Proof.
  intros lm N. exists (Rect (V2 (d 0) (d 0)) (V2 (d 10) (d 10))), (d 1), (V2 (d 5) (d 5)).
  split; [|split; [|split]]; vm_compute; try (repeat split; discriminate).
  intros (_ & H & _). discriminate.
Qed.
Print Assumptions C08_inflated_refuted_b64.
(** So the original is contained only if both its sides are at most the amount. *)
Theorem C08_inflated_partial :
  forall (r : rect R) (n : R), rect_wf r -> (0 <= n)%R ->
    ((forall p, inbox r p -> inbox (rect_inflated r n) p) <->
     (vx (rmax r) - vx (rmin r) <= n /\ vy (rmax r) - vy (rmin r) <= n)%R).
Proof. exact C08_partial_lemma. Qed.
Print Assumptions C08_inflated_partial.
Example C08_case : let r := (Rect (V2 0 0) (V2 2 3))%R in rect_wf r /\ rect_inflated r 4%R = (Rect (V2 (-4) (-4)) (V2 4 4))%R.
Proof. split; [repeat split; unfold nle; cbn; rewrite Rleb_true; lra|]. unfold rect_inflated. rn. repeat f_equal; lra. Qed.

(** C09 *)
Theorem C09_split_traces :
  forall (z : bezier R) (t : R), let (l, r) := bsplit z t in
    traces l z 0 t /\ traces r z t 1 /\
    b0 l = b0 z /\ b3 r = b3 z /\ b3 l = b0 r /\ b3 l = curve z t.
Proof. exact C09_lemma. Qed.
Print Assumptions C09_split_traces.
Example C09_case :
  bsplit (Bez (V2 0 0) (V2 8 0) (V2 8 8) (V2 0 8))%R (1/2)%R =
  (Bez (V2 0 0) (V2 4 0) (V2 6 2) (V2 6 4), Bez (V2 6 4) (V2 6 6) (V2 4 8) (V2 0 8))%R.
Proof. unfold bsplit. rn. repeat f_equal; lra. Qed.

(** C10 *)
Theorem C10_split_many :
  forall (z : bezier R) (ts : list R), ts <> [] -> increasing 0 ts 1 ->
    pieces_of z 0 ts (bsplit_many z ts) /\ joined (bsplit_many z ts).
Proof. exact C10_lemma. Qed.
Print Assumptions C10_split_many.
Theorem C10_split_many_cover :
  forall (z : bezier R) (ts : list R) (t : R), ts <> [] -> increasing 0 ts 1 -> (0 <= t <= 1)%R ->
    exists p s, In p (bsplit_many z ts) /\ (0 <= s <= 1)%R /\ curve p s = curve z t.
Proof. exact C10_cover_lemma. Qed.
Print Assumptions C10_split_many_cover.
Example C10_case : increasing 0 [1/4; 1/2; 7/8]%R 1 /\
  forall z, length (bsplit_many z [1/4; 1/2; 7/8]%R) = 4.
Proof. split; [cbn; lra|]. intros z. reflexivity. Qed.

(** C11.  At most two parameters, all inside (0,1), in any arithmetic. *)
Theorem C11_split_y_params :
  forall (T : Type) (N : Num T) (z : bezier T),
    length (split_y z) <= 2 /\
    (forall t, In t (split_y z) -> n_ltb (n_ofZ 0) t = true /\ n_ltb t (n_ofZ 1) = true).
Proof. exact (@C11_params_lemma). Qed.
Print Assumptions C11_split_y_params.

(** C11, monotone pieces.  Missing: leading coefficient of y' positive and two
    cut parameters, where the claim is false (next theorem): the two parameters
    come out in decreasing order. *)
Theorem C11_monotone_pieces_partial :
  forall z : bezier R, y_clear z ->
    (vy (b3 z) - 3 * vy (b2 z) + 3 * vy (b1 z) - vy (b0 z) < 0)%R \/ length (split_y z) <= 1 ->
    Forall (fun p => monotone01 (fun t => vy (curve p t)))
           (match split_y z with [] => [z] | ts => bsplit_many z ts end).
Proof. exact C11_clear_lemma. Qed.
Print Assumptions C11_monotone_pieces_partial.
Theorem C11_monotone_pieces_refuted :
  exists z : bezier R, y_clear z /\
    exists p, In p (bsplit_many z (split_y z)) /\ ~ monotone01 (fun t => vy (curve p t)).
Proof. exact C11_clear_refuted_lemma. Qed.
Print Assumptions C11_monotone_pieces_refuted.
(** A curve going up, down and up again over its parameter range, mirrored. *)
Example C11_case :
  let z := (Bez (V2 0 1) (V2 1 (-2)) (V2 2 3) (V2 3 0))%R in
  y_clear z /\ (vy (b3 z) - 3 * vy (b2 z) + 3 * vy (b1 z) - vy (b0 z) < 0)%R.
Proof. cbn. unfold y_clear, axis_clear, clear. cbn. lra. Qed.

(** C12 *)
Theorem C12_boundary_contains_partial :
  forall z : bezier R, finite_bezier z -> x_clear z -> y_clear z ->
    forall t, (0 <= t <= 1)%R -> inbox (get_boundary z) (curve z t).
Proof. exact C12_clear_lemma. Qed.
Print Assumptions C12_boundary_contains_partial.
Theorem C12_boundary_tight :
  forall z : bezier R, finite_bezier z ->
    let r := get_boundary z in
    (exists t, (0 <= t <= 1)%R /\ vx (curve z t) = vx (rmin r)) /\
    (exists t, (0 <= t <= 1)%R /\ vx (curve z t) = vx (rmax r)) /\
    (exists t, (0 <= t <= 1)%R /\ vy (curve z t) = vy (rmin r)) /\
    (exists t, (0 <= t <= 1)%R /\ vy (curve z t) = vy (rmax r)).
Proof. exact C12_tight_lemma. Qed.
Print Assumptions C12_boundary_tight.
(** Inside the tolerance band the curve does leave its box. *)
Theorem C12_boundary_band_refuted :
  exists (z : bezier R) (t : R), finite_bezier z /\ (0 <= t <= 1)%R /\
    ~ inbox (get_boundary z) (curve z t).
Proof. exact C12_band_refuted_lemma. Qed.
Print Assumptions C12_boundary_band_refuted.
(** Whatever the cubic, in the band or not: the curve leaves its box by at most 1e-8. *)
Theorem C12_boundary_near_partial :
  forall z : bezier R, finite_bezier z -> forall t, (0 <= t <= 1)%R ->
    let r := get_boundary z in
    (vx (rmin r) - / 100000000 <= vx (curve z t) <= vx (rmax r) + / 100000000)%R /\
    (vy (rmin r) - / 100000000 <= vy (curve z t) <= vy (rmax r) + / 100000000)%R.
Proof. exact C12_near_lemma. Qed.
Print Assumptions C12_boundary_near_partial.
(** A cubic in the band, of which [C12_boundary_contains_partial] says nothing. *)
Example C12_near_case : finite_bezier tiny /\ ~ (x_clear tiny /\ y_clear tiny).
Proof.
  unfold finite_bezier. rewrite !finite_R. pose proof R_huge_big. split; [cbn; lra|].
  unfold x_clear, y_clear, axis_clear, clear. cbn.
  intros [_ [_ HB]]. lra.
Qed.
Example C12_case :
  let z := (Bez (V2 0 0) (V2 8 1) (V2 (-5) 7) (V2 1 3))%R in
  finite_bezier z /\ x_clear z /\ y_clear z.
Proof.
  cbn. unfold finite_bezier. rewrite !finite_R. pose proof R_huge_big.
  unfold x_clear, y_clear, axis_clear, clear. cbn. lra.
Qed.

(** C13 *)
Theorem C13_quadratic_roots :
  forall a b c : R, quad_clear a b c -> solves (quad a b c) (resolv_quad_equa a b c).
Proof. exact C13_clear_lemma. Qed.
Print Assumptions C13_quadratic_roots.
Theorem C13_quadratic_count :
  forall (T : Type) (N : Num T) (a b c : T), length (resolv_quad_equa a b c) <= 2.
Proof. exact (@quad_length). Qed.
Print Assumptions C13_quadratic_count.
(** Inside the band: one near-root whose residual is the discriminant scaled. *)
Theorem C13_quadratic_band :
  forall a b c : R, (a <= - / 100000000 \/ / 100000000 <= a)%R ->
    (- / 100000000 < b * b - 4 * a * c < / 100000000)%R ->
    exists x, resolv_quad_equa a b c = [x] /\ quad a b c x = (- (b * b - 4 * a * c) / (4 * a))%R.
Proof. intros a b c H1 H2. apply C13_band_lemma; [apply is_zero_R_false; auto|apply is_zero_R; auto]. Qed.
Print Assumptions C13_quadratic_band.
Theorem C13_quadratic_band_refuted :
  exists a b c x : R, quad a b c x = 0%R /\ a <> 0%R /\ resolv_quad_equa a b c = [].
Proof. exact C13_band_refuted_lemma. Qed.
Print Assumptions C13_quadratic_band_refuted.
Example C13_case : quad_clear 1 (-3) 2.
Proof. unfold quad_clear, clear. lra. Qed.

(** C14.  At most two different real roots: exact. *)
Theorem C14_cubic_roots_exact_partial :
  forall a3 a2 a1 a0 : R, cubic_clear a3 a2 a1 a0 -> (a3 <> 0 -> 0 <= disc a3 a2 a1 a0)%R ->
    solves (cubic a3 a2 a1 a0) (resolv_cubic_equa a3 a2 a1 a0).
Proof. exact C14_clear_lemma. Qed.
Print Assumptions C14_cubic_roots_exact_partial.
(** Three real roots: the first is exact, the others within a relative 1e-10
    (the code uses ten decimals of pi).  Left out: q = 0, where the code divides
    by zero and relies on the arctangent of an infinity, which R does not have. *)
Theorem C14_cubic_roots_three_partial :
  forall a3 a2 a1 a0 : R, a3 <> 0%R -> clear a3 ->
    (disc a3 a2 a1 a0 < 0)%R -> clear (disc a3 a2 a1 a0) -> cub_q a3 a2 a1 a0 <> 0%R ->
    exists x0 x1 x2 r0 r1 r2 : R, resolv_cubic_equa a3 a2 a1 a0 = [x0; x1; x2] /\
      (forall x, cubic a3 a2 a1 a0 x = (a3 * (x - r0) * (x - r1) * (x - r2))%R) /\
      x0 = r0 /\ near x1 r1 r0 r1 r2 /\ near x2 r2 r0 r1 r2.
Proof. exact C14_three_clear_lemma. Qed.
Print Assumptions C14_cubic_roots_three_partial.
Theorem C14_cubic_count :
  forall (T : Type) (N : Num T) (a3 a2 a1 a0 : T), length (resolv_cubic_equa a3 a2 a1 a0) <= 3.
Proof. exact (@cubic_length). Qed.
Print Assumptions C14_cubic_count.
(** x^3 + 8 = 0 in binary64, for every math library that gets these three
    exact values right: the only "root" reported is NaN. *)
Theorem C14_cubic_refuted :
  forall lm : libm, lm_pow lm (d 4) 2 = d 16 -> lm_pow lm (d 0) 3 = d 0 -> lm_cbrt lm (d 0) = d 0 ->
    resolv_cubic_equa (N := B64 lm) (d 1) (d 0) (d 0) (d 8) = [S754_nan].
Proof.
  intros lm H1 H2 H3. unfold resolv_cubic_equa.
  replace (is_zero (N := B64 lm) (d 1)) with false by reflexivity. cbv zeta.
  change (n_pow (Num := B64 lm)) with (lm_pow lm). change (n_cbrt (Num := B64 lm)) with (lm_cbrt lm).
  match goal with |- context [lm_pow lm ?u 2] => replace u with (d 4) by (vm_compute; reflexivity) end.
  match goal with |- context [lm_pow lm ?u 3] => replace u with (d 0) by (vm_compute; reflexivity) end.
  rewrite H1, H2.
  match goal with |- context [is_zero ?u] => replace (is_zero u) with false by (vm_compute; reflexivity) end.
  match goal with |- context [if ?u then _ else _] => replace u with true by (vm_compute; reflexivity) end.
  match goal with |- context [lm_cbrt lm ?u] => replace u with (d 0) by (vm_compute; reflexivity) end.
  rewrite H3. vm_compute. reflexivity.
Qed.
Print Assumptions C14_cubic_refuted.
Example C14_case : cubic_clear 1 0 3 (-4) /\ (0 <= disc 1 0 3 (-4))%R.
Proof.
  assert (E : disc 1 0 3 (-4) = 5%R) by (unfold disc, cub_p, cub_q, dep_k, dep_p, dep_q; field).
  rewrite E. split; [|lra]. unfold cubic_clear. rewrite E. unfold clear.
  split; [lra|]. split; [lra|]. intros _. split; [lra|]. split; [lra|].
  intros _. left. unfold cub_p, dep_p. lra.
Qed.
Example C14_case_three : (disc 1 0 (-7) 6 < 0)%R /\ clear (disc 1 0 (-7) 6) /\ cub_q 1 0 (-7) 6 <> 0%R /\
  forall x, cubic 1 0 (-7) 6 x = ((x - 1) * (x - 2) * (x + 3))%R.
Proof.
  assert (E : disc 1 0 (-7) 6 = (- 100 / 27)%R) by (unfold disc, cub_p, cub_q, dep_k, dep_p, dep_q; field).
  rewrite E. unfold clear, cub_q, dep_q, cubic. split; [lra|]. split; [lra|]. split; [lra|]. intros x. ring.
Qed.

(** C16 *)
Theorem C16_lines_sound :
  forall (p0 p1 p2 p3 : vec2 R) (l : list (isect R)), ends_ok p0 p1 p2 p3 ->
    intersect_lines p0 p1 p2 p3 = Ok l -> forall i, In i l -> meets p0 p1 p2 p3 i.
Proof. exact C16_sound_lemma. Qed.
Print Assumptions C16_lines_sound.
Theorem C16_lines_complete :
  forall (p0 p1 p2 p3 : vec2 R) (s t : R), ~ parallel p0 p1 p2 p3 ->
    (0 <= s <= 1)%R -> (0 <= t <= 1)%R -> pt p0 p1 s = pt p2 p3 t ->
    intersect_lines p0 p1 p2 p3 = Ok [Isect (pt p0 p1 s) s t].
Proof. exact C16_complete_lemma. Qed.
Print Assumptions C16_lines_complete.
(** Collinear overlap.  Missing: overlaps in which the first point of the first
    segment is not on the second one; there the claim is false (next theorem). *)
Theorem C16_collinear_partial :
  forall p0 p1 p2 p3 : vec2 R, ends_ok p0 p1 p2 p3 -> parallel p0 p1 p2 p3 -> on_segment p0 p2 p3 ->
    exists l, intersect_lines p0 p1 p2 p3 = Ok l /\
      (forall p, In p (map ip l) <-> inner_end p0 p1 p2 p3 p).
Proof. exact C16_collinear_partial_lemma. Qed.
Print Assumptions C16_collinear_partial.
Theorem C16_collinear_refuted :
  exists p0 p1 p2 p3 p : vec2 R, ends_ok p0 p1 p2 p3 /\ parallel p0 p1 p2 p3 /\
    inner_end p0 p1 p2 p3 p /\ intersect_lines p0 p1 p2 p3 = Ok [].
Proof. exact C16_collinear_refuted_lemma. Qed.
Print Assumptions C16_collinear_refuted.
Example C16_case :
  let p0 := (V2 0 0)%R in let p1 := (V2 4 4)%R in let p2 := (V2 0 2)%R in let p3 := (V2 2 0)%R in
  ~ parallel p0 p1 p2 p3 /\ pt p0 p1 (1/4)%R = pt p2 p3 (1/2)%R /\ ends_ok p0 p1 p2 p3.
Proof.
  unfold parallel, pt, ends_ok, fin; cbn. pose proof R_huge_big.
  split; [lra|]. split; [f_equal; lra|].
  split; [intros E; injection E; lra|]. split; [intros E; injection E; lra|]. lra.
Qed.
Example C16_case_collinear :
  let p0 := (V2 1 0)%R in let p1 := (V2 3 0)%R in let p2 := (V2 0 0)%R in let p3 := (V2 2 0)%R in
  parallel p0 p1 p2 p3 /\ on_segment p0 p2 p3 /\ inner_end p0 p1 p2 p3 p0.
Proof.
  unfold parallel, on_segment, inner_end, pt; cbn.
  assert (S : exists t : R, (0 <= t <= 1)%R /\ (V2 1 0 = V2 (0 + t * (2 - 0)) (0 + t * (0 - 0)))%R)
    by (exists (1/2)%R; split; [lra|f_equal; lra]).
  split; [lra|]. split; [exact S|]. left. split; [left; reflexivity|]. split; [exact S|].
  split; intros E; injection E; lra.
Qed.

(** C17 *)
Theorem C17_lines_in_buffer_partial :
  forall p0 p1 p2 p3 : vec2 R, ends_ok p0 p1 p2 p3 ->
    exists l, intersect_lines p0 p1 p2 p3 = Ok l /\ length l <= 2.
Proof. exact C17_lemma. Qed.
Print Assumptions C17_lines_in_buffer_partial.
(** With a zero-length first segment a third entry is written. *)
Theorem C17_degenerate_refuted :
  forall lm : libm,
  exists p0 p1 p2 p3 : vec2 b64, intersect_lines (N := B64 lm) p0 p1 p2 p3 = UB OobWrite.
Proof.
  intros lm. exists (V2 (d 0) (d 0)), (V2 (d 0) (d 0)), (V2 (d (-1)) (d 0)), (V2 (d 1) (d 0)).
  vm_compute. reflexivity.
Qed.
Print Assumptions C17_degenerate_refuted.
(** In doubles also with two segments of non-zero length that cross, when products underflow. *)
Theorem C17_underflow_refuted :
  forall lm : libm,
  exists p0 p1 p2 p3 : vec2 b64, vneqb (N := B64 lm) p0 p1 = true /\ vneqb (N := B64 lm) p2 p3 = true /\
    intersect_lines (N := B64 lm) p0 p1 p2 p3 = UB OobWrite.
Proof.
  intros lm. pose (e := fun n k => binary_normalize 53 1024 n k false).
  exists (V2 (e (-2)%Z (-600)%Z) (e (-1)%Z (-600)%Z)), (V2 (e 2%Z (-600)%Z) (e 1%Z (-600)%Z)), (V2 (d 0) (e (-1)%Z (-530)%Z)), (V2 (d 0) (e 1%Z (-530)%Z)).
  repeat split; vm_compute; reflexivity.
Qed.
Print Assumptions C17_underflow_refuted.

(** C39 *)
Theorem C39_line_equation :
  forall p0 p1 : vec2 R, let '(A, B, C) := general_from p0 p1 in
    (A <> 0 \/ B <> 0)%R /\ (A * vx p0 + B * vy p0 + C = 0)%R /\ (A * vx p1 + B * vy p1 + C = 0)%R.
Proof. exact C39_lemma. Qed.
Print Assumptions C39_line_equation.
Theorem C39_line_equation_exact :
  forall p0 p1 p : vec2 R, p0 <> p1 -> let '(A, B, C) := general_from p0 p1 in
    (A * vx p + B * vy p + C = 0)%R <-> on_line p p0 p1.
Proof. exact C39_exact_lemma. Qed.
Print Assumptions C39_line_equation_exact.
Example C39_case (lm : libm) :
  general_from (N := B64 lm) (V2 (d 1) (d 2)) (V2 (d 3) (d 5)) = (d 3, d (-2), d 1).
Proof. vm_compute. reflexivity. Qed.

(** C40.  The distance is to the segment, although the documentation says line. *)
Theorem C40_distance_to_segment :
  forall p l0 l1 : vec2 R, l0 <> l1 -> is_sqdist_segment p l0 l1 (dist2_point_line p l0 l1).
Proof. exact C40_dist_lemma. Qed.
Print Assumptions C40_distance_to_segment.
Theorem C40_distance_to_line_refuted :
  exists p l0 l1 : vec2 R, l0 <> l1 /\ ~ is_sqdist_line p l0 l1 (dist2_point_line p l0 l1).
Proof. exact C40_line_refuted_lemma. Qed.
Print Assumptions C40_distance_to_line_refuted.
(** A zero-length line gives NaN in binary64. *)
Theorem C40_distance_degenerate_refuted :
  forall lm : libm, exists p l : vec2 b64, dist2_point_line (N := B64 lm) p l l = S754_nan.
Proof. intros lm. exists (V2 (d 3) (d 4)), (V2 (d 0) (d 0)). vm_compute. reflexivity. Qed.
Print Assumptions C40_distance_degenerate_refuted.
(** The projection test only checks the upper end. *)
Theorem C40_projection_partial :
  forall p p0 p1 : vec2 R, p0 <> p1 ->
    point_project_in_segment p p0 p1 = true <->
    exists t, (t <= 1)%R /\
      ((vx p - vx (pt p0 p1 t)) * (vx p1 - vx p0) + (vy p - vy (pt p0 p1 t)) * (vy p1 - vy p0) = 0)%R.
Proof. exact C40_project_lemma. Qed.
Print Assumptions C40_projection_partial.
Theorem C40_projection_refuted :
  exists p p0 p1 : vec2 R, p0 <> p1 /\ point_project_in_segment p p0 p1 = true /\ ~ projects_inside p p0 p1.
Proof. exact C40_project_refuted_lemma. Qed.
Print Assumptions C40_projection_refuted.
Example C40_case (lm : libm) :
  dist2_point_line (N := B64 lm) (V2 (d 1) (d 5)) (V2 (d 0) (d 0)) (V2 (d 4) (d 0)) = d 25 /\
  dist2_point_line (N := B64 lm) (V2 (d 7) (d 4)) (V2 (d 0) (d 0)) (V2 (d 4) (d 0)) = d 25.
Proof. vm_compute. auto. Qed.
