(** get_boundary inside the tolerance band. *)
From Coq Require Import ZArith Bool List Reals Lra Lia Psatz.
From Verif Require Import Outcome Num Order Rmath RTac RectSpec RectProofs BezierSpec BezierR MonotoneR.
From Verif Require Import EquationSpec EquationR LineR ClearR.
Import ListNotations.
Local Open Scope R_scope.

Lemma bern_poly a b c d t :
  bern a b c d t = a + 3 * (b - a) * t + 6 * (a - 2 * b + c) / 2 * t ^ 2 + 3 * (d - 3 * c + 3 * b - a) / 3 * t ^ 3.
Proof. unfold bern. field. Qed.
Lemma chord L U x y t : 0 <= t <= 1 -> L <= x <= U -> L <= y <= U -> L <= x + t * (y - x) <= U.
Proof. intros. nra. Qed.
(** A parabola lies between its ends and its vertex. *)
Lemma parabola B C a t L U : B <> 0 -> 0 <= t <= 1 -> L <= a <= U -> L <= a + C + B / 2 <= U ->
  (0 < - C / B < 1 -> L <= a + C * (- C / B) + B / 2 * (- C / B) ^ 2 <= U) -> L <= a + C * t + B / 2 * t ^ 2 <= U.
Proof.
  intros HB Ht H0 H1 Hm. set (r := - C / B) in *. assert (EC : C = - B * r) by (unfold r; field; auto). clearbody r. subst C.
  pose proof (chord L U a (a + - B * r + B / 2) t Ht H0 H1) as K.
  assert (Q : 0 <= t * (1 - t)) by (apply Rmult_le_pos; lra).
  assert (E1 : a + - B * r * t + B / 2 * t ^ 2 = a + t * (a + - B * r + B / 2 - a) - B / 2 * (t * (1 - t))) by field.
  assert (E2 : a + - B * r * t + B / 2 * t ^ 2 = a + - B * r * r + B / 2 * r ^ 2 + B / 2 * (t - r) ^ 2) by field.
  assert (E3 : a + - B * r * t + B / 2 * t ^ 2 = a + B * (t * (t / 2 - r))) by field.
  assert (E4 : a + - B * r * t + B / 2 * t ^ 2 = a + - B * r + B / 2 + B * ((1 - t) * (r - (1 + t) / 2))) by field.
  assert (Sq : 0 <= (t - r) ^ 2) by (apply pow2_ge_0).
  assert (S3 : r <= 0 -> 0 <= t * (t / 2 - r)) by (intros; apply Rmult_le_pos; lra).
  assert (S4 : 1 <= r -> 0 <= (1 - t) * (r - (1 + t) / 2)) by (intros; apply Rmult_le_pos; lra).
  set (g := a + - B * r * t + B / 2 * t ^ 2) in *.
  destruct (Rlt_dec 0 r) as [r0|r0]; [destruct (Rlt_dec r 1) as [r1|r1]|].
  - specialize (Hm (conj r0 r1)). destruct (Rlt_dec 0 B); split; nra.
  - specialize (S4 ltac:(lra)). destruct (Rlt_dec 0 B); split; nra.
  - specialize (S3 ltac:(lra)). destruct (Rlt_dec 0 B); split; nra.
Qed.
Definition eps : R := / 100000000.
Lemma boundary_axis_near pick z x1 x2 L U t : is_coord pick -> boundary_axis pick z = (x1, x2) ->
  L <= pick (b0 z) <= U -> L <= pick (b3 z) <= U -> L <= x1 <= U -> L <= x2 <= U -> 0 <= t <= 1 ->
  L - eps <= pick (curve z t) <= U + eps.
Proof.
  intros Hc HB H0 H3 H1 H2 Ht. assert (He : 0 < eps) by (unfold eps; lra).
  assert (EA : pick (dcoefA z) = 3 * (pick (b3 z) - 3 * pick (b2 z) + 3 * pick (b1 z) - pick (b0 z)))
    by (destruct Hc as [->| ->]; rn; ring).
  assert (EB : pick (dcoefB z) = 6 * (pick (b0 z) - 2 * pick (b1 z) + pick (b2 z)))
    by (destruct Hc as [->| ->]; rn; ring).
  assert (EC : pick (dcoefC z) = 3 * (pick (b1 z) - pick (b0 z))) by (destruct Hc as [->| ->]; rn; ring).
  assert (EP : forall u, pick (curve z u) = pick (b0 z) + pick (dcoefC z) * u + pick (dcoefB z) / 2 * u ^ 2 + pick (dcoefA z) / 3 * u ^ 3).
  { intros u. rewrite EA, EB, EC, <- bern_poly. destruct Hc as [->| ->]; reflexivity. }
  destruct (is_zero (pick (dcoefA z))) eqn:ZA.
  - pose proof ZA as ZA'. apply is_zero_R in ZA. unfold boundary_axis in HB. cbv zeta in HB. rewrite ZA' in HB. rops. rewrite !point_at_curve in HB.
    assert (E1 : pick (b3 z) = pick (b0 z) + pick (dcoefC z) + pick (dcoefB z) / 2 + pick (dcoefA z) / 3) by (rewrite EA, EB, EC; field).
    set (A := pick (dcoefA z)) in *. set (B := pick (dcoefB z)) in *. set (C := pick (dcoefC z)) in *.
    set (a := pick (b0 z)) in *. clearbody A B C a.
    assert (C3 : 0 <= t ^ 3 <= 1) by (split; [apply pow_le; lra|rewrite <- (pow1 3); apply pow_incr; lra]).
    assert (AB : forall w, 0 <= w <= 1 -> - eps / 3 <= A / 3 * w <= eps / 3).
    { intros w Hw. assert (- eps < A < eps) by exact ZA. split; nra. }
    destruct (is_zero B) eqn:ZB.
    + apply is_zero_R in ZB. assert (BB : - eps < B < eps) by exact ZB.
      rewrite EP. pose proof (chord (L) (U) a (pick (b3 z)) t Ht H0 H3) as K. rewrite E1 in K.
      assert (Q : 0 <= t * (1 - t) <= / 4).
      { split; [apply Rmult_le_pos; lra|]. replace (t * (1 - t)) with (/ 4 - (t - / 2) ^ 2) by field. pose proof (pow2_ge_0 (t - / 2)). lra. }
      assert (Q3 : 0 <= t - t ^ 3 <= 1).
      { replace (t - t ^ 3) with (t * (1 - t) * (1 + t)) by ring. destruct Q. split; [apply Rmult_le_pos; lra|]. apply Rle_trans with (/ 4 * 2); [apply Rmult_le_compat; lra|lra]. }
      replace (a + C * t + B / 2 * t ^ 2 + A / 3 * t ^ 3) with (a + t * (a + C + B / 2 + A / 3 - a) - B / 2 * (t * (1 - t)) - A / 3 * (t - t ^ 3)) by field.
      pose proof (AB _ Q3). assert (- eps / 8 <= B / 2 * (t * (1 - t)) <= eps / 8) by (split; nra). lra.
    + assert (HB0 : B <> 0) by (intros E; rewrite E, is_zero_R0 in ZB; discriminate).
      pose proof (AB 1 ltac:(lra)) as A1. pose proof (AB _ C3) as A3. rewrite EP.
      assert (P : L - eps / 3 <= a + C * t + B / 2 * t ^ 2 <= U + eps / 3).
      { apply parabola; auto; try lra. intros Hr.
        assert (E : (Rltb 0 (- C / B) && Rltb (- C / B) 1)%bool = true) by (apply andb_true_iff; split; apply Rltb_true; lra).
        rewrite E in HB. injection HB as <- <-. rewrite EP in H1. pose proof (AB ((- C / B) ^ 3)) as AR.
        assert (0 <= (- C / B) ^ 3 <= 1) by (split; [apply pow_le; lra|rewrite <- (pow1 3); apply pow_incr; lra]). specialize (AR H). lra. }
      lra.
  - assert (RG : regular_axis pick z).
    { unfold regular_axis, exact_zero. split; [intros K; rewrite K in ZA; discriminate ZA|]. intros E. rewrite E, is_zero_R0 in ZA. discriminate ZA. }
    pose proof (boundary_axis_range pick z x1 x2 L U t Hc RG HB H0 H3 H1 H2 Ht). lra.
Qed.
Lemma C12_near_lemma (z : bezier R) : finite_bezier z -> forall t, 0 <= t <= 1 -> let r := get_boundary z in
  vx (rmin r) - / 100000000 <= vx (curve z t) <= vx (rmax r) + / 100000000 /\
  vy (rmin r) - / 100000000 <= vy (curve z t) <= vy (rmax r) + / 100000000.
Proof.
  intros Hf t Ht. cbv zeta. unfold get_boundary.
  destruct (boundary_axis vx z) as [x1 x2] eqn:Ex.
  destruct (boundary_axis vy z) as [y1 y2] eqn:Ey.
  assert (Cx : is_coord vx) by (left; auto). assert (Cy : is_coord vy) by (right; auto).
  pose proof (boundary_axis_finite vx z x1 x2 Cx Hf Ex) as [Fx1 Fx2].
  pose proof (boundary_axis_finite vy z y1 y2 Cy Hf Ey) as [Fy1 Fy2].
  destruct (minmax_R x1 x2) as (Mx1 & Mx2 & Mx3 & Mx4 & Mx5 & Mx6).
  destruct (minmax_R y1 y2) as (My1 & My2 & My3 & My4 & My5 & My6).
  set (tp1 := V2 (n_min x1 x2) (n_min y1 y2)). set (tp2 := V2 (n_max x1 x2) (n_max y1 y2)).
  destruct Hf as (F0 & F1 & F2 & F3).
  assert (G : forall p, In p [b0 z; b3 z; tp1; tp2] -> finite_point p).
  { intros p [<-|[<-|[<-|[<-|[]]]]]; auto; apply finite_R; unfold tp1, tp2; cbn [vx vy].
    - destruct Mx1 as [->| ->], My1 as [->| ->]; tauto.
    - destruct Mx4 as [->| ->], My4 as [->| ->]; tauto. }
  destruct (C06_lemma [b0 z; b3 z; tp1; tp2] ltac:(discriminate) G) as (_ & Hin & _).
  pose proof (Hin (b0 z) ltac:(cbn; auto)) as I0.
  pose proof (Hin (b3 z) ltac:(cbn; auto)) as I3.
  pose proof (Hin tp1 ltac:(cbn; auto)) as I1.
  pose proof (Hin tp2 ltac:(cbn; auto)) as I2.
  set (bx := rect_from [b0 z; b3 z; tp1; tp2]) in *. clearbody bx.
  unfold inbox in *. rewrite !nle_R in *. unfold tp1, tp2 in *. cbn [vx vy] in *.
  pose proof (boundary_axis_near vx z x1 x2 (vx (rmin bx)) (vx (rmax bx)) t Cx Ex) as HX.
  pose proof (boundary_axis_near vy z y1 y2 (vy (rmin bx)) (vy (rmax bx)) t Cy Ey) as HY.
  specialize (HX ltac:(lra) ltac:(lra) ltac:(lra) ltac:(lra) Ht).
  specialize (HY ltac:(lra) ltac:(lra) ltac:(lra) ltac:(lra) Ht).
  unfold eps in *. tauto.
Qed.
