(** The circle approximation and angles over the reals. *)
From Coq Require Import ZArith Bool List Reals Lra Lia Psatz.
From Verif Require Import Outcome Num Rmath RTac Arc BezierSpec BezierR LineSpec LineR.
Import ListNotations.
Local Open Scope R_scope.

(** ** C41 *)
Lemma C41_loop_lemma {T} {N : Num T} (c : vec2 T) (r : T) :
  let e := vadd c (V2 r (n_ofZ 0)) in let n := vadd c (V2 (n_ofZ 0) r) in
  let w := vsub c (V2 r (n_ofZ 0)) in let s := vsub c (V2 (n_ofZ 0) r) in
  map b0 (circle c r) = [e; n; w; s] /\ map b3 (circle c r) = [n; w; s; e].
Proof. split; reflexivity. Qed.

Definition km : R := 55228475 / 100000000.
(** Unit quarter: squared radius in terms of u = t (1 - t). *)
Lemma quarter (t : R) : 0 <= t <= 1 ->
  1 <= (bern 1 1 km 0 t) ^ 2 + (bern 0 km 1 1 t) ^ 2 <= (10003 / 10000) ^ 2.
Proof.
  intros Ht. set (u := t * (1 - t)).
  set (c2 := 941992091889 / 16000000000000). set (c3 := 1883984091889 / 8000000000000).
  assert (E : (bern 1 1 km 0 t) ^ 2 + (bern 0 km 1 1 t) ^ 2 = 1 + u ^ 2 * (c2 - c3 * u)).
  { unfold u, bern, km, c2, c3. field. }
  rewrite E.
  assert (Hu : 0 <= u <= 1 / 4).
  { unfold u. split; [apply Rmult_le_pos; lra|]. pose proof (pow2_ge_0 (t - 1 / 2)). lra. }
  clearbody u. clear E.
  assert (0 <= u ^ 2) by apply pow2_ge_0.
  assert (0 <= c2 - c3 * u) by (unfold c2, c3; lra).
  split.
  - pose proof (Rmult_le_pos _ _ H H0). lra.
  - (* (u - 1/6)^2 (c3 u + m) >= 0 *)
    assert (K : 0 <= (u - 1 / 6) ^ 2 * (c3 * u + c3 / 12)).
    { apply Rmult_le_pos; [apply pow2_ge_0|unfold c3; lra]. }
    assert (G : u ^ 2 * (c2 - c3 * u) <= 6 / 10000).
    { replace (u ^ 2 * (c2 - c3 * u)) with
        (- ((u - 1 / 6) ^ 2 * (c3 * u + c3 / 12)) + c3 / 432 + u ^ 2 * (c2 - c3 / 4)) by field.
      assert (u ^ 2 * (c2 - c3 / 4) <= 1 / 16 * (c2 - c3 / 4)).
      { apply Rmult_le_compat_r; [unfold c2, c3; lra|]. replace (1 / 16) with ((1 / 4) ^ 2) by field.
        apply pow_incr; lra. }
      unfold c2, c3 in *. lra. }
    lra.
Qed.

Lemma C41_radius_lemma (c : vec2 R) (r : R) (z : bezier R) (t : R) :
  In z (circle c r) -> 0 <= t <= 1 ->
  r ^ 2 <= sqdist (curve z t) c <= (10003 / 10000 * r) ^ 2.
Proof.
  intros Hz Ht. pose proof (quarter t Ht) as Q.
  set (X := bern 1 1 km 0 t) in *. set (Y := bern 0 km 1 1 t) in *.
  assert (E : sqdist (curve z t) c = r ^ 2 * (X ^ 2 + Y ^ 2)).
  { destruct c as [cx cy]. unfold circle, circle_magic in Hz. revert Hz. rn.
    fold km. intros [<-|[<-|[<-|[<-|[]]]]]; unfold sqdist, curve, X, Y, bern; cbn [vx vy b0 b1 b2 b3]; ring. }
  rewrite E. pose proof (pow2_ge_0 r). rewrite Rpow_mult_distr. split.
  - replace (r ^ 2) with (r ^ 2 * 1) at 1 by ring. apply Rmult_le_compat_l; lra.
  - rewrite (Rmult_comm _ (r ^ 2)). apply Rmult_le_compat_l; lra.
Qed.

(** ** C38: angles *)
Lemma pi_pos : 0 < n_pi (T := R).
Proof. unfold n_pi. rops. lra. Qed.

Lemma Rnearest_bound x : - (1 / 2) <= x - IZR (Rnearest x) <= 1 / 2.
Proof.
  unfold Rnearest. destruct (base_Int_part x) as [H1 H2].
  destruct (Rlt_dec (x - IZR (Int_part x)) (1 / 2)); [lra|].
  destruct (Rlt_dec (1 / 2) (x - IZR (Int_part x))); [rewrite plus_IZR; lra|].
  destruct (Z.even (Int_part x)); [|rewrite plus_IZR]; lra.
Qed.

Lemma remainder_bound x y : 0 < y -> - (y / 2) <= Rremainder x y <= y / 2.
Proof.
  intros Hy. unfold Rremainder. pose proof (Rnearest_bound (x / y)) as [H1 H2].
  set (n := IZR (Rnearest (x / y))) in *. clearbody n.
  apply (Rmult_le_compat_r y _ _ (Rlt_le _ _ Hy)) in H1. apply (Rmult_le_compat_r y _ _ (Rlt_le _ _ Hy)) in H2.
  replace ((x / y - n) * y) with (x - n * y) in * by (field; lra). lra.
Qed.

Lemma C38_clamp_lemma (rad : R) :
  0 <= clamp_0_2pi rad < 2 * (3141592653589793 / 1000000000000000) /\
  exists k : Z, clamp_0_2pi rad = rad + IZR k * (2 * (3141592653589793 / 1000000000000000)).
Proof.
  unfold clamp_0_2pi. rops. unfold n_pi. rops.
  set (p := 3141592653589793 / 1000000000000000).
  assert (Hp : 0 < p) by (unfold p; lra).
  pose proof (remainder_bound rad (p * 2) ltac:(lra)) as B.
  assert (K : exists k : Z, Rremainder rad (p * 2) = rad + IZR k * (2 * p)).
  { exists (- Rnearest (rad / (p * 2)))%Z. unfold Rremainder. rewrite opp_IZR. ring. }
  clearbody p. destruct K as (k & K).
  destruct (Rltb _ _) eqn:E; rbool.
  - split; [lra|]. exists (k + 1)%Z. rewrite K, plus_IZR. ring.
  - split; [lra|]. eauto.
Qed.

(** The end point is on the circle, at the swept angle. *)
Lemma C38_end_lemma (s c : vec2 R) (sweep : R) :
  let a := make_arc s c sweep in
  a_start a = s /\ a_center a = c /\ a_sweep a = sweep /\ (a_radius a) ^ 2 = sqdist s c /\ 0 <= a_radius a /\
  sqdist (a_end a) c = sqdist s c /\
  vx (a_end a) = vx c + a_radius a * cos (a_start_rad a + sweep) /\
  vy (a_end a) = vy c + a_radius a * sin (a_start_rad a + sweep).
Proof.
  destruct s as [sx sy], c as [cx cy]. cbn [make_arc a_start a_center a_sweep a_radius a_end a_start_rad].
  set (st := clamp_0_2pi _). unfold vdist. rn. set (e := Rplus st sweep).
  set (r := sqrt ((sx - cx) * (sx - cx) + (sy - cy) * (sy - cy))).
  assert (R2 : r ^ 2 = (sx - cx) ^ 2 + (sy - cy) ^ 2).
  { unfold r. replace (sqrt _ ^ 2) with (sqrt ((sx - cx) * (sx - cx) + (sy - cy) * (sy - cy)) * sqrt ((sx - cx) * (sx - cx) + (sy - cy) * (sy - cy))) by ring.
    rewrite sqrt_sqrt; [ring|]. pose proof (Rle_0_sqr (sx - cx)). pose proof (Rle_0_sqr (sy - cy)). unfold Rsqr in *. lra. }
  assert (R0 : 0 <= r) by apply sqrt_pos.
  repeat split; auto; unfold sqdist; cbn [vx vy].
  - pose proof (sin2_cos2 e) as SC. unfold Rsqr in SC. rewrite <- R2.
    transitivity (r ^ 2 * (sin e * sin e + cos e * cos e)); [ring|rewrite SC; ring].
  - ring.
  - ring.
Qed.

Lemma Int_part_is (r : R) (n : Z) : IZR n <= r < IZR n + 1 -> Int_part r = n.
Proof.
  intros H. unfold Int_part. rewrite <- (tech_up r (n + 1)); [lia| |]; rewrite plus_IZR; lra.
Qed.

Lemma remainder_small x y : 0 < y -> - (y / 2) < x < y / 2 -> Rremainder x y = x.
Proof.
  intros Hy [H1 H2]. unfold Rremainder.
  assert (B : - (1 / 2) < x / y < 1 / 2).
  { assert (0 < / y) by (apply Rinv_0_lt_compat; auto). unfold Rdiv. split.
    - replace (- (1 * / 2)) with (- (y / 2) * / y) by (field; lra). apply Rmult_lt_compat_r; auto.
    - replace (1 * / 2) with (y / 2 * / y) by (field; lra). apply Rmult_lt_compat_r; auto. }
  assert (N : Rnearest (x / y) = 0%Z).
  { unfold Rnearest. destruct (Rlt_dec (x / y) 0).
    - assert (Int_part (x / y) = (-1)%Z).
      { apply Int_part_is. lra. }
      rewrite H. destruct (Rlt_dec (x / y - IZR (-1)) (1 / 2)); [lra|].
      destruct (Rlt_dec (1 / 2) (x / y - IZR (-1))); [reflexivity|lra].
    - assert (Int_part (x / y) = 0%Z).
      { apply Int_part_is. lra. }
      rewrite H. destruct (Rlt_dec (x / y - IZR 0) (1 / 2)); [reflexivity|lra]. }
  rewrite N. ring.
Qed.

Lemma clamp_small x : 0 <= x < 3 -> clamp_0_2pi x = x.
Proof.
  intros H. unfold clamp_0_2pi. rops. unfold n_pi. rops. rewrite remainder_small by lra.
  destruct (Rltb x 0) eqn:E; rbool; lra.
Qed.

Lemma atan_0_1 x : 0 < x -> 0 < atan x < 3.
Proof.
  intros H. split.
  - rewrite <- atan_0. apply atan_increasing; auto.
  - pose proof (atan_bound x). pose proof PI_4. lra.
Qed.

(** A sweep of zero: same point, other angle. *)
Lemma C38_end_rad_refuted_lemma : exists (s c : vec2 R) (sweep : R),
  let a := make_arc s c sweep in a_end a = a_start a /\ a_end_rad a <> a_start_rad a.
Proof.
  exists (V2 2 1), (V2 1 1), 0. cbn [make_arc a_end a_start a_end_rad a_start_rad].
  unfold vdist, vsub, vadd, vmul, vdist2. rops. cbn [vx vy].
  assert (A0 : Ratan2 (1 - 1) (2 - 1) = 0).
  { unfold Ratan2. destruct (Rlt_dec 0 (2 - 1)); [|lra].
    replace ((1 - 1) / (2 - 1)) with 0 by field. apply atan_0. }
  rewrite A0, (clamp_small 0) by lra. replace (0 + 0) with 0 by ring. rewrite cos_0, sin_0.
  replace (sqrt _) with 1 by (symmetry; replace ((2 - 1) * (2 - 1) + (1 - 1) * (1 - 1)) with 1 by ring; apply sqrt_1).
  split; [f_equal; ring|].
  unfold Ratan2. destruct (Rlt_dec 0 (1 + 1 * 1)); [|lra].
  assert (P : 0 < (1 + 0 * 1) / (1 + 1 * 1)) by lra.
  pose proof (atan_0_1 _ P). rewrite clamp_small by lra. lra.
Qed.

(** Reversing keeps the sweep: walking it from the new start misses the end. *)
Lemma C38_reverse_refuted_lemma : exists (s c : vec2 R) (sweep : R),
  let a := arc_reverse (make_arc s c sweep) in
  vx (a_end a) <> vx c + a_radius a * cos (a_start_rad a + a_sweep a).
Proof.
  exists (V2 1 0), (V2 0 0), (PI / 2).
  cbn [arc_reverse make_arc a_end a_start a_end_rad a_start_rad a_radius a_sweep].
  unfold vdist, vsub, vadd, vmul, vdist2. rops. cbn [vx vy].
  assert (A0 : Ratan2 (0 - 0) (1 - 0) = 0).
  { unfold Ratan2. destruct (Rlt_dec 0 (1 - 0)); [|lra].
    replace ((0 - 0) / (1 - 0)) with 0 by field. apply atan_0. }
  rewrite A0, (clamp_small 0) by lra. replace (0 + PI / 2) with (PI / 2) by ring. rewrite cos_PI2, sin_PI2.
  replace (sqrt _) with 1 by (symmetry; replace ((1 - 0) * (1 - 0) + (0 - 0) * (0 - 0)) with 1 by ring; apply sqrt_1).
  assert (A1 : Ratan2 (0 + 1 * 1) (0 + 0 * 1) = PI / 2).
  { unfold Ratan2. destruct (Rlt_dec 0 (0 + 0 * 1)); [lra|]. destruct (Rlt_dec (0 + 0 * 1) 0); [lra|].
    destruct (Rlt_dec 0 (0 + 1 * 1)); [auto|lra]. }
  rewrite A1. assert (0 < PI) by apply PI_RGT_0. pose proof PI_4.
  rewrite clamp_small by lra. replace (PI / 2 + PI / 2) with PI by field. rewrite cos_PI. lra.
Qed.
