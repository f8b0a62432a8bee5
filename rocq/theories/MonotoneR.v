(** Extrema of a coordinate of a cubic: split_y and get_boundary over R. *)
From Coq Require Import ZArith Bool List Reals Lra Lia.
From Verif Require Import Outcome Num Order Rmath RectSpec RectProofs RTac BezierSpec BezierR.
Import ListNotations.
Local Open Scope R_scope.

Section Scalar.
  Variables a b c d : R.
  Let f := bern a b c d.
  Let A := 3 * d - 9 * c + 9 * b - 3 * a.
  Let B := 6 * a - 12 * b + 6 * c.
  Let C := 3 * (b - a).
  Let q t := A * t ^ 2 + B * t + C.

  Lemma q_dbern t : q t = dbern a b c d t.
  Proof. reflexivity. Qed.

  Lemma q_cont : continuity q.
  Proof. unfold q. reg. Qed.

  Definition const_sign (lo hi : R) : Prop :=
    (forall t, lo <= t <= hi -> 0 <= q t) \/ (forall t, lo <= t <= hi -> q t <= 0).

  Lemma no_zero_between u v : u <= v -> q u * q v < 0 -> exists z, u < z < v /\ q z = 0.
  Proof.
    intros Huv H. destruct (IVT_cor q u v q_cont Huv) as (z & Hz & E); [lra|].
    exists z. split; auto.
    assert (z <> u) by (intros ->; rewrite E in H; lra).
    assert (z <> v) by (intros ->; rewrite E in H; lra). lra.
  Qed.

  Lemma const_sign_no_zero lo hi : lo < hi ->
    (forall r, lo < r < hi -> q r <> 0) -> const_sign lo hi.
  Proof.
    intros Hlt H. set (m := (lo + hi) / 2).
    assert (Hm : lo < m < hi) by (unfold m; lra).
    assert (Hqm := H m Hm).
    assert (G : forall t, lo <= t <= hi -> 0 <= q t * q m).
    { intros t Ht. destruct (Rle_dec 0 (q t * q m)); auto. exfalso.
      destruct (Rle_dec t m).
      - destruct (no_zero_between t m) as (z & Hz & E); [auto|lra|]. apply (H z); auto; lra.
      - destruct (no_zero_between m t) as (z & Hz & E); [lra|lra|]. apply (H z); auto; lra. }
    destruct (Rle_dec 0 (q m)).
    - left. intros t Ht. specialize (G t Ht).
      destruct (Rle_dec 0 (q t)); auto. exfalso. assert (0 < q m) by lra.
      assert (q t * q m < 0); [|lra]. 
      replace (q t * q m) with (- (- q t * q m)) by ring.
      assert (0 < - q t * q m) by (apply Rmult_lt_0_compat; lra). lra.
    - right. intros t Ht. specialize (G t Ht).
      destruct (Rle_dec (q t) 0); auto. exfalso.
      assert (0 < q t * - q m) by (apply Rmult_lt_0_compat; lra). lra.
  Qed.

  (** f is monotone on [u,v]. *)
  Definition mono (lo hi : R) : Prop :=
    (forall u v, lo <= u -> u <= v -> v <= hi -> f u <= f v) \/
    (forall u v, lo <= u -> u <= v -> v <= hi -> f v <= f u).

  Lemma const_sign_mono lo hi : const_sign lo hi -> mono lo hi.
  Proof.
    intros [H|H]; [left|right].
    - apply bern_incr; auto.
    - apply bern_decr; auto.
  Qed.

  Lemma mono_no_zero lo hi : lo < hi -> (forall r, lo < r < hi -> q r <> 0) -> mono lo hi.
  Proof. intros. apply const_sign_mono, const_sign_no_zero; auto. Qed.

  (** The three shapes of the derivative. *)
  Lemma q_factor : A <> 0 -> 0 <= B * B - 4 * A * C ->
    let k := sqrt (B * B - 4 * A * C) in
    forall t, q t = A * (t - (- B + k) / (2 * A)) * (t - (- B - k) / (2 * A)).
  Proof.
    intros HA Hk k t.
    assert (E : k * k = B * B - 4 * A * C) by (apply sqrt_sqrt; auto).
    transitivity (A * t ^ 2 + B * t + (B * B - k * k) / (4 * A)).
    - rewrite E. unfold q. field; auto.
    - field; auto.
  Qed.

  Lemma q_neg_disc : A <> 0 -> B * B - 4 * A * C <= 0 -> forall lo hi, const_sign lo hi.
  Proof.
    intros HA Hk lo hi.
    assert (G : forall t, q t = A * ((t + B / (2 * A)) ^ 2 + (4 * A * C - B * B) * (/ (2 * A)) ^ 2)).
    { intros t. unfold q. field; auto. }
    assert (P : forall t, 0 <= (t + B / (2 * A)) ^ 2 + (4 * A * C - B * B) * (/ (2 * A)) ^ 2).
    { intros t. pose proof (pow2_ge_0 (t + B / (2 * A))). pose proof (pow2_ge_0 (/ (2 * A))).
      assert (0 <= (4 * A * C - B * B) * (/ (2 * A)) ^ 2) by (apply Rmult_le_pos; lra). lra. }
    destruct (Rle_dec 0 A); [left|right]; intros t _; rewrite G; specialize (P t).
    - apply Rmult_le_pos; auto.
    - replace 0 with (A * 0) by ring. apply Rmult_le_compat_neg_l; lra.
  Qed.

  Lemma mono_between lo hi L U t : mono lo hi -> lo <= t <= hi ->
    L <= f lo <= U -> L <= f hi <= U -> L <= f t <= U.
  Proof.
    intros [H|H] Ht H1 H2.
    - pose proof (H lo t). pose proof (H t hi). lra.
    - pose proof (H lo t). pose proof (H t hi). lra.
  Qed.

  (** Range of f on [0,1] from its values at 0, 1 and the roots inside. *)
  Lemma range_two_roots r1 r2 L U t :
    (forall r, q r = A * (r - r1) * (r - r2)) -> A <> 0 ->
    L <= f 0 <= U -> L <= f 1 <= U ->
    (0 < r1 < 1 -> L <= f r1 <= U) -> (0 < r2 < 1 -> L <= f r2 <= U) ->
    0 <= t <= 1 -> L <= f t <= U.
  Proof.
    intros Hq HA H0 H1 Hr1 Hr2 Ht.
    assert (NZ : forall u v, u < v -> (r1 <= u \/ v <= r1) -> (r2 <= u \/ v <= r2) -> mono u v).
    { intros u v Huv Z1 Z2. apply mono_no_zero; auto. intros r Hr E. rewrite Hq in E.
      apply Rmult_integral in E as [E|E]; [apply Rmult_integral in E as [E|E]|]; [contradiction|lra|lra]. }
    assert (G : forall u v, u <= t <= v -> u < v -> (r1 <= u \/ v <= r1) -> (r2 <= u \/ v <= r2) ->
              L <= f u <= U -> L <= f v <= U -> L <= f t <= U).
    { intros u v Htuv Huv Z1 Z2 K1 K2. eapply mono_between; eauto. }
    destruct (Rlt_dec 0 r1), (Rlt_dec r1 1), (Rlt_dec 0 r2), (Rlt_dec r2 1),
      (Rle_dec r1 t), (Rle_dec r2 t), (Rlt_dec r1 r2), (Rlt_dec r2 r1);
      try lra;
      try (pose proof (Hr1 ltac:(lra))); try (pose proof (Hr2 ltac:(lra)));
      first [ apply (G 0 1); solve [auto|lra]
            | apply (G 0 r1); solve [auto|lra]
            | apply (G 0 r2); solve [auto|lra]
            | apply (G r1 1); solve [auto|lra]
            | apply (G r2 1); solve [auto|lra]
            | apply (G r1 r2); solve [auto|lra]
            | apply (G r2 r1); solve [auto|lra] ].
  Qed.

  Lemma range_one_root r1 L U t :
    (forall r, q r = 0 -> r = r1) ->
    L <= f 0 <= U -> L <= f 1 <= U -> (0 < r1 < 1 -> L <= f r1 <= U) ->
    0 <= t <= 1 -> L <= f t <= U.
  Proof.
    intros Hq H0 H1 Hr1 Ht.
    assert (NZ : forall u v, u < v -> (r1 <= u \/ v <= r1) -> mono u v).
    { intros u v Huv Z1. apply mono_no_zero; auto. intros r Hr E. apply Hq in E. lra. }
    assert (G : forall u v, u <= t <= v -> u < v -> (r1 <= u \/ v <= r1) ->
              L <= f u <= U -> L <= f v <= U -> L <= f t <= U).
    { intros u v Htuv Huv Z1 K1 K2. eapply mono_between; eauto. }
    destruct (Rlt_dec 0 r1), (Rlt_dec r1 1), (Rle_dec r1 t);
      try lra; try (pose proof (Hr1 ltac:(lra)));
      first [ apply (G 0 1); solve [auto|lra]
            | apply (G 0 r1); solve [auto|lra]
            | apply (G r1 1); solve [auto|lra] ].
  Qed.
End Scalar.

(** Coefficients outside the solver's tolerance band, per axis: a number that
    the code takes for zero is zero. *)
Definition exact_zero (v : R) : Prop := is_zero v = true -> v = 0.
Definition regular_axis (pick : vec2 R -> R) (z : bezier R) : Prop :=
  exact_zero (pick (dcoefA z)) /\ (pick (dcoefA z) = 0 -> exact_zero (pick (dcoefB z))).

(** The coordinate functions. *)
Definition is_coord (pick : vec2 R -> R) : Prop := pick = vx \/ pick = vy.

Lemma coord_curve pick z t : is_coord pick ->
  pick (curve z t) = bern (pick (b0 z)) (pick (b1 z)) (pick (b2 z)) (pick (b3 z)) t.
Proof. intros [->| ->]; reflexivity. Qed.

Lemma coord_dA pick z : is_coord pick ->
  pick (dcoefA z) = 3 * pick (b3 z) - 9 * pick (b2 z) + 9 * pick (b1 z) - 3 * pick (b0 z).
Proof. intros [->| ->]; rn; ring. Qed.
Lemma coord_dB pick z : is_coord pick ->
  pick (dcoefB z) = 6 * pick (b0 z) - 12 * pick (b1 z) + 6 * pick (b2 z).
Proof. intros [->| ->]; rn; ring. Qed.
Lemma coord_dC pick z : is_coord pick ->
  pick (dcoefC z) = 3 * (pick (b1 z) - pick (b0 z)).
Proof. intros [->| ->]; rn; ring. Qed.

Lemma boundary_axis_range pick z x1 x2 L U t : is_coord pick -> regular_axis pick z ->
  boundary_axis pick z = (x1, x2) ->
  L <= pick (b0 z) <= U -> L <= pick (b3 z) <= U -> L <= x1 <= U -> L <= x2 <= U ->
  0 <= t <= 1 -> L <= pick (curve z t) <= U.
Proof.
  intros Hp [RA RB] HB Hb0 Hb3 Hx1 Hx2 Ht.
  rewrite coord_curve by auto.
  assert (F0 : bern (pick (b0 z)) (pick (b1 z)) (pick (b2 z)) (pick (b3 z)) 0 = pick (b0 z)) by (unfold bern; ring).
  assert (F1 : bern (pick (b0 z)) (pick (b1 z)) (pick (b2 z)) (pick (b3 z)) 1 = pick (b3 z)) by (unfold bern; ring).
  unfold boundary_axis in HB. rops.
  rewrite coord_dA, coord_dB, coord_dC in * by auto.
  rewrite !point_at_curve, !coord_curve in HB by auto.
  set (A := 3 * pick (b3 z) - 9 * pick (b2 z) + 9 * pick (b1 z) - 3 * pick (b0 z)) in *.
  set (B := 6 * pick (b0 z) - 12 * pick (b1 z) + 6 * pick (b2 z)) in *.
  set (C := 3 * (pick (b1 z) - pick (b0 z))) in *.
  destruct (is_zero A) eqn:EA.
  - specialize (RA EA). specialize (RB RA).
    destruct (is_zero B) eqn:EB.
    + specialize (RB EB). inversion HB; subst.
      eapply (mono_between _ _ _ _ 0 1); try lra.
      apply const_sign_mono. destruct (Rle_dec 0 C); [left|right]; intros r0 _; fold A B C; rewrite RA, RB; lra.
    + assert (HB0 : B <> 0).
      { intros E. rewrite E, is_zero_R0 in EB. discriminate. }
      destruct (Rltb 0 (- C / B) && Rltb (- C / B) 1)%bool eqn:E; rbool.
      * apply (range_one_root _ _ _ _ (- C / B)); auto; try lra.
        -- intros r Hr. fold A B C in Hr. rewrite RA in Hr. apply (Rmult_eq_reg_l B); auto.
           field_simplify; auto. lra.
        -- intros _. inversion HB; subst. auto.
      * apply (range_one_root _ _ _ _ (- C / B)); auto; try lra.
        -- intros r Hr. fold A B C in Hr. rewrite RA in Hr. apply (Rmult_eq_reg_l B); auto.
           field_simplify; auto. lra.
        -- intros Hin. exfalso.
           assert (Rltb 0 (- C / B) && Rltb (- C / B) 1 = true)%bool; [|congruence].
           apply andb_true_iff; split; apply Rltb_true; lra.
  - assert (HA : A <> 0).
    { intros E. rewrite E, is_zero_R0 in EA. discriminate. }
    destruct (Rltb (B * B - 4 * A * C) 0) eqn:Ek; rbool.
    + eapply (mono_between _ _ _ _ 0 1); try lra.
      apply const_sign_mono. apply q_neg_disc; fold A B C; auto; lra.
    + pose proof (q_factor (pick (b0 z)) (pick (b1 z)) (pick (b2 z)) (pick (b3 z)) HA Ek) as HF.
      cbv zeta in HF. fold A B C in HF.
      set (r1 := (- B + sqrt (B * B - 4 * A * C)) / (2 * A)) in *.
      set (r2 := (- B - sqrt (B * B - 4 * A * C)) / (2 * A)) in *.
      apply (range_two_roots _ _ _ _ r1 r2); auto; try lra.
      * intros Hr1. assert (Rltb 0 r1 && Rltb r1 1 = true)%bool as E.
        { apply andb_true_iff; split; apply Rltb_true; lra. }
        rewrite E in HB. inversion HB. subst x1. auto.
      * intros Hr2. assert (Rltb 0 r2 && Rltb r2 1 = true)%bool as E.
        { apply andb_true_iff; split; apply Rltb_true; lra. }
        rewrite E in HB. inversion HB. subst x2. auto.
Qed.

(** The values the axis computation returns are attained by the curve. *)
Lemma boundary_axis_attained pick z x1 x2 : is_coord pick ->
  boundary_axis pick z = (x1, x2) ->
  (exists t, 0 <= t <= 1 /\ pick (curve z t) = x1) /\
  (exists t, 0 <= t <= 1 /\ pick (curve z t) = x2).
Proof.
  intros Hp HB. unfold boundary_axis in HB. rops. rewrite !point_at_curve in HB.
  assert (E0 : exists t, 0 <= t <= 1 /\ pick (curve z t) = pick (b0 z)).
  { exists 0. split; [lra|]. rewrite curve_0; auto. }
  assert (E1 : exists t, 0 <= t <= 1 /\ pick (curve z t) = pick (b3 z)).
  { exists 1. split; [lra|]. rewrite curve_1; auto. }
  set (A := pick (dcoefA z)) in *. set (B := pick (dcoefB z)) in *. set (C := pick (dcoefC z)) in *.
  destruct (is_zero A).
  - destruct (is_zero B); [inversion HB; subst; auto|].
    destruct (Rltb 0 (- C / B) && Rltb (- C / B) 1)%bool eqn:E; rbool; inversion HB; subst; auto.
    split; exists (- C / B); split; auto; lra.
  - destruct (Rltb (B * B - 4 * A * C) 0); [inversion HB; subst; auto|].
    inversion HB; subst x1 x2; clear HB. split.
    + destruct (Rltb 0 _ && Rltb _ 1)%bool eqn:E in |- *; rbool; auto.
      eexists; split; [|reflexivity]; lra.
    + match goal with |- exists t, _ /\ _ = (if ?c then _ else _) => destruct c eqn:E end; rbool; auto.
      eexists; split; [|reflexivity]; lra.
Qed.

(** Points of the curve stay within what [rect_from] accepts. *)
Lemma nle_R (a b : R) : nle a b <-> a <= b.
Proof. unfold nle. rops. apply Rleb_true. Qed.

Lemma finite_R (p : vec2 R) : finite_point p <->
  - R_huge <= vx p <= R_huge /\ - R_huge <= vy p <= R_huge.
Proof. unfold finite_point, vvalid. rewrite !nle_R. rops. cbn. tauto. Qed.

Lemma bern_hull a b c d t L U : 0 <= t <= 1 ->
  L <= a <= U -> L <= b <= U -> L <= c <= U -> L <= d <= U -> L <= bern a b c d t <= U.
Proof.
  intros Ht Ha Hb Hc Hd. unfold bern.
  set (w0 := (1 - t) ^ 3). set (w1 := 3 * (1 - t) ^ 2 * t).
  set (w2 := 3 * (1 - t) * t ^ 2). set (w3 := t ^ 3).
  assert (S : w0 + w1 + w2 + w3 = 1) by (unfold w0, w1, w2, w3; ring).
  assert (P0 : 0 <= w0) by (apply pow_le; lra).
  assert (P1 : 0 <= w1) by (unfold w1; apply Rmult_le_pos; [apply Rmult_le_pos; [lra|apply pow_le; lra]|lra]).
  assert (P2 : 0 <= w2) by (unfold w2; apply Rmult_le_pos; [lra|apply pow_le; lra]).
  assert (P3 : 0 <= w3) by (apply pow_le; lra).
  clearbody w0 w1 w2 w3.
  assert (G : forall w x, 0 <= w -> L <= x <= U -> w * L <= w * x <= w * U).
  { intros w x Hw Hx. split; apply Rmult_le_compat_l; lra. }
  pose proof (G w0 a P0 Ha). pose proof (G w1 b P1 Hb).
  pose proof (G w2 c P2 Hc). pose proof (G w3 d P3 Hd).
  assert (EL : w0 * L + w1 * L + w2 * L + w3 * L = L) by (replace (w0 * L + w1 * L + w2 * L + w3 * L) with ((w0+w1+w2+w3)*L) by ring; rewrite S; ring).
  assert (EU : w0 * U + w1 * U + w2 * U + w3 * U = U) by (replace (w0 * U + w1 * U + w2 * U + w3 * U) with ((w0+w1+w2+w3)*U) by ring; rewrite S; ring).
  lra.
Qed.

Lemma curve_finite z t : finite_bezier z -> 0 <= t <= 1 -> finite_point (curve z t).
Proof.
  unfold finite_bezier. rewrite !finite_R. intros (H0 & H1 & H2 & H3) Ht.
  cbn [curve vx vy]. split; apply bern_hull; tauto.
Qed.

Lemma boundary_axis_finite pick z x1 x2 : is_coord pick -> finite_bezier z ->
  boundary_axis pick z = (x1, x2) -> - R_huge <= x1 <= R_huge /\ - R_huge <= x2 <= R_huge.
Proof.
  intros Hp Hf HB. apply boundary_axis_attained in HB as [(t & Ht & <-) (u & Hu & <-)]; auto.
  pose proof (curve_finite z t Hf Ht) as F1. pose proof (curve_finite z u Hf Hu) as F2.
  rewrite finite_R in *. destruct Hp as [->| ->]; tauto.
Qed.

Lemma minmax_R (a b : R) : (n_min a b = a \/ n_min a b = b) /\ n_min a b <= a /\ n_min a b <= b /\
  (n_max a b = a \/ n_max a b = b) /\ a <= n_max a b /\ b <= n_max a b.
Proof.
  unfold n_min, n_max. rops.
  destruct (Rltb b a) eqn:E1, (Rltb a b) eqn:E2; rbool; repeat split; auto; lra.
Qed.

(** C12 *)
Lemma C12_lemma (z : bezier R) : finite_bezier z -> regular_axis vx z -> regular_axis vy z ->
  forall t, 0 <= t <= 1 -> inbox (get_boundary z) (curve z t).
Proof.
  intros Hf Rx Ry t Ht. unfold get_boundary.
  destruct (boundary_axis vx z) as [x1 x2] eqn:Ex.
  destruct (boundary_axis vy z) as [y1 y2] eqn:Ey.
  assert (Cx : is_coord vx) by (left; auto). assert (Cy : is_coord vy) by (right; auto).
  pose proof (boundary_axis_finite vx z x1 x2 Cx Hf Ex) as [Fx1 Fx2].
  pose proof (boundary_axis_finite vy z y1 y2 Cy Hf Ey) as [Fy1 Fy2].
  destruct (minmax_R x1 x2) as (Mx1 & Mx2 & Mx3 & Mx4 & Mx5 & Mx6).
  destruct (minmax_R y1 y2) as (My1 & My2 & My3 & My4 & My5 & My6).
  set (tp1 := V2 (n_min x1 x2) (n_min y1 y2)). set (tp2 := V2 (n_max x1 x2) (n_max y1 y2)).
  destruct Hf as (F0 & F1 & F2 & F3). 
  assert (G : forall p, In p [b0 z; b3 z; tp1; tp2] -> finite_point p).
  { intros p [<-|[<-|[<-|[<-|[]]]]]; auto; apply finite_R; unfold tp1, tp2; cbn [vx vy].
    - destruct Mx1 as [->| ->], My1 as [->| ->]; tauto.
    - destruct Mx4 as [->| ->], My4 as [->| ->]; tauto. }
  destruct (C06_lemma [b0 z; b3 z; tp1; tp2] ltac:(discriminate) G) as (_ & Hin & _).
  pose proof (Hin (b0 z) ltac:(cbn; auto)) as I0.
  pose proof (Hin (b3 z) ltac:(cbn; auto)) as I3.
  pose proof (Hin tp1 ltac:(cbn; auto)) as I1.
  pose proof (Hin tp2 ltac:(cbn; auto)) as I2.
  set (bx := rect_from [b0 z; b3 z; tp1; tp2]) in *. clearbody bx.
  unfold inbox in *. rewrite !nle_R in *. unfold tp1, tp2 in *. cbn [vx vy] in *.
  pose proof (boundary_axis_range vx z x1 x2 (vx (rmin bx)) (vx (rmax bx)) t Cx Rx Ex) as HX.
  pose proof (boundary_axis_range vy z y1 y2 (vy (rmin bx)) (vy (rmax bx)) t Cy Ry Ey) as HY.
  specialize (HX ltac:(lra) ltac:(lra) ltac:(lra) ltac:(lra) Ht).
  specialize (HY ltac:(lra) ltac:(lra) ltac:(lra) ltac:(lra) Ht).
  tauto.
Qed.

(** Each side of the box touches the curve. *)
Lemma C12_tight_lemma (z : bezier R) : finite_bezier z ->
  let r := get_boundary z in
  (exists t, 0 <= t <= 1 /\ vx (curve z t) = vx (rmin r)) /\
  (exists t, 0 <= t <= 1 /\ vx (curve z t) = vx (rmax r)) /\
  (exists t, 0 <= t <= 1 /\ vy (curve z t) = vy (rmin r)) /\
  (exists t, 0 <= t <= 1 /\ vy (curve z t) = vy (rmax r)).
Proof.
  intros Hf. cbv zeta. unfold get_boundary.
  destruct (boundary_axis vx z) as [x1 x2] eqn:Ex.
  destruct (boundary_axis vy z) as [y1 y2] eqn:Ey.
  assert (Cx : is_coord vx) by (left; auto). assert (Cy : is_coord vy) by (right; auto).
  pose proof (boundary_axis_finite vx z x1 x2 Cx Hf Ex) as [Fx1 Fx2].
  pose proof (boundary_axis_finite vy z y1 y2 Cy Hf Ey) as [Fy1 Fy2].
  pose proof (boundary_axis_attained vx z x1 x2 Cx Ex) as [Ax1 Ax2].
  pose proof (boundary_axis_attained vy z y1 y2 Cy Ey) as [Ay1 Ay2].
  destruct (minmax_R x1 x2) as (Mx1 & _ & _ & Mx4 & _ & _).
  destruct (minmax_R y1 y2) as (My1 & _ & _ & My4 & _ & _).
  destruct Hf as (F0 & F1 & F2 & F3). rewrite finite_R in F0, F3.
  assert (A0x : exists t, 0 <= t <= 1 /\ vx (curve z t) = vx (b0 z)) by (exists 0; split; [lra|rewrite curve_0; auto]).
  assert (A3x : exists t, 0 <= t <= 1 /\ vx (curve z t) = vx (b3 z)) by (exists 1; split; [lra|rewrite curve_1; auto]).
  assert (A0y : exists t, 0 <= t <= 1 /\ vy (curve z t) = vy (b0 z)) by (exists 0; split; [lra|rewrite curve_0; auto]).
  assert (A3y : exists t, 0 <= t <= 1 /\ vy (curve z t) = vy (b3 z)) by (exists 1; split; [lra|rewrite curve_1; auto]).
  set (tp1 := V2 (n_min x1 x2) (n_min y1 y2)). set (tp2 := V2 (n_max x1 x2) (n_max y1 y2)).
  unfold rect_from. rewrite rect_from_folds. cbn [rmin rmax vx vy].
  assert (A1x : exists t, 0 <= t <= 1 /\ vx (curve z t) = vx tp1) by (cbn; destruct Mx1 as [->| ->]; auto).
  assert (A2x : exists t, 0 <= t <= 1 /\ vx (curve z t) = vx tp2) by (cbn; destruct Mx4 as [->| ->]; auto).
  assert (A1y : exists t, 0 <= t <= 1 /\ vy (curve z t) = vy tp1) by (cbn; destruct My1 as [->| ->]; auto).
  assert (A2y : exists t, 0 <= t <= 1 /\ vy (curve z t) = vy tp2) by (cbn; destruct My4 as [->| ->]; auto).
  assert (S : forall (P : R -> Prop) w x y u, P x -> P y -> P u -> P w ->
     (- R_huge <= x <= R_huge) -> 
     P (fold_left n_min [x; y; u; w] n_huge) /\ P (fold_left n_max [x; y; u; w] (n_neg n_huge))).
  { intros P w x y u Hx Hy Hu Hw Hb. cbn [fold_left]. rops.
    assert (E1 : P (n_min R_huge x)).
    { unfold n_min; rops. destruct (Rltb x R_huge) eqn:E; rbool; auto.
      replace R_huge with x by lra; auto. }
    assert (E2 : P (n_max (- R_huge) x)).
    { unfold n_max; rops. destruct (Rltb (- R_huge) x) eqn:E; rbool; auto.
      replace (- R_huge) with x by lra; auto. }
    assert (M : forall a b, P a -> P b -> P (n_min a b) /\ P (n_max a b)).
    { intros a b Ha Hb'. destruct (minmax_R a b) as (m1 & _ & _ & m2 & _ & _).
      split; [destruct m1 as [->| ->]|destruct m2 as [->| ->]]; auto. }
    split; repeat (apply M; auto). }
  pose proof (S (fun v => exists t, 0 <= t <= 1 /\ vx (curve z t) = v)
    (vx tp2) (vx (b0 z)) (vx (b3 z)) (vx tp1) A0x A3x A1x A2x ltac:(tauto)) as [X1 X2].
  pose proof (S (fun v => exists t, 0 <= t <= 1 /\ vy (curve z t) = v)
    (vy tp2) (vy (b0 z)) (vy (b3 z)) (vy tp1) A0y A3y A1y A2y ltac:(tauto)) as [Y1 Y2].
  cbn [map]. auto.
Qed.

(* ---------------------------------------------------------------- *)
(** ** split_y *)

(** C11: number and range of the parameters, for any arithmetic *)
Lemma C11_params_lemma {T} {N : Num T} (z : bezier T) :
  (length (split_y z) <= 2)%nat /\ forall t, In t (split_y z) ->
    n_ltb (n_ofZ 0) t = true /\ n_ltb t (n_ofZ 1) = true.
Proof.
  unfold split_y, in01.
  repeat match goal with |- context [if ?c then _ else _] => destruct c eqn:? end;
    cbn; split; try lia; intros t H;
    repeat (destruct H as [<-|H]; [|]); try contradiction;
    repeat match goal with h : (_ && _)%bool = true |- _ => apply andb_prop in h as [? ?] end; auto.
Qed.

Definition y_of (z : bezier R) (t : R) : R := vy (curve z t).

Lemma in01_R t : in01 (T := R) t = true <-> 0 < t < 1.
Proof. unfold in01. rops. rewrite andb_true_iff, !Rltb_true. lra. Qed.
Lemma in01_R_false t : in01 (T := R) t = false <-> ~ 0 < t < 1.
Proof.
  destruct (in01 t) eqn:E.
  - apply in01_R in E. split; [discriminate|tauto].
  - split; auto. intros _ H. apply in01_R in H. congruence.
Qed.

(** Between consecutive cut parameters y is monotone. *)
Fixpoint mono_pieces (z : bezier R) (lo : R) (ts : list R) : Prop :=
  match ts with
  | [] => mono (vy (b0 z)) (vy (b1 z)) (vy (b2 z)) (vy (b3 z)) lo 1
  | t :: ts' => mono (vy (b0 z)) (vy (b1 z)) (vy (b2 z)) (vy (b3 z)) lo t /\ mono_pieces z t ts'
  end.

Lemma split_y_mono (z : bezier R) : regular_axis vy z ->
  increasing 0 (split_y z) 1 -> mono_pieces z 0 (split_y z).
Proof.
  intros [RA RB] Hi. unfold split_y in *. rops.
  assert (Cy : is_coord vy) by (right; auto).
  rewrite coord_dA, coord_dB, coord_dC in * by auto.
  set (A := 3 * vy (b3 z) - 9 * vy (b2 z) + 9 * vy (b1 z) - 3 * vy (b0 z)) in *.
  set (B := 6 * vy (b0 z) - 12 * vy (b1 z) + 6 * vy (b2 z)) in *.
  set (C := 3 * (vy (b1 z) - vy (b0 z))) in *.
  destruct (is_zero A) eqn:EA.
  - specialize (RA EA). specialize (RB RA).
    destruct (is_zero B) eqn:EB.
    + specialize (RB EB). cbn. apply const_sign_mono.
      destruct (Rle_dec 0 C); [left|right]; intros r0 _; fold A B C; rewrite RA, RB; lra.
    + assert (HB0 : B <> 0).
      { intros E. rewrite E, is_zero_R0 in EB. discriminate. }
      assert (NZ : forall u v, u < v -> (- C / B <= u \/ v <= - C / B) ->
                mono (vy (b0 z)) (vy (b1 z)) (vy (b2 z)) (vy (b3 z)) u v).
      { intros u v Huv Z. apply mono_no_zero; auto. intros r Hr E. fold A B C in E. rewrite RA in E.
        assert (r = - C / B); [|lra]. apply (Rmult_eq_reg_l B); auto. field_simplify; auto. lra. }
      destruct (in01 (- C / B)) eqn:E.
      * apply in01_R in E. cbn. split; apply NZ; lra.
      * apply in01_R_false in E. cbn. apply NZ; [lra|].
        destruct (Rle_dec (- C / B) 0); [left; lra|right; lra].
  - assert (HA : A <> 0).
    { intros E. rewrite E, is_zero_R0 in EA. discriminate. }
    destruct (Rltb 0 (B * B - 4 * A * C)) eqn:Ek; rbool.
    + pose proof (q_factor (vy (b0 z)) (vy (b1 z)) (vy (b2 z)) (vy (b3 z)) HA) as HF.
      cbv zeta in HF. fold A B C in HF. specialize (HF (Rlt_le _ _ Ek)).
      set (r1 := (- B + sqrt (B * B - 4 * A * C)) / (2 * A)) in *.
      set (r2 := (- B - sqrt (B * B - 4 * A * C)) / (2 * A)) in *.
      assert (NZ : forall u v, u < v -> (r1 <= u \/ v <= r1) -> (r2 <= u \/ v <= r2) ->
                mono (vy (b0 z)) (vy (b1 z)) (vy (b2 z)) (vy (b3 z)) u v).
      { intros u v Huv Z1 Z2. apply mono_no_zero; auto. intros r Hr E. fold A B C in E. rewrite HF in E.
        apply Rmult_integral in E as [E|E]; [apply Rmult_integral in E as [E|E]|]; [contradiction|lra|lra]. }
      destruct (in01 r1) eqn:E1; destruct (in01 r2) eqn:E2;
        rewrite ?in01_R, ?in01_R_false in *; cbn in Hi |- *.
      * repeat split; apply NZ; lra.
      * split; apply NZ; try lra; destruct (Rle_dec r2 0); lra.
      * split; apply NZ; try lra; destruct (Rle_dec r1 0); lra.
      * apply NZ; lra.
    + cbn. apply const_sign_mono. apply q_neg_disc; fold A B C; auto; lra.
Qed.

Lemma mono_traces z p u v : u < v -> traces p z u v ->
  mono (vy (b0 z)) (vy (b1 z)) (vy (b2 z)) (vy (b3 z)) u v -> monotone01 (y_of p).
Proof.
  intros Huv Ht.
  assert (G : forall s, y_of p s = bern (vy (b0 z)) (vy (b1 z)) (vy (b2 z)) (vy (b3 z)) (u + (v - u) * s)).
  { intros s. unfold y_of. rewrite Ht. reflexivity. }
  assert (K : forall a b, 0 <= a -> a <= b -> b <= 1 ->
     u <= u + (v - u) * a /\ u + (v - u) * a <= u + (v - u) * b /\ u + (v - u) * b <= v).
  { intros a b H1 H2 H3.
    assert (0 <= (v - u) * a) by (apply Rmult_le_pos; lra).
    assert ((v - u) * a <= (v - u) * b) by (apply Rmult_le_compat_l; lra).
    assert ((v - u) * b <= (v - u) * 1) by (apply Rmult_le_compat_l; lra). lra. }
  intros [H|H]; [left|right]; intros a b H1 H2 H3; rewrite !G;
    destruct (K a b H1 H2 H3) as (K1 & K2 & K3); apply H; auto.
Qed.

Lemma mono_pieces_all z ts : forall lo ps, pieces_of z lo ts ps -> increasing lo ts 1 ->
  mono_pieces z lo ts -> Forall (fun p => monotone01 (y_of p)) ps.
Proof.
  induction ts as [|t ts IH]; intros lo ps Hp Hi Hm.
  - destruct ps as [|p [|]]; cbn in Hp; try contradiction.
    constructor; [|constructor]. eapply mono_traces; eauto. 
  - destruct ps as [|p ps]; [contradiction|]. destruct Hp, Hi, Hm.
    constructor; eauto. eapply mono_traces; eauto.
Qed.

(** The pieces read_cubicto makes of an input curve: the curve itself when
    split_y finds nothing (vatti.cpp, read_cubicto). *)
Definition y_pieces (z : bezier R) : list (bezier R) :=
  match split_y z with [] => [z] | ts => bsplit_many z ts end.

Lemma C11_sorted_lemma (z : bezier R) : regular_axis vy z -> increasing 0 (split_y z) 1 ->
  Forall (fun p => monotone01 (y_of p)) (y_pieces z).
Proof.
  intros HR Hi. pose proof (split_y_mono z HR Hi) as Hm. unfold y_pieces.
  destruct (split_y z) as [|t ts] eqn:E.
  - constructor; [|constructor]. eapply (mono_traces z z 0 1); auto using traces_self; lra.
  - eapply (mono_pieces_all z (t :: ts) 0); eauto. apply C10_lemma; auto. discriminate.
Qed.

Lemma split_y_sorted (z : bezier R) :
  vy (dcoefA z) < 0 \/ (length (split_y z) <= 1)%nat -> increasing 0 (split_y z) 1.
Proof.
  intros H. destruct (C11_params_lemma z) as [_ H01].
  assert (G : forall t, In t (split_y z) -> 0 < t < 1).
  { intros t Ht. destruct (H01 t Ht) as [X Y]. rops. rbool. lra. }
  clear H01. unfold split_y in *. rops.
  set (A := vy (dcoefA z)) in *. set (B := vy (dcoefB z)) in *. set (C := vy (dcoefC z)) in *. clearbody A B C.
  destruct (is_zero A) eqn:EA.
  - destruct (is_zero B); [cbn; lra|]. destruct (in01 _); cbn in *; [|lra].
    specialize (G _ (or_introl eq_refl)). lra.
  - destruct (Rltb 0 (B * B - 4 * A * C)) eqn:Ek; rbool; [|cbn; lra].
    set (r1 := (- B + sqrt (B * B - 4 * A * C)) / (2 * A)) in *.
    set (r2 := (- B - sqrt (B * B - 4 * A * C)) / (2 * A)) in *.
    destruct (in01 r1) eqn:E1; destruct (in01 r2) eqn:E2;
      rewrite ?in01_R, ?in01_R_false in *; cbn in *; try lra.
    destruct H as [H|H]; [|lia].
    assert (0 < sqrt (B * B - 4 * A * C)) by (apply sqrt_lt_R0; auto).
    assert (r1 < r2); [|lra].
    unfold r1, r2. set (s := sqrt _) in *.
    replace ((- B + s) / (2 * A)) with ((- B - s) / (2 * A) + s * / A) by (field; lra).
    assert (/ A < 0) by (apply Rinv_lt_0_compat; auto).
    assert (0 < s * - / A) by (apply Rmult_lt_0_compat; lra). lra.
Qed.

Lemma C11_partial_lemma (z : bezier R) : regular_axis vy z ->
  vy (dcoefA z) < 0 \/ (length (split_y z) <= 1)%nat ->
  Forall (fun p => monotone01 (y_of p)) (y_pieces z).
Proof. intros HR H. apply C11_sorted_lemma; auto. apply split_y_sorted; auto. Qed.

(** A cubic whose two cut parameters come out as 3/4, 1/4. *)
Definition C11_witness : bezier R := Bez (V2 0 0) (V2 0 3) (V2 0 (-2)) (V2 0 1).
Lemma C11_witness_split : split_y C11_witness = [3/4; 1/4].
Proof.
  unfold split_y, C11_witness. rn.
  replace (is_zero _) with false.
  2: { symmetry. apply is_zero_R_false. right. lra. }
  replace ((0 * 6 - 3 * 12 + -2 * 6) * (0 * 6 - 3 * 12 + -2 * 6) - 4 * (1 * 3 - -2 * 9 + 3 * 9 - 0 * 3) * ((3 - 0) * 3)) with (24 * 24) by lra.
  replace (Rltb 0 (24 * 24)) with true by (symmetry; apply Rltb_true; lra).
  rewrite sqrt_square by lra.
  match goal with |- context [in01 ?x] => replace x with (3/4) by lra end.
  replace (in01 (3/4)) with true by (symmetry; apply in01_R; lra).
  match goal with |- context [if in01 ?x then [?x] else []] => replace x with (1/4) by lra end.
  replace (in01 (1/4)) with true by (symmetry; apply in01_R; lra).
  reflexivity.
Qed.

Lemma C11_refuted_piece :
  exists p, In p (bsplit_many C11_witness (split_y C11_witness)) /\ ~ monotone01 (y_of p).
Proof.
  rewrite C11_witness_split. unfold bsplit_many. cbn [split_loop]. rops.
  match goal with |- context [bsplit C11_witness ?t] => replace t with (3/4) by lra end.
  pose proof (C09_lemma C11_witness (3/4)) as HS.
  destruct (bsplit C11_witness (3 / 4)) as [l r]. destruct HS as (HT & _).
  exists l. split.
  { destruct (bsplit r _). left; auto. }
  assert (E : forall s, y_of l s = bern 0 3 (-2) 1 (3/4 * s)).
  { intros s. unfold y_of. rewrite HT. cbn. f_equal. lra. }
  intros [H|H].
  + specialize (H (1/3) 1 ltac:(lra) ltac:(lra) ltac:(lra)). rewrite !E in H. unfold bern in H. lra.
  + specialize (H 0 (1/3) ltac:(lra) ltac:(lra) ltac:(lra)). rewrite !E in H. unfold bern in H. lra.
Qed.
