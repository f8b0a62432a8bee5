(** The quadratic and cubic solvers over the reals. *)
From Coq Require Import ZArith Bool List Reals Lra Lia Psatz.
From Verif Require Import Outcome Num Rmath RTac EquationSpec BezierSpec BezierR MonotoneR.
Import ListNotations.
Local Open Scope R_scope.

(** Never more than the room in the result, any arithmetic *)
Lemma quad_length {T} {N : Num T} (a b c : T) : (length (resolv_quad_equa a b c) <= 2)%nat.
Proof. unfold resolv_quad_equa. repeat match goal with |- context [if ?c then _ else _] => destruct c end; cbn; lia. Qed.
Lemma cubic_length {T} {N : Num T} (a b c d : T) : (length (resolv_cubic_equa a b c d) <= 3)%nat.
Proof.
  unfold resolv_cubic_equa. pose proof (quad_length b c d). destruct (is_zero a); [lia|].
  match goal with |- context [if ?c then _ else _] => destruct c end.
  - match goal with |- context [if ?c then _ else _] => destruct c end; cbn; lia.
  - match goal with |- context [if ?c then _ else _] => destruct c end; cbn; lia.
Qed.

(** Coefficients the tolerance test classifies correctly. *)
Definition quad_regular (a b c : R) : Prop :=
  exact_zero a /\ (a = 0 -> exact_zero b) /\ (a <> 0 -> exact_zero (b * b - 4 * a * c)) /\
  ~ (a = 0 /\ b = 0 /\ c = 0).

Lemma C13_lemma (a b c : R) : quad_regular a b c ->
  solves (quad a b c) (resolv_quad_equa a b c).
Proof.
  intros (Ha & Hb & Hk & Hne). unfold resolv_quad_equa, solves, quad. rops.
  destruct (is_zero a) eqn:Ea.
  - specialize (Ha Ea). specialize (Hb Ha).
    destruct (is_zero b) eqn:Eb.
    + specialize (Hb Eb). split; [constructor|]. intros x. split; [contradiction|].
      intros E. apply Hne. rewrite Ha, Hb in *. repeat split. lra.
    + assert (b <> 0) by (intros ->; rewrite is_zero_R0 in Eb; discriminate).
      split; [repeat constructor; auto|]. intros x. cbn. rewrite Ha. split.
      * intros [<-|[]]. field; auto.
      * intros E. left. apply (Rmult_eq_reg_r b); auto. field_simplify; auto. lra.
  - assert (Ha0 : a <> 0) by (intros ->; rewrite is_zero_R0 in Ea; discriminate).
    specialize (Hk Ha0). set (k := b * b - 4 * a * c) in *.
    assert (SQ : forall x, 4 * a * (a * x ^ 2 + b * x + c) = (2 * a * x + b) ^ 2 - k) by (intros; unfold k; ring).
    assert (RT : forall x, a * x ^ 2 + b * x + c = 0 <-> (2 * a * x + b) ^ 2 = k).
    { intros x. specialize (SQ x). split; intros E.
      - rewrite E in SQ. lra.
      - rewrite E in SQ. apply (Rmult_eq_reg_l (4 * a)); [lra|]. intros Z. apply Ha0. lra. }
    destruct (is_zero k) eqn:Ek.
    + specialize (Hk Ek). split; [repeat constructor; auto|]. intros x. rewrite RT, Hk. cbn. split.
      * intros [<-|[]]. field; auto.
      * intros E. left. assert (2 * a * x + b = 0).
        { replace ((2 * a * x + b) * ((2 * a * x + b) * 1)) with (Rsqr (2 * a * x + b)) in E by (unfold Rsqr; ring).
          apply Rsqr_0_uniq; auto. }
        apply (Rmult_eq_reg_l (2 * a)); [|lra]. field_simplify; auto. lra.
    + destruct (Rltb 0 k) eqn:Ek2; rbool.
      * assert (Hs : sqrt k * sqrt k = k) by (apply sqrt_sqrt; lra).
        assert (Hsp : 0 < sqrt k) by (apply sqrt_lt_R0; auto).
        split.
        { repeat constructor; auto. cbn. intros [E|[]].
          assert (K : forall u v : R, u / (2 * a) = v / (2 * a) -> u = v).
          { intros u v Q. apply (Rmult_eq_reg_r (/ (2 * a))); auto. apply Rinv_neq_0_compat. lra. }
          apply K in E. lra. }
        intros x. rewrite RT. cbn. split.
        { intros [<-|[<-|[]]].
          - transitivity (sqrt k * sqrt k); [field; auto|auto].
          - transitivity (sqrt k * sqrt k); [field; auto|auto]. }
        intros E.
        assert (Z : (2 * a * x + b - sqrt k) * (2 * a * x + b + sqrt k) = 0).
        { transitivity ((2 * a * x + b) * ((2 * a * x + b) * 1) - sqrt k * sqrt k); [ring|]. rewrite E, Hs; ring. }
        apply Rmult_integral in Z as [Z|Z].
        { left. apply (Rmult_eq_reg_l (2 * a)); [|lra]. transitivity (- b + sqrt k); [field; auto|lra]. }
        { right; left. apply (Rmult_eq_reg_l (2 * a)); [|lra]. transitivity (- b - sqrt k); [field; auto|lra]. }
      * assert (k <> 0) by (intros Z; rewrite Z, is_zero_R0 in Ek; discriminate).
        split; [constructor|]. intros x. rewrite RT. split; [contradiction|].
        intros E. pose proof (pow2_ge_0 (2 * a * x + b)). lra.
Qed.

(** In the tolerance band of the discriminant the one value returned is not a
    root, but the residual is known. *)
Lemma C13_band_lemma (a b c : R) : is_zero a = false -> is_zero (b * b - 4 * a * c) = true ->
  exists x, resolv_quad_equa a b c = [x] /\ quad a b c x = - (b * b - 4 * a * c) / (4 * a).
Proof.
  intros Ea Ek. unfold resolv_quad_equa. rops. rewrite Ea, Ek.
  assert (Ha0 : a <> 0) by (intros ->; rewrite is_zero_R0 in Ea; discriminate).
  eexists. split; [reflexivity|]. unfold quad. field; auto.
Qed.

Lemma C13_band_refuted_lemma : exists a b c x : R, quad a b c x = 0 /\ a <> 0 /\
  resolv_quad_equa a b c = [].
Proof.
  exists (/ 1000000000), 0, (- / 1000000000), 1. split; [unfold quad; lra|split; [lra|]].
  unfold resolv_quad_equa.
  replace (is_zero (/ 1000000000)) with true by (symmetry; apply is_zero_R; lra).
  rewrite is_zero_R0. reflexivity.
Qed.

(* ---------------------------------------------------------------- *)
(** ** Cube root *)

Lemma Rcbrt_cube x : (Rcbrt x) ^ 3 = x.
Proof.
  assert (P : forall y, 0 < y -> Rpower y (1/3) ^ 3 = y).
  { intros y Hy. rewrite <- Rpower_pow by apply exp_pos.
    rewrite Rpower_mult. replace (1/3 * INR 3) with 1 by (cbn; field). apply Rpower_1; auto. }
  unfold Rcbrt. destruct (Rlt_dec x 0).
  - replace ((- Rpower (- x) (1/3)) ^ 3) with (- (Rpower (- x) (1/3) ^ 3)) by ring.
    rewrite P by lra. lra.
  - destruct (Req_EM_T x 0); [subst; ring|]. apply P. lra.
Qed.

Lemma cube_inj x y : x ^ 3 = y ^ 3 -> x = y.
Proof.
  intros E. assert (Z : (x - y) * (x ^ 2 + x * y + y ^ 2) = 0) by (ring_simplify; lra).
  apply Rmult_integral in Z as [Z|Z]; [lra|].
  assert (Q : (x + y / 2) ^ 2 + 3 * (y / 2) ^ 2 = 0) by lra.
  pose proof (pow2_ge_0 (x + y / 2)). pose proof (pow2_ge_0 (y / 2)).
  assert (y = 0).
  { assert (Rsqr (y / 2) = 0) by (unfold Rsqr; lra). apply Rsqr_0_uniq in H1. lra. }
  subst y. assert (Rsqr x = 0) by (unfold Rsqr; lra). apply Rsqr_0_uniq in H1. lra.
Qed.

Lemma Rcbrt_unique x y : y ^ 3 = x -> Rcbrt x = y.
Proof. intros E. apply cube_inj. rewrite Rcbrt_cube; auto. Qed.

(* ---------------------------------------------------------------- *)
(** ** The cubic *)

Section Depressed.
  Variables p q : R.
  Let k := (q / 2) ^ 2 + (p / 3) ^ 3.

  (** one real root *)
  Lemma dep_one (v : R) : 0 < k -> v <> 0 -> v ^ 3 = - q / 2 + sqrt k ->
    forall t, t ^ 3 + p * t + q = 0 <-> t = v + - p / (3 * v).
  Proof.
    intros Hk Hv Ev. set (w := - p / (3 * v)).
    assert (Evw : 3 * v * w = - p) by (unfold w; field; auto).
    assert (Hs : sqrt k * sqrt k = k) by (apply sqrt_sqrt; lra).
    assert (Hsp : 0 < sqrt k) by (apply sqrt_lt_R0; auto).
    assert (Ew : w ^ 3 = - q / 2 - sqrt k).
    { apply (Rmult_eq_reg_l (v ^ 3)); [|apply pow_nonzero; auto].
      transitivity (- (p / 3) ^ 3).
      - replace (v ^ 3 * w ^ 3) with ((3 * v * w) ^ 3 / 27) by field. rewrite Evw. field.
      - rewrite Ev. transitivity ((q / 2) ^ 2 - sqrt k * sqrt k); [rewrite Hs; unfold k; ring|]. field. }
    assert (F : forall t, t ^ 3 + p * t + q = (t - (v + w)) * (t ^ 2 + (v + w) * t + (v ^ 2 - v * w + w ^ 2))).
    { intros t. transitivity (t ^ 3 - 3 * v * w * t - (v ^ 3 + w ^ 3)); [rewrite Evw, Ev, Ew; field|ring]. }
    intros t. rewrite F. split.
    - intros Z. apply Rmult_integral in Z as [Z|Z]; [lra|]. exfalso.
      assert (Q : (t + (v + w) / 2) ^ 2 + 3 / 4 * (v - w) ^ 2 = 0) by (ring_simplify; ring_simplify in Z; lra).
      pose proof (pow2_ge_0 (t + (v + w) / 2)). pose proof (pow2_ge_0 (v - w)).
      assert (Rsqr (v - w) = 0) by (unfold Rsqr; lra). apply Rsqr_0_uniq in H1.
      assert (v = w) by lra. rewrite <- H2 in Ew. lra.
    - intros ->. ring.
  Qed.

  (** double root *)
  Lemma dep_two (v : R) : k = 0 -> v ^ 3 = - q / 2 ->
    forall t, t ^ 3 + p * t + q = 0 <-> t = 2 * v \/ t = - v.
  Proof.
    intros Hk Ev.
    assert (Ep : p = - 3 * v ^ 2).
    { assert ((p / 3) ^ 3 = (- v ^ 2) ^ 3).
      { replace ((- v ^ 2) ^ 3) with (- (v ^ 3) ^ 2) by ring. rewrite Ev. unfold k in Hk. lra. }
      apply cube_inj in H. lra. }
    assert (Eq : q = - 2 * v ^ 3) by lra.
    intros t. rewrite Ep, Eq.
    replace (t ^ 3 + -3 * v ^ 2 * t + -2 * v ^ 3) with ((t - 2 * v) * ((t + v) * (t + v))) by ring.
    split.
    - intros Z. apply Rmult_integral in Z as [Z|Z]; [left; lra|].
      apply Rmult_integral in Z as [Z|Z]; right; lra.
    - intros [->| ->]; ring.
  Qed.

  (** three real roots *)
  Lemma dep_three (s th : R) : 0 < s -> s ^ 2 = - p / 3 -> cos (3 * th) * (2 * s ^ 3) = - q ->
    forall t, t ^ 3 + p * t + q =
      (t - 2 * s * cos th) * (t - 2 * s * cos (th + 2 * PI / 3)) * (t - 2 * s * cos (th + 4 * PI / 3)).
  Proof.
    intros Hs Es Ec t.
    assert (E1 : cos (th + 2 * PI / 3) = - cos th / 2 - sqrt 3 / 2 * sin th).
    { rewrite cos_plus. replace (2 * PI / 3) with (2 * (PI / 3)) by field.
      rewrite cos_2PI3, sin_2PI3. field. }
    assert (E2 : cos (th + 4 * PI / 3) = - cos th / 2 + sqrt 3 / 2 * sin th).
    { replace (th + 4 * PI / 3) with ((th - 2 * PI / 3) + 2 * PI) by field.
      rewrite cos_plus, cos_2PI, sin_2PI. rewrite cos_minus.
      replace (2 * PI / 3) with (2 * (PI / 3)) by field. rewrite cos_2PI3, sin_2PI3. field. }
    rewrite E1, E2.
    assert (E3 : cos (3 * th) = 4 * cos th ^ 3 - 3 * cos th).
    { replace (3 * th) with (2 * th + th) by ring. rewrite cos_plus, cos_2a, sin_2a.
      pose proof (sin2_cos2 th) as SC. unfold Rsqr in SC.
      replace (2 * sin th * cos th * sin th) with (2 * (sin th * sin th) * cos th) by ring.
      replace (sin th * sin th) with (1 - cos th * cos th) by lra. ring. }
    pose proof (sin2_cos2 th) as SC. unfold Rsqr in SC.
    assert (S3 : sqrt 3 * sqrt 3 = 3) by (apply sqrt_sqrt; lra).
    set (c := cos th) in *. set (z := sin th) in *. set (w := sqrt 3) in *.
    assert (Ep : p = - 3 * s ^ 2) by lra.
    assert (Eq : q = - (4 * c ^ 3 - 3 * c) * (2 * s ^ 3)) by (rewrite <- E3; lra).
    rewrite Ep, Eq.
    transitivity ((t - 2 * s * c) * (t ^ 2 + 2 * s * c * t + s ^ 2 * (c * c - w * w * (z * z)))).
    2: { field. }
    rewrite S3. replace (z * z) with (1 - c * c) by lra. ring.
  Qed.
End Depressed.

(** Quantities the solver computes on the way. *)

Lemma depress a b c x :
  x ^ 3 + a * x ^ 2 + b * x + c = (x + a / 3) ^ 3 + dep_p a b * (x + a / 3) + dep_q a b c.
Proof. unfold dep_p, dep_q. field. Qed.

Lemma cubic_monic a3 a2 a1 a0 x : a3 <> 0 -> cubic a3 a2 a1 a0 x = 0 <->
  (x + a2 / a3 / 3) ^ 3 + dep_p (a2 / a3) (a1 / a3) * (x + a2 / a3 / 3) + dep_q (a2 / a3) (a1 / a3) (a0 / a3) = 0.
Proof.
  intros H. rewrite <- depress. unfold cubic.
  assert (E : a3 * x ^ 3 + a2 * x ^ 2 + a1 * x + a0 = a3 * (x ^ 3 + a2 / a3 * x ^ 2 + a1 / a3 * x + a0 / a3)) by (field; auto).
  rewrite E. split; intros Z.
  - apply Rmult_integral in Z as [Z|Z]; [contradiction|auto].
  - rewrite Z; ring.
Qed.

Lemma sq_pow x : powerRZ x 2 = x ^ 2.
Proof. reflexivity. Qed.
Lemma cb_pow x : powerRZ x 3 = x ^ 3.
Proof. reflexivity. Qed.

(** Tolerance conditions under which the cubic solver is exact. *)
Definition cubic_regular (a3 a2 a1 a0 : R) : Prop :=
  exact_zero a3 /\
  (a3 = 0 -> quad_regular a2 a1 a0) /\
  (a3 <> 0 ->
     let p := dep_p (a2 / a3) (a1 / a3) in
     let q := dep_q (a2 / a3) (a1 / a3) (a0 / a3) in
     exact_zero (dep_k p q) /\
     (dep_k p q = 0 -> exact_zero (Rcbrt (- q / 2))) /\
     (0 < dep_k p q -> p <> 0 \/ q < 0)).

Definition one_root (a3 a2 a1 a0 : R) : Prop :=
  a3 = 0 \/ 0 <= dep_k (dep_p (a2 / a3) (a1 / a3)) (dep_q (a2 / a3) (a1 / a3) (a0 / a3)).

(** At most two distinct real roots: exact. *)
Lemma C14_lemma (a3 a2 a1 a0 : R) : cubic_regular a3 a2 a1 a0 -> one_root a3 a2 a1 a0 ->
  solves (cubic a3 a2 a1 a0) (resolv_cubic_equa a3 a2 a1 a0).
Proof.
  intros (H3 & Hq & Hc) H1. unfold resolv_cubic_equa.
  destruct (is_zero a3) eqn:E3.
  - specialize (H3 E3). destruct (C13_lemma a2 a1 a0 (Hq H3)) as [ND H].
    split; auto. intros x. rewrite H. unfold quad, cubic. rewrite H3.
    replace (0 * x ^ 3 + a2 * x ^ 2 + a1 * x + a0) with (a2 * x ^ 2 + a1 * x + a0) by ring. tauto.
  - assert (Ha : a3 <> 0) by (intros ->; rewrite is_zero_R0 in E3; discriminate).
    specialize (Hc Ha). destruct H1 as [H1|H1]; [contradiction|]. rops.
    rewrite sq_pow, cb_pow. cbv zeta in Hc.
    set (a := a2 / a3) in *. set (b := a1 / a3) in *. set (c := a0 / a3) in *.
    fold (dep_p a b). fold (dep_q a b c).
    set (p := dep_p a b) in *. set (q := dep_q a b c) in *. fold (dep_k p q).
    destruct Hc as (Hk & Hv & Hpos).
    assert (R : forall x, cubic a3 a2 a1 a0 x = 0 <-> (x + a / 3) ^ 3 + p * (x + a / 3) + q = 0)
      by (intros; apply cubic_monic; auto).
    destruct (is_zero (dep_k p q)) eqn:Ek.
    + specialize (Hk Ek). specialize (Hv Hk).
      pose proof (Rcbrt_cube (- q / 2)) as Ev. set (v := Rcbrt (- q / 2)) in *.
      pose proof (dep_two p q v Hk Ev) as D.
      destruct (is_zero v) eqn:Ez.
      * specialize (Hv Ez). split; [repeat constructor; auto|]. intros x. rewrite R, D. cbn. rewrite Hv.
        split; [intros [<-|[]]; right; lra|intros [|]; left; lra].
      * assert (v <> 0) by (intros Z; rewrite Z, is_zero_R0 in Ez; discriminate).
        split.
        { repeat constructor; auto. cbn. intros [E|[]]. apply H. lra. }
        intros x. rewrite R, D. cbn. split; [intros [<-|[<-|[]]]; [left|right]; lra|intros [|]; [left|right; left]; lra].
    + assert (Hk0 : dep_k p q <> 0) by (intros Z; rewrite Z, is_zero_R0 in Ek; discriminate).
      assert (Hkp : 0 < dep_k p q) by lra.
      replace (Rltb 0 (dep_k p q)) with true by (symmetry; apply Rltb_true; auto).
      pose proof (Rcbrt_cube (- q / 2 + sqrt (dep_k p q))) as Ev.
      set (v := Rcbrt (- q / 2 + sqrt (dep_k p q))) in *.
      assert (v <> 0).
      { intros Z. rewrite Z in Ev. assert (Es : sqrt (dep_k p q) = q / 2) by lra.
        assert (sqrt (dep_k p q) * sqrt (dep_k p q) = dep_k p q) by (apply sqrt_sqrt; lra).
        rewrite Es in H. unfold dep_k in H.
        assert ((p / 3) ^ 3 = 0 ^ 3) by lra. apply cube_inj in H0.
        assert (0 < sqrt (dep_k p q)) by (apply sqrt_lt_R0; auto).
        destruct (Hpos Hkp); lra. }
      pose proof (dep_one p q v Hkp H Ev) as D.
      split; [repeat constructor; auto|]. intros x. rewrite R, D. cbn.
      split; [intros [<-|[]]; lra|intros; left; lra].
Qed.

(** Three distinct real roots: the solver returns approximations. *)
Lemma PI_bounds : 31415926535 / 10000000000 <= PI <= 31415926536 / 10000000000.
Proof.
  pose proof (Machin.PI_2_3_7_ineq 5) as [L _]. pose proof (Machin.PI_2_3_7_ineq 6) as [_ U].
  cbn [Nat.mul Nat.add] in *. 
  unfold tg_alt, Machin.PI_2_3_7_tg, Ratan_seq in *. cbn [sum_f_R0 Nat.mul Nat.add] in *.
  cbn [INR pow] in *. split; lra.
Qed.

Lemma cos_close u v d : u <= v -> v - u <= d -> d <= 1 -> Rabs (cos u - cos v) <= d.
Proof.
  intros H1 H2 H3. rewrite form2.
  assert (E : sin ((u - v) / 2) = - sin ((v - u) / 2)).
  { rewrite <- sin_neg. f_equal. field. }
  rewrite E.
  assert (B : 0 <= sin ((v - u) / 2) <= (v - u) / 2).
  { destruct (Req_dec u v) as [->|N].
    - replace ((v - v) / 2) with 0 by field. rewrite sin_0. lra.
    - split; [|left; apply sin_lt_x; lra].
      apply sin_ge_0; [lra|]. pose proof PI_bounds. lra. }
  pose proof (SIN_bound ((u + v) / 2)) as S.
  set (x := sin ((v - u) / 2)) in *. set (y := sin ((u + v) / 2)) in *.
  replace (-2 * - x * y) with (2 * x * y) by ring.
  apply Rabs_le. split; nra.
Qed.

(** [x] approximates [r]; the tolerance is relative to the spread of the roots. *)

Lemma spread (s c z : R) : 0 < s -> c * c + z * z = 1 ->
  let r0 := 2 * s * c in
  let r1 := 2 * s * (- c / 2 - sqrt 3 / 2 * z) in
  let r2 := 2 * s * (- c / 2 + sqrt 3 / 2 * z) in
  8 / 3 * s <= Rabs (r0 - r1) + Rabs (r1 - r2) + Rabs (r2 - r0).
Proof.
  intros Hs E r0 r1 r2.
  assert (S3 : sqrt 3 * sqrt 3 = 3) by (apply sqrt_sqrt; lra).
  assert (Q : (r0 - r1) ^ 2 + (r1 - r2) ^ 2 + (r2 - r0) ^ 2 = 18 * s ^ 2).
  { unfold r0, r1, r2. set (w := sqrt 3) in *.
    transitivity (s * s * (18 * (c * c) + 6 * (w * w) * (z * z))); [field|].
    rewrite S3. replace (z * z) with (1 - c * c) by lra. ring. }
  rewrite <- (pow2_abs (r0 - r1)), <- (pow2_abs (r1 - r2)), <- (pow2_abs (r2 - r0)) in Q.
  pose proof (Rabs_pos (r0 - r1)). pose proof (Rabs_pos (r1 - r2)). pose proof (Rabs_pos (r2 - r0)).
  set (A := Rabs (r0 - r1)) in *. set (B := Rabs (r1 - r2)) in *. set (C := Rabs (r2 - r0)) in *.
  clearbody A B C. clear - Hs Q H H0 H1.
  destruct (Rle_dec (8 / 3 * s) (A + B + C)); auto. exfalso.
  assert ((A + B + C) * (A + B + C) <= 8 / 3 * s * (8 / 3 * s)) by (apply Rmult_le_compat; lra).
  assert (0 <= A * B) by (apply Rmult_le_pos; auto). assert (0 <= B * C) by (apply Rmult_le_pos; auto).
  assert (0 <= A * C) by (apply Rmult_le_pos; auto).
  assert (0 < s * s) by (apply Rmult_lt_0_compat; auto). lra.
Qed.

Lemma C14_three_lemma (a3 a2 a1 a0 : R) : is_zero a3 = false ->
  let p := dep_p (a2 / a3) (a1 / a3) in
  let q := dep_q (a2 / a3) (a1 / a3) (a0 / a3) in
  dep_k p q <= - / 100000000 -> q <> 0 ->
  exists x0 x1 x2 r0 r1 r2,
    resolv_cubic_equa a3 a2 a1 a0 = [x0; x1; x2] /\
    (forall x, cubic a3 a2 a1 a0 x = a3 * (x - r0) * (x - r1) * (x - r2)) /\
    x0 = r0 /\ near x1 r1 r0 r1 r2 /\ near x2 r2 r0 r1 r2.
Proof.
  intros E3 p q Hk Hq.
  assert (Ha : a3 <> 0) by (intros ->; rewrite is_zero_R0 in E3; discriminate).
  unfold resolv_cubic_equa. rewrite E3. rops. rewrite sq_pow, cb_pow.
  set (a := a2 / a3) in *. set (b := a1 / a3) in *. set (c := a0 / a3) in *.
  fold (dep_p a b). fold (dep_q a b c). fold p q. fold (dep_k p q).
  replace (is_zero (dep_k p q)) with false by (symmetry; apply is_zero_R_false; lra).
  replace (Rltb 0 (dep_k p q)) with false by (symmetry; apply Rltb_false; lra).
  set (k := dep_k p q) in *.
  set (T := -2 * sqrt (- k) / q). set (phi := atan T).
  set (r := sqrt (q * q / 4 - k)).
  assert (Er : q * q / 4 - k = - (p / 3) ^ 3) by (unfold k, dep_k; field).
  assert (Hp : 0 < - p / 3).
  { destruct (Rlt_dec 0 (- p / 3)); auto. exfalso.
    assert (0 <= (p / 3) ^ 3) by (apply pow_le; lra).
    pose proof (pow2_ge_0 (q / 2)). unfold k, dep_k in Hk. lra. }
  set (s := sqrt (- p / 3)).
  assert (Hs : 0 < s) by (apply sqrt_lt_R0; auto).
  assert (Es : s * s = - p / 3) by (apply sqrt_sqrt; lra).
  assert (Ers : r = s ^ 3).
  { unfold r. rewrite Er. replace (- (p / 3) ^ 3) with (s ^ 3 * s ^ 3).
    - apply sqrt_square. apply pow_le; lra.
    - transitivity ((s * s) ^ 3); [ring|]. rewrite Es. field. }
  replace (Rcbrt r) with s by (symmetry; apply Rcbrt_unique; auto).
  assert (Hr : 0 < r) by (rewrite Ers; apply pow_lt; auto).
  assert (Err : r * r = q * q / 4 - k).
  { apply sqrt_sqrt. rewrite Er. replace (- (p / 3) ^ 3) with ((- p / 3) ^ 3) by field.
    apply pow_le; lra. }
  (* cos phi = |q| / (2 r) *)
  assert (Ecos : cos phi = Rabs q / (2 * r)).
  { unfold phi. rewrite cos_atan.
    assert (Eq2 : 1 + T² = (2 * r / Rabs q) * (2 * r / Rabs q)).
    { assert (Hss : sqrt (- k) * sqrt (- k) = - k) by (apply sqrt_sqrt; lra).
      assert (Rabs q * Rabs q = q * q) by (rewrite <- Rabs_mult; apply Rabs_pos_eq; apply (Rle_0_sqr q)).
      assert (Rabs q <> 0) by (apply Rabs_no_R0; auto).
      transitivity (4 * (r * r) / (Rabs q * Rabs q)); [|field; auto].
      rewrite Err, H. unfold T, Rsqr.
      transitivity (1 + 4 * (sqrt (- k) * sqrt (- k)) / (q * q)); [field; auto|]. rewrite Hss. field; auto. }
    assert (0 < Rabs q) by (apply Rabs_pos_lt; auto).
    rewrite Eq2. rewrite sqrt_square.
    - field. split; lra.
    - apply Rmult_le_pos; [lra|]. left. apply Rinv_0_lt_compat; auto. }
  set (m := if Rltb T 0 then -1 else 1).
  assert (Hm : m * Rabs q = - q /\ m * m = 1).
  { assert (0 < sqrt (- k)) by (apply sqrt_lt_R0; lra).
    unfold m. destruct (Rltb T 0) eqn:ET; rbool; unfold T in ET.
    - destruct (Rlt_dec 0 q) as [Q|Q]; [rewrite Rabs_pos_eq; lra|]. exfalso.
      assert (0 < -2 * sqrt (- k) / q); [|lra].
      replace (-2 * sqrt (- k) / q) with (2 * sqrt (- k) * / - q) by (field; auto).
      apply Rmult_lt_0_compat; [lra|]. apply Rinv_0_lt_compat; lra.
    - destruct (Rlt_dec q 0) as [Q|Q]; [rewrite Rabs_left; lra|]. exfalso.
      assert (0 < 2 * sqrt (- k) * / q).
      { apply Rmult_lt_0_compat; [lra|]. apply Rinv_0_lt_compat; lra. }
      unfold Rdiv in ET. lra. }
  destruct Hm as [Hm Hmm].
  assert (Ec3 : cos (3 * (phi / 3)) * (2 * s ^ 3) = - (m * q)).
  { replace (3 * (phi / 3)) with phi by field. rewrite Ecos, <- Ers.
    replace (Rabs q / (2 * r) * (2 * r)) with (Rabs q) by (field; lra).
    transitivity (m * m * Rabs q); [rewrite Hmm; ring|]. rewrite Rmult_assoc, Hm. ring. }
  pose proof (dep_three p (m * q) s (phi / 3) Hs) as D.
  specialize (D ltac:(rewrite <- Es; ring) Ec3).
  set (th := phi / 3) in *.
  set (t0 := 2 * s * cos th) in *. set (t1 := 2 * s * cos (th + 2 * PI / 3)) in *.
  set (t2 := 2 * s * cos (th + 4 * PI / 3)) in *.
  assert (Hm1 : m = 1 \/ m = -1) by (unfold m; destruct (Rltb T 0); auto).
  clearbody m.
  eexists _, _, _, (m * t0 - a / 3), (m * t1 - a / 3), (m * t2 - a / 3).
  split; [reflexivity|].
  assert (SP : 8 / 3 * s <= Rabs (m * t0 - a / 3 - (m * t1 - a / 3)) + Rabs (m * t1 - a / 3 - (m * t2 - a / 3)) +
     Rabs (m * t2 - a / 3 - (m * t0 - a / 3))).
  { assert (AM : forall u v, Rabs (m * u - a / 3 - (m * v - a / 3)) = Rabs (u - v)).
    { intros u v. replace (m * u - a / 3 - (m * v - a / 3)) with (m * (u - v)) by ring.
      rewrite Rabs_mult. destruct Hm1 as [->| ->]; rewrite ?Rabs_R1, ?(Rabs_left (-1)) by lra; ring. }
    rewrite !AM.
    pose proof (sin2_cos2 th) as SC. unfold Rsqr in SC.
    pose proof (spread s (cos th) (sin th) Hs ltac:(lra)) as SP. cbv zeta in SP.
    replace t1 with (2 * s * (- cos th / 2 - sqrt 3 / 2 * sin th)).
    2: { unfold t1. f_equal. rewrite cos_plus. replace (2 * PI / 3) with (2 * (PI / 3)) by field.
         rewrite cos_2PI3, sin_2PI3. field. }
    replace t2 with (2 * s * (- cos th / 2 + sqrt 3 / 2 * sin th)); auto.
    unfold t2. f_equal. replace (th + 4 * PI / 3) with ((th - 2 * PI / 3) + 2 * PI) by field.
    rewrite cos_plus, cos_2PI, sin_2PI, cos_minus.
    replace (2 * PI / 3) with (2 * (PI / 3)) by field. rewrite cos_2PI3, sin_2PI3. field. }
  assert (NR : forall u v d, u <= v -> v - u <= d -> d <= 4 / 3 * / 10000000000 ->
     Rabs (m * (2 * s) * cos u - a / 3 - (m * (2 * s * cos v) - a / 3)) <= / 10000000000 * (8 / 3 * s)).
  { intros u v d H1 H2 H3. pose proof (cos_close u v d H1 H2 ltac:(lra)) as CC.
    replace (m * (2 * s) * cos u - a / 3 - (m * (2 * s * cos v) - a / 3)) with
      (m * ((2 * s) * (cos u - cos v))) by ring.
    rewrite Rabs_mult, Rabs_mult, (Rabs_pos_eq (2 * s)) by lra.
    replace (Rabs m) with 1 by (destruct Hm1 as [->| ->]; [rewrite Rabs_R1|rewrite Rabs_left by lra]; lra).
    rewrite Rmult_1_l. apply Rle_trans with (2 * s * d); [apply Rmult_le_compat_l; lra|].
    apply Rle_trans with (2 * s * (4 / 3 * / 10000000000)); [apply Rmult_le_compat_l; lra|lra]. }
  pose proof PI_bounds as PB.
  split; [|split; [|split]].
  - intros x. unfold cubic.
    assert (M : a3 * x ^ 3 + a2 * x ^ 2 + a1 * x + a0 = a3 * (x ^ 3 + a * x ^ 2 + b * x + c))
      by (unfold a, b, c; field; auto).
    rewrite M, depress. fold p q.
    replace ((x + a / 3) ^ 3 + p * (x + a / 3) + q) with
      (m * ((m * (x + a / 3)) ^ 3 + p * (m * (x + a / 3)) + m * q))
      by (destruct Hm1 as [->| ->]; ring).
    rewrite D. destruct Hm1 as [->| ->]; field.
  - unfold t0. rops. ring.
  - unfold near. eapply Rle_trans; [|apply Rmult_le_compat_l; [lra|exact SP]].
    apply (NR _ _ (2 / 3 * / 10000000000)); unfold pi10, th; rops; lra.
  - unfold near. eapply Rle_trans; [|apply Rmult_le_compat_l; [lra|exact SP]].
    apply (NR _ _ (4 / 3 * / 10000000000)); unfold pi10, th; rops; lra.
Qed.
