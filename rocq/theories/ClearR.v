(** The R lemmas with their tolerance hypotheses in terms of the input. *)
From Coq Require Import ZArith Bool List Reals Lra Lia Psatz.
From Verif Require Import Outcome Num Order Rmath RTac RectSpec BezierSpec BezierR MonotoneR.
From Verif Require Import EquationSpec EquationR LineR.
Import ListNotations.
Local Open Scope R_scope.

Lemma clear_exact v : clear v <-> exact_zero v.
Proof.
  unfold clear, exact_zero. split.
  - intros [E|H] Z; auto. apply is_zero_R in Z. lra.
  - intros H. destruct (is_zero v) eqn:E; auto. apply is_zero_R_false in E. lra.
Qed.

Lemma axis_regular (pick : vec2 R -> R) z : is_coord pick ->
  axis_clear (pick (b0 z)) (pick (b1 z)) (pick (b2 z)) (pick (b3 z)) -> regular_axis pick z.
Proof.
  intros Hc [H1 H2]. unfold regular_axis.
  assert (EA : pick (dcoefA z) = 3 * (pick (b3 z) - 3 * pick (b2 z) + 3 * pick (b1 z) - pick (b0 z)))
    by (destruct Hc as [->| ->]; rn; ring).
  assert (EB : pick (dcoefB z) = 6 * (pick (b0 z) - 2 * pick (b1 z) + pick (b2 z)))
    by (destruct Hc as [->| ->]; rn; ring).
  rewrite EA, EB. split.
  - apply clear_exact; auto.
  - intros E. apply clear_exact, H2. lra.
Qed.
Lemma y_regular z : y_clear z -> regular_axis vy z.
Proof. apply axis_regular; right; auto. Qed.
Lemma x_regular z : x_clear z -> regular_axis vx z.
Proof. apply axis_regular; left; auto. Qed.

(** The y-monotone pieces when cutting at the parameters split_y reports. *)
Lemma C11_clear_lemma (z : bezier R) : y_clear z ->
  vy (b3 z) - 3 * vy (b2 z) + 3 * vy (b1 z) - vy (b0 z) < 0 \/ (length (split_y z) <= 1)%nat ->
  Forall (fun p => monotone01 (fun t => vy (curve p t)))
         (match split_y z with [] => [z] | ts => bsplit_many z ts end).
Proof.
  intros H1 H2. apply C11_partial_lemma; auto using y_regular.
  destruct H2 as [H2|H2]; auto. left.
  rewrite (coord_dA vy z) by (right; auto). lra.
Qed.

Lemma C11_clear_refuted_lemma : exists z : bezier R, y_clear z /\
  exists p, In p (bsplit_many z (split_y z)) /\ ~ monotone01 (fun t => vy (curve p t)).
Proof.
  exists C11_witness. split.
  - unfold y_clear, axis_clear, clear; cbn; split; [right; right|intros]; lra.
  - destruct C11_refuted_piece as (p & Hp & Hm). exists p. split; auto.
Qed.

Lemma C12_clear_lemma (z : bezier R) : finite_bezier z -> x_clear z -> y_clear z ->
  forall t, 0 <= t <= 1 -> inbox (get_boundary z) (curve z t).
Proof. intros. apply C12_lemma; auto using x_regular, y_regular. Qed.

(** Below the tolerance the box is that of the end points. *)
Definition tiny : bezier R := Bez (V2 0 0) (V2 0 (/ 1000000000)) (V2 1 (/ 1000000000)) (V2 1 0).
Lemma tiny_box : vy (rmax (get_boundary tiny)) = 0.
Proof.
  unfold get_boundary. destruct (boundary_axis vx tiny) as [x1 x2].
  assert (E : boundary_axis vy tiny = (0, 0)).
  { unfold boundary_axis, tiny. rn.
    replace (is_zero _) with true by (symmetry; apply is_zero_R; lra).
    replace (is_zero _) with true by (symmetry; apply is_zero_R; lra). reflexivity. }
  rewrite E. unfold rect_from, rect_from_step, n_min, n_max, tiny. rops. cbn.
  assert (HH : - R_huge < 0) by (pose proof R_huge_big; lra).
  repeat (match goal with |- context [Rltb ?a ?b] =>
    first [replace (Rltb a b) with true by (symmetry; apply Rltb_true; lra)
          |replace (Rltb a b) with false by (symmetry; apply Rltb_false; lra)] end; cbn [vx vy rmin rmax]).
  reflexivity.
Qed.
Lemma C12_band_refuted_lemma : exists (z : bezier R) (t : R), finite_bezier z /\ 0 <= t <= 1 /\
  ~ inbox (get_boundary z) (curve z t).
Proof.
  exists tiny, (1/2). split; [|split; [lra|]].
  - unfold finite_bezier. rewrite !finite_R. pose proof R_huge_big. cbn. lra.
  - intros (_ & _ & _ & H). rewrite nle_R, tiny_box in H. cbn in H. unfold bern in H. lra.
Qed.

Lemma C13_clear_lemma (a b c : R) : quad_clear a b c -> solves (quad a b c) (resolv_quad_equa a b c).
Proof.
  intros (H1 & H2 & H3 & H4). apply C13_lemma. unfold quad_regular.
  rewrite <- !clear_exact. tauto.
Qed.

Lemma cubic_clear_regular a3 a2 a1 a0 : cubic_clear a3 a2 a1 a0 -> cubic_regular a3 a2 a1 a0.
Proof.
  intros (H1 & H2 & H3). split; [|split].
  - apply clear_exact; auto.
  - intros Z. destruct (H2 Z) as (K1 & K2 & K3 & K4). unfold quad_regular. rewrite <- !clear_exact. tauto.
  - intros Z. destruct (H3 Z) as (K1 & K2 & K3). split; [|split]; auto.
    + apply clear_exact; auto.
    + intros E. specialize (K2 E). intros V. apply is_zero_R in V.
      pose proof (Rcbrt_cube (- cub_q a3 a2 a1 a0 / 2)) as C.
      fold (cub_q a3 a2 a1 a0) in *. set (q := cub_q a3 a2 a1 a0) in *.
      set (v := Rcbrt (- q / 2)) in *. clearbody v.
      destruct K2 as [K2|K2].
      * rewrite K2 in C. assert (v ^ 3 = 0) by lra.
        destruct (Req_dec v 0) as [|NZ]; auto. elim (pow_nonzero v 3 NZ); auto.
      * exfalso. assert (Rabs v < / 100000000) by (apply Rabs_def1; lra).
        assert (Rabs (v ^ 3) < (/ 100000000) ^ 3).
        { rewrite <- RPow_abs. pose proof (Rabs_pos v). apply Rlt_le_trans with (Rabs v * Rabs v * / 100000000).
          - destruct (Req_dec (Rabs v) 0) as [E0|N0].
            + exfalso. assert (V0 : v = 0) by (destruct (Req_dec v 0) as [|NZ]; auto; elim (Rabs_no_R0 v NZ); auto).
              assert (Q0 : q = 0) by (rewrite V0 in C; lra). rewrite Q0, Rabs_R0 in K2. lra.
            + replace (Rabs v ^ 3) with (Rabs v * Rabs v * Rabs v) by ring.
              apply Rmult_lt_compat_l; auto. apply Rmult_lt_0_compat; lra.
          - replace ((/ 100000000) ^ 3) with (/ 100000000 * / 100000000 * / 100000000) by ring.
            apply Rmult_le_compat_r; [lra|]. apply Rmult_le_compat; lra. }
        rewrite C in H0. replace (- q / 2) with ((- / 2) * q) in H0 by field.
        rewrite Rabs_mult, (Rabs_left (- / 2)) in H0 by lra. lra.
Qed.

Lemma C14_clear_lemma (a3 a2 a1 a0 : R) : cubic_clear a3 a2 a1 a0 ->
  (a3 <> 0 -> 0 <= disc a3 a2 a1 a0) ->
  solves (cubic a3 a2 a1 a0) (resolv_cubic_equa a3 a2 a1 a0).
Proof.
  intros H1 H2. apply C14_lemma; auto using cubic_clear_regular.
  destruct (Req_dec a3 0); [left|right]; auto.
Qed.

Lemma C14_three_clear_lemma (a3 a2 a1 a0 : R) : a3 <> 0 -> clear a3 ->
  disc a3 a2 a1 a0 < 0 -> clear (disc a3 a2 a1 a0) -> cub_q a3 a2 a1 a0 <> 0 ->
  exists x0 x1 x2 r0 r1 r2, resolv_cubic_equa a3 a2 a1 a0 = [x0; x1; x2] /\
    (forall x, cubic a3 a2 a1 a0 x = a3 * (x - r0) * (x - r1) * (x - r2)) /\
    x0 = r0 /\ near x1 r1 r0 r1 r2 /\ near x2 r2 r0 r1 r2.
Proof.
  intros H1 H2 H3 H4 H5. apply C14_three_lemma; auto.
  - apply is_zero_R_false. unfold clear in H2. tauto.
  - unfold clear in H4. unfold disc, cub_p, cub_q in *. lra.
Qed.
