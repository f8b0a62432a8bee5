(** Turning modelled arithmetic over R into plain real arithmetic. *)
From Coq Require Import ZArith Bool List Reals Lra.
From Verif Require Import Outcome Num Rmath.
Local Open Scope R_scope.

Ltac rn_all := cbv [vadd vadds vneg vsub vsubs vmul vdiv smul vdot vcross vdist2
  coef1 coef2 coef3 dcoefA dcoefB dcoefC
  n_ofZ n_add n_sub n_mul n_div n_neg n_abs n_ltb n_leb n_eqb n_isfinite n_signbit
  n_huge n_sqrt n_cbrt n_pow n_remainder n_cos n_sin n_atan n_atan2 R_num
  vx vy b0 b1 b2 b3 ip it0 it1 rmin rmax] in *.
Ltac rn := cbv [vadd vadds vneg vsub vsubs vmul vdiv smul vdot vcross vdist2
  coef1 coef2 coef3 dcoefA dcoefB dcoefC
  n_ofZ n_add n_sub n_mul n_div n_neg n_abs n_ltb n_leb n_eqb n_isfinite n_signbit
  n_huge n_sqrt n_cbrt n_pow n_remainder n_cos n_sin n_atan n_atan2 R_num
  vx vy b0 b1 b2 b3 ip it0 it1 rmin rmax].
(** Class projections only. *)
Ltac rops := cbn [n_ofZ n_add n_sub n_mul n_div n_neg n_abs n_ltb n_leb n_eqb n_isfinite n_signbit
  n_huge n_sqrt n_cbrt n_pow n_remainder n_cos n_sin n_atan n_atan2 R_num] in *.

(** Boolean comparisons over R to propositions, in all hypotheses. *)
Ltac rbool := repeat match goal with
  | h : Rltb _ _ = true |- _ => apply Rltb_true in h
  | h : Rltb _ _ = false |- _ => apply Rltb_false in h
  | h : Rleb _ _ = true |- _ => apply Rleb_true in h
  | h : Rleb _ _ = false |- _ => apply Rleb_false in h
  | h : Reqb _ _ = true |- _ => apply Reqb_true in h
  | h : Reqb _ _ = false |- _ => apply Reqb_false in h
  | h : andb _ _ = true |- _ => apply andb_prop in h; destruct h
  | h : negb _ = true |- _ => apply negb_true_iff in h
  | h : negb _ = false |- _ => apply negb_false_iff in h
  | h : orb _ _ = false |- _ => apply orb_false_iff in h; destruct h
  end.

Lemma vec_eq {T} (a b : vec2 T) : vx a = vx b -> vy a = vy b -> a = b.
Proof. destruct a, b; simpl; congruence. Qed.

Lemma is_zero_R v : is_zero (T := R) v = true <-> - / 100000000 < v < / 100000000.
Proof.
  unfold is_zero, err8. rops. rewrite andb_true_iff, !Rltb_true. split; intros; lra.
Qed.
Lemma is_zero_R_false v : is_zero (T := R) v = false <-> v <= - / 100000000 \/ / 100000000 <= v.
Proof.
  destruct (is_zero v) eqn:E.
  - apply is_zero_R in E. split; [discriminate|lra].
  - split; auto. intros _.
    destruct (Rle_dec v (- / 100000000)); auto. destruct (Rle_dec (/ 100000000) v); auto.
    assert (is_zero v = true) by (apply is_zero_R; lra). congruence.
Qed.
Lemma is_zero_R0 : is_zero (T := R) 0 = true.
Proof. apply is_zero_R; lra. Qed.

(** Linear consequences of a disequality. *)
Ltac ne := let Z := fresh "Z" in intros Z;
  match goal with h : ?a <> ?b |- _ => apply h; clear h; lra end.
