(** Rectangles for the examples beside the theorems on pairs of rectangles. *)
From Coq Require Import ZArith Bool List Reals Lra Permutation Floats.SpecFloat.
From Verif Require Import Outcome Num Rmath RTac Segment Path PathSpec VState VPath VBreak VAel VOut VMain RingSpec ClipSpec BreakSpec ClipCases LineR BoxSpec BoxProofs.
Import ListNotations.

Definition boxR (a b c e : Z) : rect R := Rect (V2 (IZR a) (IZR b)) (V2 (IZR c) (IZR e)).
Lemma moderate_Z z : (Z.abs z <= 1000)%Z -> moderate (IZR z).
Proof.
  intros H. unfold moderate. assert (K : (IZR z < R_huge)%R /\ (IZR (- z) < R_huge)%R); [|rewrite opp_IZR in K; lra].
  assert (B : (1000 < R_huge)%R) by (unfold R_huge; apply IZR_lt; vm_compute; reflexivity).
  split; (eapply Rle_lt_trans; [apply IZR_le|exact B]); apply Z.abs_le in H; destruct H; auto. apply Z.opp_le_mono. now rewrite Z.opp_involutive.
Qed.
(** Two overlapping squares, and a tall box across the bottom of a wide one *)
Definition sqA := boxR 0 0 10 10.
Definition sqB := boxR 5 5 15 15.
Definition wide := boxR 2 3 19 9.
Definition tall := boxR 7 1 8 16.
Ltac boxes := unfold general, a_box, clear_axis, clear_of, sqA, sqB, wide, tall, boxR, x0, x1, y0, y1; cbn [rmin rmax vx vy];
  repeat match goal with |- _ /\ _ => split end; try (apply moderate_Z; vm_compute; discriminate); try lra; unfold Rabs; destruct (Rcase_abs _); lra.
Lemma general_squares : general sqA sqB.
Proof. boxes. Qed.
Lemma general_wide : general wide tall.
Proof. boxes. Qed.
Lemma squares_right op fill : right_on op fill sqA sqB = true.
Proof.
  unfold right_on, clean, bites_top, bites_bottom, x_overlap, y_overlap, like, sqA, sqB, boxR, x0, x1, y0, y1. cbn [rmin rmax vx vy]. rops.
  repeat match goal with |- context [Rltb (IZR ?a) (IZR ?b)] => first
    [ replace (Rltb (IZR a) (IZR b)) with true by (symmetry; apply Rltb_true; lra)
    | replace (Rltb (IZR a) (IZR b)) with false by (symmetry; apply Rltb_false; lra) ] end. destruct op, fill; reflexivity.
Qed.
Lemma wide_wrong : right_on op_difference even_odd wide tall = false.
Proof.
  unfold right_on, clean, bites_top, bites_bottom, x_overlap, y_overlap, like, wide, tall, boxR, x0, x1, y0, y1. cbn [rmin rmax vx vy]. rops.
  repeat match goal with |- context [Rltb (IZR ?a) (IZR ?b)] => first
    [ replace (Rltb (IZR a) (IZR b)) with true by (symmetry; apply Rltb_true; lra)
    | replace (Rltb (IZR a) (IZR b)) with false by (symmetry; apply Rltb_false; lra) ] end. reflexivity.
Qed.
(** A point of both squares, and one of neither *)
Lemma points_AB : in_box (V2 7 8)%R sqA = true /\ in_box (V2 7 8)%R sqB = true /\ in_box (V2 7 2)%R sqA = true /\ in_box (V2 7 2)%R sqB = false.
Proof.
  unfold in_box, sqA, sqB, boxR, x0, x1, y0, y1. cbn [rmin rmax vx vy]. rops.
  repeat match goal with |- context [Rltb (IZR ?a) (IZR ?b)] => first
    [ replace (Rltb (IZR a) (IZR b)) with true by (symmetry; apply Rltb_true; lra)
    | replace (Rltb (IZR a) (IZR b)) with false by (symmetry; apply Rltb_false; lra) ] end.
  repeat match goal with |- context [Rleb (IZR ?a) (IZR ?b)] => first
    [ replace (Rleb (IZR a) (IZR b)) with true by (symmetry; apply Rleb_true; lra)
    | replace (Rleb (IZR a) (IZR b)) with false by (symmetry; apply Rleb_false; lra) ] end. repeat split.
Qed.
Lemma env0_fair : (forall l, Permutation (en_order env0 l) l) /\ forall i j, en_addr env0 i = en_addr env0 j -> i = j.
Proof. split; [intros; apply Permutation_refl|]. intros i j H. cbn in H. now apply Nat2Z.inj. Qed.

(** The same two squares, drawn clockwise *)
Definition clockwise (a b c e : Z) : list (Z * Z) := [(a, b); (a, e); (c, e); (c, b)].
Definition cw_run lm := get [] (run lm [clockwise 0 0 10 10] [clockwise 5 5 15 15] op_intersection non_zero).
Lemma clockwise_lemma : forall lm : libm, let N := B64 lm in
  exists l, run lm [clockwise 0 0 10 10] [clockwise 5 5 15 15] op_intersection non_zero = Ok l /\ inside (pt64 7 7) l = false /\
  exists a b, run lm [clockwise 0 0 10 10] [] op_union non_zero = Ok a /\ inside (pt64 7 7) a = true /\
              run lm [clockwise 5 5 15 15] [] op_union non_zero = Ok b /\ inside (pt64 7 7) b = true.
Proof.
  intros lm N. exists (cw_run lm). split; [vm_compute; reflexivity|]. split; [vm_compute; reflexivity|].
  exists (get [] (run lm [clockwise 0 0 10 10] [] op_union non_zero)), (get [] (run lm [clockwise 5 5 15 15] [] op_union non_zero)).
  split; [vm_compute; reflexivity|]. split; [vm_compute; reflexivity|]. split; vm_compute; reflexivity.
Qed.
