(** Two bows with the same ends and the same control points. *)
From Coq Require Import ZArith Bool List Reals Lra.
From Verif Require Import Outcome Num Rmath Segment RTac VState VAel VOut VLemmas LineR BezierSpec BreakSpec AelSpec WindSpec TwinSpec.
Import ListNotations.
Local Open Scope R_scope.

(** Vertices 0 and 1 carry a bow from (0, 0) up to (0, 10), 2 and 3 one with the
    control points swapped, 4 and 5 the first bow drawn downwards. *)
Definition low : vec2 R := V2 0 0.
Definition high : vec2 R := V2 0 10.
Definition c3 : vec2 R := V2 5 3.
Definition c7 : vec2 R := V2 5 7.
Definition bows : clipper R :=
  Clipper [Vertex low (Some (SCubic c3 c7 high)) (Some 1%nat) (Some 1%nat) false true; Vertex high (Some (SLine low)) (Some 0%nat) (Some 0%nat) true false;
           Vertex low (Some (SCubic c7 c3 high)) (Some 3%nat) (Some 3%nat) false true; Vertex high (Some (SLine low)) (Some 2%nat) (Some 2%nat) true false;
           Vertex low (Some (SLine high)) (Some 5%nat) (Some 5%nat) false true; Vertex high (Some (SCubic c7 c3 low)) (Some 4%nat) (Some 4%nat) true false]
    [] [] 0 [] [] [] [] None [] None [] [] op_union positive.
Definition bow (v : nat) (dx : Z) : edge R := Edge low high 0 dx 0 0 None None None v 0.

Lemma bow_spans : spans bows (bow 1 (-1)) (SCubic c3 c7 high) /\ spans bows (bow 3 (-1)) (SCubic c7 c3 high) /\ spans bows (bow 5 1) (SCubic c7 c3 low).
Proof.
  split; [|split]; (split; [|reflexivity]); (eexists; split; [reflexivity|]); cbn - [low high c3 c7].
  - exists 0%nat. eexists. split; [reflexivity|]. split; reflexivity.
  - exists 2%nat. eexists. split; [reflexivity|]. split; reflexivity.
  - reflexivity.
Qed.
Lemma bow_case : spans bows (bow 1 (-1)) (SCubic c3 c7 high) /\ spans bows (bow 5 1) (SCubic c7 c3 low) /\
  forall t, course (bow 1 (-1)) (SCubic c3 c7 high) t = course (bow 5 1) (SCubic c7 c3 low) t.
Proof.
  split; [apply bow_spans|]. split; [apply bow_spans|]. intros t. unfold course, upwards. cbn [bow e_dx Z.ltb Z.compare e_bot e_top seg_at].
  unfold curve, bern. cbn. f_equal; ring.
Qed.
Lemma bows_same : is_same bows (bow 1 (-1)) (bow 3 (-1)) = Ok true.
Proof.
  unfold is_same, get_seg. cbn - [veqb]. replace (veqb low low) with true by (symmetry; now apply veqb_R). replace (veqb high high) with true by (symmetry; now apply veqb_R).
  cbn - [veqb]. replace (veqb c3 c3) with true by (symmetry; now apply veqb_R). replace (veqb c7 c7) with true by (symmetry; now apply veqb_R).
  now rewrite orb_true_r.
Qed.
(** a point of the first bow is not on the second *)
Lemma bows_differ t : course (bow 3 (-1)) (SCubic c7 c3 high) t <> course (bow 1 (-1)) (SCubic c3 c7 high) (1 / 4).
Proof.
  unfold course, upwards. cbn [bow e_dx Z.ltb Z.compare e_bot e_top seg_at]. unfold curve, bern. cbn [b0 b1 b2 b3 vx vy low high c3 c7].
  intros E. injection E as X Y. assert (Q : (t - 1 / 4) * (t - 3 / 4) = 0) by lra. apply Rmult_integral in Q as [Q|Q].
  - assert (t = 1 / 4) by lra. subst t. lra.
  - assert (t = 3 / 4) by lra. subst t. lra.
Qed.
Lemma swapped_lemma : exists (s : clipper R) a b g h, spans s a g /\ spans s b h /\ upwards a = true /\ upwards b = true /\ is_same s a b = Ok true /\
  exists t, 0 < t < 1 /\ forall u, course b h u <> course a g t.
Proof.
  exists bows, (bow 1 (-1)), (bow 3 (-1)), (SCubic c3 c7 high), (SCubic c7 c3 high).
  split; [apply bow_spans|]. split; [apply bow_spans|]. split; [reflexivity|]. split; [reflexivity|]. split; [apply bows_same|].
  exists (1 / 4). split; [lra|]. intros u. apply bows_differ.
Qed.
