(** When [is_same] is right. *)
From Coq Require Import ZArith Bool List Reals Lra.
From Verif Require Import Outcome Num Rmath Segment RTac VState VAel VOut VLemmas BezierSpec BreakSpec LineR AelSpec WindSpec VKept TwinSpec.
Import ListNotations.
Local Open Scope R_scope.

Lemma vec_of (p q : vec2 R) : vx p = vx q -> vy p = vy q -> p = q.
Proof. destruct p, q. cbn. intros -> ->. reflexivity. Qed.
Ltac veqs := repeat match goal with H : veqb _ _ = true |- _ => apply veqb_R in H end.

Lemma same_course s a b g h : spans s a g -> spans s b h -> is_same s a b = Ok true ->
  (forall t, course a g t = course b h t) \/
  exists p q, forall t, course a g t = curve (Bez (e_bot a) p q (e_top a)) t /\ course b h t = curve (Bez (e_bot a) q p (e_top a)) t.
Proof.
  intros (Ra & Ta) (Rb & Tb) H. apply is_same_exact in H. destruct (proj1 H eq_refl) as (EB & ET & g' & h' & G & K & M). clear H. veqs.
  rewrite (runs_fun _ _ _ _ G Ra) in M. rewrite (runs_fun _ _ _ _ K Rb) in M. unfold course.
  destruct g as [ |p| |a1 a2 p], h as [ |q| |c1 c2 q]; try contradiction; cbn [seg_target] in Ta, Tb; subst p q.
  - left. intros t. destruct (upwards a), (upwards b); cbn [seg_at]; rewrite EB, ET; apply vec_of; cbn; ring.
  - destruct M as [(M1 & M2)|(M1 & M2)]; veqs; subst c1 c2; destruct (upwards a), (upwards b); cbn [seg_at]; rewrite <- EB, <- ET.
    + left. auto.
    + right. exists a1, a2. intros t. split; auto. apply vec_of; unfold curve, bern; cbn; ring.
    + right. exists a2, a1. intros t. split; auto. apply vec_of; unfold curve, bern; cbn; ring.
    + left. auto.
    + right. exists a1, a2. intros t. split; auto.
    + left. intros t. apply vec_of; unfold curve, bern; cbn; ring.
    + left. intros t. apply vec_of; unfold curve, bern; cbn; ring.
    + right. exists a2, a1. intros t. split; apply vec_of; unfold curve, bern; cbn; ring.
Qed.

Lemma course_ends s e g : spans s e g -> same_kind g g -> course e g 0 = e_bot e /\ course e g 1 = e_top e.
Proof.
  intros (_ & E) K. unfold course. destruct g as [ |p| |a1 a2 p]; try contradiction; cbn [seg_target] in E; subst p;
    destruct (upwards e); cbn [seg_at]; split; apply vec_of; unfold curve, bern; cbn; ring.
Qed.
Lemma runs_get s (e : edge R) g : runs_along s e g -> exists p, get_seg s e = Ok (Some g, p).
Proof.
  intros (v & V & H). unfold get_seg, edge_up. rewrite (proj2 (at_ok _ _ _) V). cbn [bind]. destruct (e_dx e <? 0)%Z.
  - destruct H as (p & u & P & U & G). rewrite P. cbn [deref of_opt bind]. rewrite (proj2 (at_ok _ _ _) U). cbn [bind]. rewrite G. eauto.
  - rewrite H. eauto.
Qed.
(** The control points of a cubic follow from its course. *)
Lemma ctrl_of p a b q a' b' : (forall t, curve (Bez p a b q) t = curve (Bez p a' b' q) t) -> a = a' /\ b = b'.
Proof.
  intros H. pose proof (H (1 / 3)) as H1. pose proof (H (2 / 3)) as H2. unfold curve, bern in *. cbn [b0 b1 b2 b3] in *.
  injection H1 as X1 Y1. injection H2 as X2 Y2. split; apply vec_of; lra.
Qed.
Lemma same_found s a b g h : spans s a g -> spans s b h -> same_kind g h -> (forall t, course a g t = course b h t) -> is_same s a b = Ok true.
Proof.
  intros Sa Sb K C. assert (Ka : same_kind g g) by (destruct g, h; try contradiction; exact I). assert (Kb : same_kind h h) by (destruct g, h; try contradiction; exact I).
  destruct (course_ends _ _ _ Sa Ka) as (A0 & A1). destruct (course_ends _ _ _ Sb Kb) as (B0 & B1). rewrite C, B0 in A0. rewrite C, B1 in A1.
  destruct Sa as (Ra & Ta), Sb as (Rb & Tb). destruct (runs_get _ _ _ Ra) as (pa & Ga). destruct (runs_get _ _ _ Rb) as (pb & Gb).
  unfold is_same. rewrite Ga, Gb. cbn [bind]. rewrite <- A0, <- A1.
  replace (veqb (e_bot b) (e_bot b)) with true by (symmetry; now apply veqb_R). replace (veqb (e_top b) (e_top b)) with true by (symmetry; now apply veqb_R).
  cbn [andb fst of_opt bind]. destruct g as [ |p| |a1 a2 p], h as [ |q| |c1 c2 q]; try contradiction; auto.
  cbn [seg_target] in Ta, Tb. subst p q. f_equal. rewrite orb_true_iff, !andb_true_iff, !veqb_R. unfold course in C. cbn [seg_at] in C. rewrite <- A0, <- A1 in C.
  destruct (upwards a), (upwards b).
  - apply ctrl_of in C as (-> & ->). auto.
  - assert (D : forall t, curve (Bez (e_bot b) a1 a2 (e_top b)) t = curve (Bez (e_bot b) c2 c1 (e_top b)) t).
    { intros t. rewrite C. apply vec_of; unfold curve, bern; cbn; ring. }
    apply ctrl_of in D as (-> & ->). auto.
  - assert (D : forall t, curve (Bez (e_bot b) a2 a1 (e_top b)) t = curve (Bez (e_bot b) c1 c2 (e_top b)) t).
    { intros t. rewrite <- C. apply vec_of; unfold curve, bern; cbn; ring. }
    apply ctrl_of in D as (-> & ->). auto.
  - assert (D : forall t, curve (Bez (e_top b) a1 a2 (e_bot b)) t = curve (Bez (e_top b) c1 c2 (e_bot b)) t).
    { intros t. specialize (C (1 - t)). now replace (1 - (1 - t)) with t in C by ring. }
    apply ctrl_of in D as (-> & ->). auto.
Qed.
