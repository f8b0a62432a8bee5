(** Splitting of cubics over the reals. *)
From Coq Require Import ZArith Bool List Reals Lra Lia.
From Verif Require Import Outcome Num Rmath RTac BezierSpec.
Import ListNotations.
Local Open Scope R_scope.

Lemma point_at_curve (z : bezier R) t : point_at z t = curve z t.
Proof.
  destruct z as [[x0 y0] [x1 y1] [x2 y2] [x3 y3]].
  unfold point_at, curve, bern. rn. f_equal; ring.
Qed.

Lemma bsplit_left (z : bezier R) t s : curve (fst (bsplit z t)) s = curve z (t * s).
Proof.
  destruct z as [[x0 y0] [x1 y1] [x2 y2] [x3 y3]].
  unfold bsplit, curve, bern. cbn [fst]. rn. f_equal; ring.
Qed.
Lemma bsplit_right (z : bezier R) t s : curve (snd (bsplit z t)) s = curve z (t + (1 - t) * s).
Proof.
  destruct z as [[x0 y0] [x1 y1] [x2 y2] [x3 y3]].
  unfold bsplit, curve, bern. cbn [snd]. rn. f_equal; ring.
Qed.
Lemma bsplit_ends (z : bezier R) t :
  b0 (fst (bsplit z t)) = b0 z /\ b3 (snd (bsplit z t)) = b3 z /\
  b3 (fst (bsplit z t)) = b0 (snd (bsplit z t)) /\ b3 (fst (bsplit z t)) = curve z t.
Proof.
  destruct z as [[x0 y0] [x1 y1] [x2 y2] [x3 y3]].
  unfold bsplit, curve, bern. cbn [fst snd b0 b3]. repeat split. rn. f_equal; ring.
Qed.

Lemma curve_0 z : curve z 0 = b0 z.
Proof. destruct z as [[x0 y0] [x1 y1] [x2 y2] [x3 y3]]. unfold curve, bern. rn. f_equal; ring. Qed.
Lemma curve_1 z : curve z 1 = b3 z.
Proof. destruct z as [[x0 y0] [x1 y1] [x2 y2] [x3 y3]]. unfold curve, bern. rn. f_equal; ring. Qed.

(** C09 *)
Lemma C09_lemma (z : bezier R) (t : R) :
  let (l, r) := bsplit z t in
  traces l z 0 t /\ traces r z t 1 /\
  b0 l = b0 z /\ b3 r = b3 z /\ b3 l = b0 r /\ b3 l = curve z t.
Proof.
  pose proof (bsplit_left z t) as HL. pose proof (bsplit_right z t) as HR.
  pose proof (bsplit_ends z t) as (E1 & E2 & E3 & E4).
  destruct (bsplit z t) as [l r]. cbn [fst snd] in *.
  repeat split; auto.
  - intros s. rewrite HL. f_equal; ring.
Qed.

(** C10 *)
Lemma split_loop_spec (z : bezier R) ts : forall cur a,
  traces cur z a 1 -> increasing a ts 1 ->
  pieces_of z a ts (split_loop cur (1 - a) ts) /\ joined (split_loop cur (1 - a) ts) /\
  match split_loop cur (1 - a) ts with p :: _ => b0 p = b0 cur | [] => False end.
Proof.
  induction ts as [|t ts IH]; intros cur a Hc Hi.
  - cbn. auto.
  - cbn [split_loop]. rops. destruct Hi as [Ha Hi].
    assert (H1a : 1 - a <> 0).
    { enough (a < 1) by lra. clear - Ha Hi. revert t Ha Hi.
      induction ts as [|u ts IH']; cbn; intros; [lra|]. destruct Hi. apply (IH' u); auto. lra. }
    set (ct := (t - (1 - (1 - a))) / (1 - a)).
    pose proof (C09_lemma cur ct) as HS.
    destruct (bsplit cur ct) as [o1 o2].
    destruct HS as (T1 & T2 & E1 & E2 & E3 & E4).
    assert (T2' : traces o2 z t 1).
    { intros s. rewrite T2, Hc. f_equal. unfold ct. field; auto. }
    assert (T1' : traces o1 z a t).
    { intros s. rewrite T1, Hc. f_equal. unfold ct. field; auto. }
    destruct (IH o2 t T2' Hi) as (P & J & H).
    cbn [pieces_of]. repeat split; auto.
    destruct (split_loop o2 (1 - t) ts) as [|q qs]; [contradiction|].
    cbn. split; auto. rewrite H; auto.
Qed.

Lemma traces_self z : traces z z 0 1.
Proof. intros s. f_equal. ring. Qed.

Lemma C10_lemma (z : bezier R) (ts : list R) :
  ts <> [] -> increasing 0 ts 1 ->
  pieces_of z 0 ts (bsplit_many z ts) /\ joined (bsplit_many z ts).
Proof.
  intros Hne Hi. unfold bsplit_many. destruct ts as [|t ts]; [congruence|].
  pose proof (split_loop_spec z (t :: ts) z 0 (traces_self z) Hi) as (H1 & H2 & _).
  cbn [n_ofZ R_num]. replace (IZR 1) with (1 - 0) by lra. auto.
Qed.

(** Every parameter is covered by one of the pieces. *)
Lemma pieces_cover z ts : forall lo ps t,
  pieces_of z lo ts ps -> increasing lo ts 1 -> lo <= t <= 1 ->
  exists p s, In p ps /\ 0 <= s <= 1 /\ curve p s = curve z t.
Proof.
  induction ts as [|c ts IH]; intros lo ps t Hp Hi Ht.
  - destruct ps as [|p [|]]; cbn in Hp; try contradiction. cbn in Hi.
    exists p, ((t - lo) / (1 - lo)). split; [left; auto|].
    assert (0 < 1 - lo) by lra. split.
    + split; [apply Rmult_le_pos; [lra|left; apply Rinv_0_lt_compat; lra]|].
      apply (Rmult_le_reg_r (1 - lo)); auto. unfold Rdiv. rewrite Rmult_assoc, Rinv_l by lra. lra.
    + rewrite Hp. f_equal. field. lra.
  - destruct ps as [|p ps]; [contradiction|]. destruct Hp as [Hp Hps]. destruct Hi as [Hc Hi].
    destruct (Rle_dec t c).
    + exists p, ((t - lo) / (c - lo)). split; [left; auto|].
      assert (0 < c - lo) by lra. split.
      * split; [apply Rmult_le_pos; [lra|left; apply Rinv_0_lt_compat; lra]|].
        apply (Rmult_le_reg_r (c - lo)); auto. unfold Rdiv. rewrite Rmult_assoc, Rinv_l by lra. lra.
      * rewrite Hp. f_equal. field. lra.
    + destruct (IH c ps t) as (q & s & H1 & H2 & H3); auto; [lra|].
      exists q, s. split; [right; auto|auto].
Qed.

Lemma C10_cover_lemma (z : bezier R) (ts : list R) (t : R) :
  ts <> [] -> increasing 0 ts 1 -> 0 <= t <= 1 ->
  exists p s, In p (bsplit_many z ts) /\ 0 <= s <= 1 /\ curve p s = curve z t.
Proof.
  intros Hne Hi Ht. destruct (C10_lemma z ts Hne Hi) as [Hp _].
  eapply pieces_cover; eauto.
Qed.

(* ---------------------------------------------------------------- *)
(** ** Derivative of one coordinate, monotonicity *)

Definition dbern (a b c d t : R) : R :=
  (3 * d - 9 * c + 9 * b - 3 * a) * t ^ 2 + (6 * a - 12 * b + 6 * c) * t + 3 * (b - a).

(** Simpson's rule is exact for the derivative of a cubic. *)
Lemma simpson a b c d u v :
  bern a b c d v - bern a b c d u =
  (v - u) / 6 * (dbern a b c d u + 4 * dbern a b c d ((u + v) / 2) + dbern a b c d v).
Proof. unfold bern, dbern. field. Qed.

Lemma bern_incr a b c d lo hi :
  (forall t, lo <= t <= hi -> 0 <= dbern a b c d t) ->
  forall u v, lo <= u -> u <= v -> v <= hi -> bern a b c d u <= bern a b c d v.
Proof.
  intros H u v H1 H2 H3.
  pose proof (simpson a b c d u v) as E.
  assert (0 <= (v - u) / 6 * (dbern a b c d u + 4 * dbern a b c d ((u + v) / 2) + dbern a b c d v)).
  { apply Rmult_le_pos; [lra|].
    pose proof (H u ltac:(lra)). pose proof (H v ltac:(lra)). pose proof (H ((u+v)/2) ltac:(lra)). lra. }
  lra.
Qed.

Lemma bern_opp a b c d t : bern (-a) (-b) (-c) (-d) t = - bern a b c d t.
Proof. unfold bern; ring. Qed.
Lemma dbern_opp a b c d t : dbern (-a) (-b) (-c) (-d) t = - dbern a b c d t.
Proof. unfold dbern; ring. Qed.

Lemma bern_decr a b c d lo hi :
  (forall t, lo <= t <= hi -> dbern a b c d t <= 0) ->
  forall u v, lo <= u -> u <= v -> v <= hi -> bern a b c d v <= bern a b c d u.
Proof.
  intros H u v H1 H2 H3.
  pose proof (bern_incr (-a) (-b) (-c) (-d) lo hi) as G.
  assert (- bern a b c d u <= - bern a b c d v); [|lra].
  rewrite <- !bern_opp. apply G; auto.
  intros t Ht. rewrite dbern_opp. specialize (H t Ht). lra.
Qed.
