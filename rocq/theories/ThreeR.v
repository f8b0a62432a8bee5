(** Line against cubic when the combined equation has three real solutions:
    every reported point is a curve point whose parameter is within the solver's
    error of a parameter where the curve meets the line, and every meeting that
    is inside by more than that error is reported (C18). *)
From Coq Require Import ZArith Bool List Reals Lra Lia Psatz.
From Verif Require Import Outcome Num Rmath RTac Segment SegSpec BezierSpec BezierR LineSpec LineR.
From Verif Require Import MonotoneR EquationSpec EquationR ClearR CurveR.
Import ListNotations.
Local Open Scope R_scope.

(** The point's x coordinate lies between those of the ends, and so does its y
    coordinate. *)
Definition in_frame (p s0 s1 : vec2 R) : Prop :=
  btw (vx p) (vx s0) (vx s1) /\ btw (vy p) (vy s0) (vy s1).

Lemma between_frame (p s0 s1 : vec2 R) : fin s0 -> fin s1 -> in_frame p s0 s1 ->
  point_between_two_point p s0 s1 = true.
Proof.
  intros [A1 A2] [B1 B2] [H1 H2]. rewrite between_R by auto.
  destruct (Reqb _ _); rewrite minmax_btw; auto.
Qed.

Lemma C18_three_lemma (s0 s1 : vec2 R) (z : bezier R) : s0 <> s1 -> fin s0 -> fin s1 ->
  let '(A, B, C) := general_from s0 s1 in
  let '(a3, a2, a1, a0) := line_coefs A B C z in
  a3 <> 0 -> clear a3 -> disc a3 a2 a1 a0 < 0 -> clear (disc a3 a2 a1 a0) -> cub_q a3 a2 a1 a0 <> 0 ->
  exists r0 r1 r2 l,
    (forall t, on_line (curve z t) s0 s1 <-> t = r0 \/ t = r1 \/ t = r2) /\
    intersect_line_cubic s0 s1 z = Ok l /\
    let eps := / 10000000000 * (Rabs (r0 - r1) + Rabs (r1 - r2) + Rabs (r2 - r0)) in
    (forall i, In i l -> 0 <= it1 i <= 1 /\ ip i = curve z (it1 i) /\
       exists r, In r [r0; r1; r2] /\ Rabs (it1 i - r) <= eps) /\
    (forall r, In r [r0; r1; r2] ->
       (forall t, Rabs (t - r) <= eps -> 0 <= t <= 1 /\ in_frame (curve z t) s0 s1) ->
       exists i, In i l /\ Rabs (it1 i - r) <= eps).
Proof.
  intros Hne F0 F1.
  pose proof (fun t => C39_exact_lemma s0 s1 (curve z t) Hne) as ON.
  pose proof (lc_roots_R s0 s1 z) as LR. pose proof (line_cubic_eq s0 s1 z) as LE.
  destruct (general_from s0 s1) as [[A B] C].
  pose proof (line_coefs_eval A B C z) as EV.
  destruct (line_coefs A B C z) as [[[a3 a2] a1] a0]. intros H1 H2 H3 H4 H5.
  destruct (C14_three_clear_lemma a3 a2 a1 a0 H1 H2 H3 H4 H5)
    as (x0 & x1 & x2 & r0 & r1 & r2 & E & F & -> & N1 & N2).
  exists r0, r1, r2. rewrite LR, E in LE. eexists. split.
  { intros t. rewrite <- ON, <- EV, F. split.
    - intros Z. apply Rmult_integral in Z as [Z|Z]; [|lra].
      apply Rmult_integral in Z as [Z|Z]; [|lra].
      apply Rmult_integral in Z as [Z|Z]; [contradiction|lra].
    - intros [->|[->| ->]]; ring. }
  split; [exact LE|]. cbv zeta. unfold near in N1, N2. clear LE LR E F ON EV.
  set (eps := / 10000000000 * _) in *.
  assert (He : 0 <= eps).
  { unfold eps. pose proof (Rabs_pos (r0 - r1)). pose proof (Rabs_pos (r1 - r2)). pose proof (Rabs_pos (r2 - r0)). lra. }
  clearbody eps.
  assert (N0 : Rabs (r0 - r0) <= eps) by (rewrite Rminus_diag_eq, Rabs_R0 by auto; lra).
  split.
  - intros i Hi. apply in_flat_map in Hi as (t & Ht & Hi). unfold lc_hit in Hi.
    destruct (in01c t) eqn:EI; [|contradiction]. apply in01c_R in EI.
    destruct (point_between_two_point _ _ _); [|contradiction]. destruct Hi as [<-|[]].
    cbn [it1 ip]. split; [auto|]. split; [apply point_at_curve|].
    destruct Ht as [<-|[<-|[<-|[]]]]; eexists; (split; [|eassumption]); cbn; auto.
  - assert (G : forall x r, In x [r0; x1; x2] -> Rabs (x - r) <= eps ->
      (forall t, Rabs (t - r) <= eps -> 0 <= t <= 1 /\ in_frame (curve z t) s0 s1) ->
      exists i, In i (flat_map (fun t => match lc_hit s0 s1 z t with Some x => [x] | None => [] end) [r0; x1; x2]) /\
        Rabs (it1 i - r) <= eps).
    { intros x r Hx Hr HM. destruct (HM x Hr) as [I01 FR].
      assert (EH : exists i, lc_hit s0 s1 z x = Some i /\ it1 i = x).
      { unfold lc_hit. rewrite (proj2 (in01c_R x)) by auto. rewrite point_at_curve.
        rewrite between_frame by auto. eexists. split; reflexivity. }
      destruct EH as (i & EH & Ei). exists i. split; [|rewrite Ei; auto].
      apply in_flat_map. exists x. split; auto. rewrite EH. left; auto. }
    intros r [<-|[<-|[<-|[]]]] HM.
    + apply (G r0); cbn; auto.
    + apply (G x1); cbn; auto.
    + apply (G x2); cbn; auto.
Qed.
