(** A line and a curve: the records of their intersections. *)
From Coq Require Import ZArith Bool List Reals Lra Lia.
From Verif Require Import Outcome Num Order Rmath Segment RTac VState VPath VBreak RingSpec BezierSpec BezierR BreakSpec EquationSpec SegSpec LineSpec LineR CurveR BreakLines.
Import ListNotations.
Local Open Scope out.

Section Any.
  Context {T : Type} {N : Num T}.
  Lemma break_pair_curve (a b : nat) (z : bezier T) l : a <> b -> Forall (fun i => ip i = point_at z (it1 i)) l ->
    Forall (fun r => (br_vert r = a \/ br_vert r = b) /\ (br_vert r = b -> br_pt r = point_at z (br_t r))) (break_pair a b l).
  Proof.
    intros NE F. apply Forall_forall. intros r H. unfold break_pair in H. apply in_flat_map in H as (i & Hi & H).
    rewrite Forall_forall in F. specialize (F i Hi). apply in_app_or in H as [H|H].
    - destruct (in_open (it0 i)); [|contradiction]. destruct H as [<-|[]]. cbn. split; auto. intros E. contradiction.
    - destruct (in_open (it1 i)); [|contradiction]. destruct H as [<-|[]]. cbn. auto.
  Qed.
  Lemma mixed_records en (vs : list (vertex T)) i j v w q c1 c2 r bs :
    nth_error vs i = Some v -> v_seg v = Some (SLine q) -> nth_error vs j = Some w -> v_seg w = Some (SCubic c1 c2 r) ->
    seg_intersect en vs i j = Ok bs \/ seg_intersect en vs j i = Ok bs ->
    Forall (fun b => (br_vert b = i \/ br_vert b = j) /\ (br_vert b = j -> br_pt b = point_at (Bez (v_pt w) c1 c2 r) (br_t b))) bs.
  Proof.
    intros V G W H E. assert (NE : i <> j) by (intros <-; rewrite V in W; injection W as <-; congruence).
    destruct (C18_any_lemma (v_pt v) q (Bez (v_pt w) c1 c2 r)) as (l & L & _ & C).
    assert (B : bs = break_pair i j l).
    { destruct E as [E|E]; unfold seg_intersect, at_, of_opt in E; rewrite V, W in E; cbn [bind] in E; rewrite G, H in E; cbn [bind] in E;
        unfold cubic_from in E; rewrite L in E; cbn [bind] in E; injection E as <-; reflexivity. }
    subst bs. apply break_pair_curve; auto. apply Forall_forall. intros x Hx. now apply C.
  Qed.
End Any.

(** Over the reals, when the equation of the line along the curve has at most two
    different solutions: see C18. *)
Definition two_roots (s0 s1 : vec2 R) (z : bezier R) : Prop :=
  forall A B C, general_from s0 s1 = (A, B, C) ->
    let '(a3, a2, a1, a0) := line_coefs A B C z in cubic_clear a3 a2 a1 a0 /\ (a3 <> 0 -> 0 <= disc a3 a2 a1 a0)%R.
Lemma mixed_exact en (vs : list (vertex R)) i j v w q c1 c2 r : let z := Bez (v_pt w) c1 c2 r in
  nth_error vs i = Some v -> v_seg v = Some (SLine q) -> nth_error vs j = Some w -> v_seg w = Some (SCubic c1 c2 r) ->
  v_pt v <> q -> fin (v_pt v) -> fin q -> two_roots (v_pt v) q z ->
  exists bs, seg_intersect en vs i j = Ok bs /\ seg_intersect en vs j i = Ok bs /\ Forall (exact_break vs) bs /\
    forall t u, (0 <= t <= 1)%R -> (0 <= u <= 1)%R -> pt (v_pt v) q t = curve z u ->
      (well_inside t -> In (Break i (curve z u) t) bs) /\ (well_inside u -> In (Break j (curve z u) u) bs).
Proof.
  intros z V G W H NE F1 F2 TR. destruct (C18_exact_lemma (v_pt v) q z NE F1 F2 TR) as (l & L & _ & C).
  exists (break_pair i j l).
  assert (E : seg_intersect en vs i j = Ok (break_pair i j l) /\ seg_intersect en vs j i = Ok (break_pair i j l)).
  { unfold seg_intersect, at_, of_opt. rewrite V, W. cbn [bind]. rewrite G, H. cbn [bind]. unfold cubic_from. fold z. rewrite L. split; reflexivity. }
  destruct E as [E1 E2]. split; auto. split; auto. split.
  - apply Forall_forall. intros b Hb. apply pair_in in Hb as (x & Hx & Hb). apply C in Hx as (X0 & X1 & PC & PL).
    destruct Hb as [[I ->]|[I ->]]; unfold exact_break, well_inside in *; cbn [br_t br_vert br_pt]; (split; [lra|]).
    + exists v, (SLine q). repeat split; auto; rewrite PL; apply pt_seg_at.
    + exists w, (SCubic c1 c2 r). repeat split; auto.
  - intros t u T0 U0 P. assert (X : In (Isect (curve z u) t u) l) by (apply C; cbn; auto).
    split; intros I; apply pair_in; exists (Isect (curve z u) t u); split; auto.
Qed.

(** A level line at height 1 under an arch *)
Definition arch_verts : list (vertex R) :=
  [Vertex (V2 0 1)%R (Some (SLine (V2 4 1)%R)) None None false false; Vertex (V2 0 0)%R (Some (SCubic (V2 1 2) (V2 2 2) (V2 3 0))%R) None None false false].
Lemma arch_ok : let z := (Bez (V2 0 0) (V2 1 2) (V2 2 2) (V2 3 0))%R in
  (V2 0 1 <> V2 4 1)%R /\ fin (V2 0 1)%R /\ fin (V2 4 1)%R /\ two_roots (V2 0 1)%R (V2 4 1)%R z /\
  exists t u, (0 <= t <= 1)%R /\ well_inside t /\ well_inside u /\ pt (V2 0 1)%R (V2 4 1)%R t = curve z u.
Proof.
  intros z. pose proof R_huge_big as RH. split; [intros E; injection E; lra|]. split; [unfold fin; cbn; lra|]. split; [unfold fin; cbn; lra|]. split.
  - intros A B C E. unfold general_from in E. rewrite (proj2 (veqb_R_false _ _)) in E by (intros K; injection K; lra). revert E. rops.
    rewrite (proj2 (Reqb_false _ _)) by (cbn; lra). rewrite (proj2 (Reqb_true _ _)) by (cbn; lra). intros E. injection E as <- <- <-.
    unfold line_coefs, z. cbn [b0 b1 b2 b3 vx vy]. unfold pw3, pw2, pw1, cubic_clear, quad_clear, clear. repeat split; try lra; intros; lra.
  - (* 6 u (1 - u) = 1 *)
    set (u := ((1 - sqrt (1 / 3)) / 2)%R).
    assert (S : (sqrt (1 / 3) * sqrt (1 / 3) = 1 / 3)%R) by (apply sqrt_sqrt; lra).
    assert (P : (0 <= sqrt (1 / 3))%R) by apply sqrt_pos.
    assert (U : (1 / 10 < u < 1 / 2)%R) by (unfold u; split; nra).
    exists (3 * u / 4)%R, u. unfold well_inside. repeat split; try lra.
    apply vec_eq; unfold pt, curve, z, bern; cbn [b0 b1 b2 b3 vx vy]; [field|].
    replace (1 + 3 * u / 4 * (1 - 1))%R with 1%R by field. unfold u. nra.
Qed.
