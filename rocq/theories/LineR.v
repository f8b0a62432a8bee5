(** Segment helpers and segment/segment intersection over the reals. *)
From Coq Require Import ZArith Bool List Reals Lra Lia Psatz.
From Verif Require Import Outcome Num Order Rmath RectSpec RectProofs RTac LineSpec.
Import ListNotations.
Local Open Scope R_scope.

Lemma veqb_R (a b : vec2 R) : veqb a b = true <-> a = b.
Proof.
  unfold veqb. rops. rewrite andb_true_iff, !Reqb_true. split.
  - intros []. apply vec_eq; auto.
  - intros ->; auto.
Qed.
Lemma veqb_R_false (a b : vec2 R) : veqb a b = false <-> a <> b.
Proof. rewrite <- veqb_R. destruct (veqb a b); split; congruence. Qed.

Lemma sq_pos (x : R) : x <> 0 -> 0 < x * x.
Proof. intros H. apply (Rlt_0_sqr x H). Qed.

Lemma vec_neq_sq (a b : vec2 R) : a <> b ->
  0 < (vx b - vx a) * (vx b - vx a) + (vy b - vy a) * (vy b - vy a).
Proof.
  intros H. destruct (Req_dec (vx a) (vx b)) as [E|E].
  - destruct (Req_dec (vy a) (vy b)) as [E2|E2]; [elim H; apply vec_eq; auto|].
    assert (0 < (vy b - vy a) * (vy b - vy a)) by (apply sq_pos; ne).
    pose proof (Rle_0_sqr (vx b - vx a)). unfold Rsqr in *. lra.
  - assert (0 < (vx b - vx a) * (vx b - vx a)) by (apply sq_pos; ne).
    pose proof (Rle_0_sqr (vy b - vy a)). unfold Rsqr in *. lra.
Qed.

(** C08 *)
Lemma C08_refuted_lemma : exists (r : rect R) (n : R) (p : vec2 R),
  rect_wf r /\ 0 <= n /\ inbox r p /\ ~ inbox (rect_inflated r n) p.
Proof.
  exists (Rect (V2 0 0) (V2 10 10)), 1, (V2 5 5).
  unfold rect_wf, rvalid, vvalid, inbox, rect_inflated, nle. cbn. rewrite !Rleb_true. 
  split; [|split; [|split]]; try lra.
Qed.
(** The box contains the original when neither side is longer than the amount. *)
Lemma C08_partial_lemma (r : rect R) n : rect_wf r -> 0 <= n ->
  ((forall p, inbox r p -> inbox (rect_inflated r n) p) <-> vx (rmax r) - vx (rmin r) <= n /\ vy (rmax r) - vy (rmin r) <= n).
Proof.
  intros (_ & W1 & W2) Hn. unfold inbox, rect_inflated, nle in *. cbn in *. rewrite Rleb_true in W1, W2. split.
  - intros H. specialize (H (rmax r)). rewrite !Rleb_true in H. lra.
  - intros [A B] p. rewrite !Rleb_true. lra.
Qed.
(** C40: distance *)
Lemma C40_dist_lemma (p l0 l1 : vec2 R) : l0 <> l1 ->
  is_sqdist_segment p l0 l1 (dist2_point_line p l0 l1).
Proof.
  intros Hne. pose proof (vec_neq_sq l0 l1 Hne) as Hd.
  destruct p as [px py], l0 as [ax ay], l1 as [bx by'].
  unfold is_sqdist_segment, dist2_point_line. rn_all. cbn [vx vy] in *.
  set (u := bx - ax) in *. set (v := by' - ay) in *.
  set (d := u * u + v * v) in *. set (f := u * (px - ax) + v * (py - ay)).
  assert (ED : forall t, sqdist (V2 px py) (pt (V2 ax ay) (V2 bx by') t) =
     (px - ax) * (px - ax) + (py - ay) * (py - ay) - 2 * t * f + t * t * d).
  { intros t. unfold sqdist, pt, f, d. cbn [vx vy]. fold u v. ring. }
  destruct (Rltb f 0) eqn:E1; rbool.
  - split.
    + exists 0. split; [lra|]. rewrite ED. ring.
    + intros t Ht. rewrite ED. nra.
  - destruct (Rltb d f) eqn:E2; rbool.
    + assert (E : (px - bx) * (px - bx) + (py - by') * (py - by') =
        (px - ax) * (px - ax) + (py - ay) * (py - ay) - 2 * f + d) by (unfold f, d, u, v; ring).
      rewrite E. split.
      * exists 1. split; [lra|]. rewrite ED. ring.
      * intros t Ht. rewrite ED.
        assert (0 <= (1 - t) * (2 * f - d * (1 + t))) by (apply Rmult_le_pos; nra). nra.
    + set (g := f / d). assert (Eg : g * d = f) by (unfold g; field; lra).
      assert (Hg : 0 <= g <= 1).
      { split.
        - apply Rmult_le_pos; [lra|]. left; apply Rinv_0_lt_compat; lra.
        - apply (Rmult_le_reg_r d); lra. }
      assert (E : (px - (ax + u * g)) * (px - (ax + u * g)) + (py - (ay + v * g)) * (py - (ay + v * g)) =
        (px - ax) * (px - ax) + (py - ay) * (py - ay) - 2 * g * f + g * g * d) by (unfold f, d; ring).
      rewrite E. split.
      * exists g. split; [auto|]. rewrite ED. ring.
      * intros t Ht. rewrite ED. rewrite <- Eg.
        assert (0 <= d * ((t - g) * (t - g))) by (apply Rmult_le_pos; [lra|apply (Rle_0_sqr (t - g))]). lra.
Qed.

Lemma C40_line_refuted_lemma : exists p l0 l1 : vec2 R, l0 <> l1 /\
  ~ is_sqdist_line p l0 l1 (dist2_point_line p l0 l1).
Proof.
  exists (V2 0 0), (V2 1 0), (V2 2 0). split; [intros E; inversion E; lra|].
  unfold dist2_point_line. rn.
  replace (Rltb _ 0) with true by (symmetry; apply Rltb_true; lra).
  intros [_ H]. specialize (H (-1)). unfold sqdist, pt in H. cbn [vx vy] in H. lra.
Qed.

(** The projection test only looks at one end. *)
Lemma C40_project_lemma (p p0 p1 : vec2 R) : p0 <> p1 ->
  point_project_in_segment p p0 p1 = true <->
  exists t, t <= 1 /\
    (vx p - vx (pt p0 p1 t)) * (vx p1 - vx p0) + (vy p - vy (pt p0 p1 t)) * (vy p1 - vy p0) = 0.
Proof.
  intros Hne. pose proof (vec_neq_sq p0 p1 Hne) as Hd.
  unfold point_project_in_segment.
  replace (veqb p1 p0) with false by (symmetry; apply veqb_R_false; auto).
  destruct p as [px py], p0 as [ax ay], p1 as [bx by']. unfold pt. rn_all. cbn [vx vy] in *.
  set (u := bx - ax) in *. set (v := by' - ay) in *.
  set (d := u * u + v * v) in *. set (f := u * (px - ax) + v * (py - ay)).
  rewrite Rleb_true. split.
  - intros H. exists (f / d). split; auto.
    transitivity (f - f / d * d); [unfold f, d; ring|field; lra].
  - intros (t & Ht & E). replace (f / d) with t; auto.
    assert (f = t * d); [|subst; rewrite H; field; lra].
    unfold f, d. lra.
Qed.

Lemma C40_project_refuted_lemma : exists p p0 p1 : vec2 R, p0 <> p1 /\
  point_project_in_segment p p0 p1 = true /\ ~ projects_inside p p0 p1.
Proof.
  exists (V2 (-5) 1), (V2 0 0), (V2 1 0).
  assert (N : V2 0 0 <> V2 1 0) by (intros E; inversion E; lra).
  split; [auto|split].
  - apply C40_project_lemma; auto. exists (-5). cbn. lra.
  - intros (t & Ht & E). cbn in E. lra.
Qed.

(** C39 *)
Lemma C39_lemma (p0 p1 : vec2 R) :
  let '(A, B, C) := general_from p0 p1 in
  (A <> 0 \/ B <> 0) /\
  A * vx p0 + B * vy p0 + C = 0 /\ A * vx p1 + B * vy p1 + C = 0.
Proof.
  unfold general_from. destruct (veqb p0 p1) eqn:E.
  - apply veqb_R in E. subst. rops. repeat split; try lra.
  - apply veqb_R_false in E. rops.
    destruct (Reqb (vx p0) (vx p1)) eqn:Ex; rbool; [repeat split; lra|].
    destruct (Reqb (vy p0) (vy p1)) eqn:Ey; rbool; [repeat split; lra|].
    split; [left; lra|split; ring].
Qed.
(** For distinct points the equation describes exactly the line. *)
Lemma C39_exact_lemma (p0 p1 p : vec2 R) : p0 <> p1 ->
  let '(A, B, C) := general_from p0 p1 in
  A * vx p + B * vy p + C = 0 <-> on_line p p0 p1.
Proof.
  intros Hne. unfold general_from, on_line.
  replace (veqb p0 p1) with false by (symmetry; apply veqb_R_false; auto). rops.
  destruct p as [px py], p0 as [ax ay], p1 as [bx by']. unfold pt. cbn [vx vy] in *.
  destruct (Reqb ax bx) eqn:Ex; rbool; [|destruct (Reqb ay by') eqn:Ey; rbool].
  - assert (ay <> by') by congruence. split.
    + intros E. exists ((py - ay) / (by' - ay)). f_equal; [|field; lra]. subst. lra.
    + intros (t & E). inversion E. subst. lra.
  - split.
    + intros E. exists ((px - ax) / (bx - ax)). f_equal; [field; lra|]. subst. lra.
    + intros (t & E). inversion E. subst. lra.
  - split.
    + intros E. exists ((px - ax) / (bx - ax)). f_equal; [field; lra|].
      apply (Rmult_eq_reg_l (bx - ax)); [|lra].
      transitivity ((bx - ax) * ay + (px - ax) * (by' - ay)); [|field; lra]. lra.
    + intros (t & E). inversion E. ring.
Qed.

(* ---------------------------------------------------------------- *)
(** ** Segment/segment *)

Lemma between_R (p a b : vec2 R) : - R_huge <= vx a <= R_huge -> - R_huge <= vx b <= R_huge ->
  - R_huge <= vy a <= R_huge -> - R_huge <= vy b <= R_huge ->
  point_between_two_point p a b =
    (if Reqb (vx a) (vx b) then Rleb (Rmin (vy a) (vy b)) (vy p) && Rleb (vy p) (Rmax (vy a) (vy b))
     else Rleb (Rmin (vx a) (vx b)) (vx p) && Rleb (vx p) (Rmax (vx a) (vx b)))%bool.
Proof.
  intros H1 H2 H3 H4. unfold point_between_two_point, rect_from. cbn [fold_left rect_from_step rmin rmax vx vy].
  assert (Emin : forall x y, - R_huge <= x <= R_huge -> n_min (n_min n_huge x) y = Rmin x y).
  { intros x y Hx. unfold n_min, Rmin. rops.
    destruct (Rltb x R_huge) eqn:E; rbool.
    - destruct (Rltb y x) eqn:E2; rbool; destruct (Rle_dec x y); lra.
    - assert (x = R_huge) by lra. subst x.
      destruct (Rltb y R_huge) eqn:E2; rbool; destruct (Rle_dec R_huge y); lra. }
  assert (Emax : forall x y, - R_huge <= x <= R_huge -> n_max (n_max (n_neg n_huge) x) y = Rmax x y).
  { intros x y Hx. unfold n_max, Rmax. rops.
    destruct (Rltb (- R_huge) x) eqn:E; rbool.
    - destruct (Rltb x y) eqn:E2; rbool; destruct (Rle_dec x y); lra.
    - assert (x = - R_huge) by lra. subst x.
      destruct (Rltb (- R_huge) y) eqn:E2; rbool; destruct (Rle_dec (- R_huge) y); lra. }
  rewrite !Emin, !Emax by auto. rops. reflexivity.
Qed.

(** Scalars on a common line. *)
Definition btw (x a b : R) : Prop := (a <= x <= b) \/ (b <= x <= a).

Lemma minmax_btw x a b : (Rleb (Rmin a b) x && Rleb x (Rmax a b))%bool = true <-> btw x a b.
Proof.
  rewrite andb_true_iff, !Rleb_true. unfold btw, Rmin, Rmax.
  destruct (Rle_dec a b); lra.
Qed.

Lemma btw_affine o u x a b : u <> 0 -> btw (o + x * u) (o + a * u) (o + b * u) <-> btw x a b.
Proof.
  intros Hu. unfold btw.
  destruct (Rlt_dec 0 u).
  - split; intros [[]|[]].
    + left; split; apply (Rmult_le_reg_r u); lra.
    + right; split; apply (Rmult_le_reg_r u); lra.
    + left; nra.
    + right; nra.
  - assert (u < 0) by lra. split; intros [[]|[]].
    + right; split; apply (Rmult_le_reg_r (- u)); lra.
    + left; split; apply (Rmult_le_reg_r (- u)); lra.
    + right; nra.
    + left; nra.
Qed.

Lemma between_line (p0 p1 : vec2 R) x a b : p0 <> p1 -> a <> b ->
  fin (pt p0 p1 a) -> fin (pt p0 p1 b) ->
  point_between_two_point (pt p0 p1 x) (pt p0 p1 a) (pt p0 p1 b) = true <-> btw x a b.
Proof.
  intros Hne Hab [F1 F2] [F3 F4]. rewrite between_R by auto.
  destruct p0 as [ax ay], p1 as [bx by']. unfold pt in *. cbn [vx vy] in *.
  destruct (Reqb _ _) eqn:E; rbool; rewrite minmax_btw.
  - assert (Ex : bx - ax = 0).
    { assert ((a - b) * (bx - ax) = 0) by lra. apply Rmult_integral in H as []; lra. }
    assert (Ey : by' - ay <> 0) by (intros Z; apply Hne; f_equal; lra).
    apply btw_affine; auto.
  - assert (Ex : bx - ax <> 0) by (intros Z; rewrite Z in E; lra).
    apply btw_affine; auto.
Qed.

Lemma pt_inj (p0 p1 : vec2 R) a b : p0 <> p1 -> pt p0 p1 a = pt p0 p1 b -> a = b.
Proof.
  intros Hne E. destruct p0 as [ax ay], p1 as [bx by']. unfold pt in E. cbn [vx vy] in E. inversion E.
  destruct (Req_dec (bx - ax) 0) as [Z|Z].
  - destruct (Req_dec (by' - ay) 0) as [Z2|Z2]; [elim Hne; f_equal; lra|].
    apply (Rmult_eq_reg_r (by' - ay)); auto. lra.
  - apply (Rmult_eq_reg_r (bx - ax)); auto. lra.
Qed.
Lemma pt_0 p0 p1 : pt p0 p1 0 = p0.
Proof. destruct p0, p1; unfold pt; cbn; f_equal; ring. Qed.
Lemma pt_1 p0 p1 : pt p0 p1 1 = p1.
Proof. destruct p0, p1; unfold pt; cbn; f_equal; ring. Qed.
Lemma pt_pt p0 p1 u v t : pt (pt p0 p1 u) (pt p0 p1 v) t = pt p0 p1 (u + t * (v - u)).
Proof. destruct p0, p1; unfold pt; cbn; f_equal; ring. Qed.

Lemma sqdist_0 p q : sqdist p q = 0 -> p = q.
Proof.
  unfold sqdist. intros E.
  assert (E2 : Rsqr (vx p - vx q) + Rsqr (vy p - vy q) = 0) by (unfold Rsqr; lra).
  pose proof (Rplus_sqr_eq_0 _ _ E2) as []. apply vec_eq; lra.
Qed.
Lemma sqdist_pos p q : 0 <= sqdist p q.
Proof.
  unfold sqdist. pose proof (pow2_ge_0 (vx p - vx q)). pose proof (pow2_ge_0 (vy p - vy q)). lra.
Qed.

(** If p0 touches p2p3 and the directions are parallel, p2 and p3 are on the
    line of p0p1. *)
Lemma common_line (p0 p1 p2 p3 : vec2 R) : p0 <> p1 -> parallel p0 p1 p2 p3 ->
  on_segment p0 p2 p3 -> exists u v, p2 = pt p0 p1 u /\ p3 = pt p0 p1 v.
Proof.
  intros Hne Hp (t & Ht & E0).
  pose proof (vec_neq_sq p0 p1 Hne) as Hd.
  destruct p0 as [ax ay], p1 as [bx by'], p2 as [cx cy], p3 as [dx dy].
  unfold parallel, pt in *. cbn [vx vy] in *. inversion E0 as [[Ex Ey]]. clear E0.
  set (u := bx - ax) in *. set (v := by' - ay) in *.
  set (d := u * u + v * v) in *.
  set (e := dx - cx) in *. set (f := dy - cy) in *.
  (* (e,f) = m (u,v) *)
  set (m := (e * u + f * v) / d).
  assert (Em : e = m * u).
  { apply (Rmult_eq_reg_r d); [|lra]. unfold m.
    transitivity ((e * u + f * v) * u); [|field; lra].
    transitivity (e * u * u + v * (u * f)); [|ring]. rewrite Hp. unfold d. ring. }
  assert (Fm : f = m * v).
  { apply (Rmult_eq_reg_r d); [|lra]. unfold m.
    transitivity ((e * u + f * v) * v); [|field; lra].
    transitivity (f * v * v + u * (v * e)); [|ring]. rewrite <- Hp. unfold d. ring. }
  exists (- t * m), ((1 - t) * m). rewrite <- Ex, <- Ey. fold u v. split; f_equal.
  - transitivity (ax - t * e); [lra|rewrite Em; ring].
  - transitivity (ay - t * f); [lra|rewrite Fm; ring].
  - transitivity (ax + (1 - t) * e); [unfold e in *; lra|rewrite Em; ring].
  - transitivity (ay + (1 - t) * f); [unfold f in *; lra|rewrite Fm; ring].
Qed.

Lemma dist0_on_segment p l0 l1 : l0 <> l1 -> dist2_point_line p l0 l1 = 0 <-> on_segment p l0 l1.
Proof.
  intros Hne. destruct (C40_dist_lemma p l0 l1 Hne) as [(t & Ht & E) H]. split.
  - intros Z. rewrite Z in E. exists t. split; auto. apply sqdist_0; auto.
  - intros (s & Hs & Ep). specialize (H s Hs). rewrite <- Ep in H.
    assert (sqdist p p = 0) by (unfold sqdist; ring).
    assert (0 <= dist2_point_line p l0 l1) by (rewrite E; apply sqdist_pos). lra.
Qed.

(** The non-parallel case *)
Lemma lines_cross (p0 p1 p2 p3 : vec2 R) : ~ parallel p0 p1 p2 p3 ->
  exists s t, pt p0 p1 s = pt p2 p3 t /\
   (forall s' t', pt p0 p1 s' = pt p2 p3 t' -> s' = s /\ t' = t) /\
   intersect_lines p0 p1 p2 p3 =
     Ok (if (Rleb 0 s && Rleb s 1 && (Rleb 0 t && Rleb t 1))%bool then [Isect (pt p0 p1 s) s t] else []).
Proof.
  intros Hp. destruct p0 as [ax ay], p1 as [bx by'], p2 as [cx cy], p3 as [dx dy].
  unfold parallel in Hp. cbn [vx vy] in Hp. 
  unfold intersect_lines. rn.
  set (den := (by' - ay) * (cx - dx) - (bx - ax) * (cy - dy)).
  assert (Hden : den <> 0) by (unfold den; lra).
  replace (Reqb den 0) with false by (symmetry; apply Reqb_false; auto). cbn [orb negb].
  set (s := ((cy - dy) * (ax - cx) - (cx - dx) * (ay - cy)) * (1 / den)).
  set (t := ((bx - ax) * (ay - cy) - (by' - ay) * (ax - cx)) * (1 / den)).
  exists s, t. split; [|split].
  - unfold pt. cbn [vx vy]. f_equal.
    + apply (Rmult_eq_reg_r den); auto. unfold s, t. field_simplify; auto. unfold den. field_simplify. lra.
    + apply (Rmult_eq_reg_r den); auto. unfold s, t. field_simplify; auto. unfold den. field_simplify. lra.
  - intros s' t' E. unfold pt in E. cbn [vx vy] in E. inversion E as [[Ex Ey]].
    split.
    + apply (Rmult_eq_reg_r den); auto. unfold s.
      transitivity ((cy - dy) * (ax - cx) - (cx - dx) * (ay - cy)); [|field; auto]. unfold den.
      pose proof (f_equal (Rmult (cy - dy)) Ex). pose proof (f_equal (Rmult (cx - dx)) Ey). lra.
    + apply (Rmult_eq_reg_r den); auto. unfold t.
      transitivity ((bx - ax) * (ay - cy) - (by' - ay) * (ax - cx)); [|field; auto]. unfold den.
      pose proof (f_equal (Rmult (by' - ay)) Ex). pose proof (f_equal (Rmult (bx - ax)) Ey). lra.
  - destruct (Rleb 0 s && Rleb s 1 && (Rleb 0 t && Rleb t 1))%bool; auto.
    unfold pt; cbn [vx vy]. do 3 f_equal; f_equal; apply Rmult_comm || (f_equal; apply Rmult_comm).
Qed.

Lemma parallel_dec p0 p1 p2 p3 : {parallel p0 p1 p2 p3} + {~ parallel p0 p1 p2 p3}.
Proof. apply Req_EM_T. Qed.

(** The parallel case reduces to scalars. *)
Definition inner (x a b : R) : bool :=
  if Req_EM_T x a then false else if Req_EM_T x b then false
  else if (Rleb (Rmin a b) x && Rleb x (Rmax a b))%bool then true else false.

Lemma inner_spec x a b : inner x a b = true <-> x <> a /\ x <> b /\ btw x a b.
Proof.
  unfold inner. destruct (Req_EM_T x a), (Req_EM_T x b);
  try (split; [discriminate|tauto]).
  pose proof (minmax_btw x a b) as M.
  destruct (Rleb (Rmin a b) x && Rleb x (Rmax a b))%bool; split; try tauto; try discriminate.
Qed.

Lemma cond_inner (p0 p1 : vec2 R) x a b : p0 <> p1 -> a <> b -> fin (pt p0 p1 a) -> fin (pt p0 p1 b) ->
  (vneqb (pt p0 p1 x) (pt p0 p1 a) && vneqb (pt p0 p1 x) (pt p0 p1 b) &&
   point_between_two_point (pt p0 p1 x) (pt p0 p1 a) (pt p0 p1 b))%bool = inner x a b.
Proof.
  intros Hne Hab F1 F2. apply Bool.eq_iff_eq_true.
  rewrite inner_spec, !andb_true_iff, between_line by auto.
  unfold vneqb. rewrite !negb_true_iff, !veqb_R_false.
  split; intros [[H1 H2] H3] || intros (H1 & H2 & H3); repeat split; auto; congruence || (intros E; apply pt_inj in E; auto).
Qed.

Lemma par_den (p0 p1 p2 p3 : vec2 R) : parallel p0 p1 p2 p3 ->
  (n_eqb (n_sub (n_mul (vy (vsub p1 p0)) (vx (vsub p2 p3))) (n_mul (vx (vsub p1 p0)) (vy (vsub p2 p3))))
     (n_ofZ 0)) = true.
Proof.
  destruct p0, p1, p2, p3. unfold parallel. rn. intros. apply Reqb_true. lra.
Qed.

Definition opt {A} (c : bool) (x : A) : list A := if c then [x] else [].

Lemma collinear_case (p0 p1 p2 p3 : vec2 R) : ends_ok p0 p1 p2 p3 -> parallel p0 p1 p2 p3 ->
  on_segment p0 p2 p3 ->
  exists u v, u <> v /\ p2 = pt p0 p1 u /\ p3 = pt p0 p1 v /\
    intersect_lines p0 p1 p2 p3 =
      Ok (opt (inner 0 u v) (Isect p0 0 (- u / (v - u))) ++
          opt (inner 1 u v) (Isect p1 1 ((1 - u) / (v - u))) ++
          opt (inner u 0 1) (Isect p2 u 0) ++ opt (inner v 0 1) (Isect p3 v 1)).
Proof.
  intros (Hne & Hne2 & F0 & F1 & F2 & F3) Hp Hon.
  destruct (common_line p0 p1 p2 p3 Hne Hp Hon) as (u & v & E2 & E3).
  assert (Huv : u <> v) by (intros ->; congruence).
  exists u, v. split; [auto|split; [auto|split; [auto|]]].
  pose proof (pt_0 p0 p1) as P0. pose proof (pt_1 p0 p1) as P1.
  unfold intersect_lines.
  match goal with |- (if (?c || _)%bool then _ else _) = _ => replace c with true by (symmetry; exact (par_den _ _ _ _ Hp)) end.
  cbn [orb].
  replace (n_eqb (dist2_point_line p0 p2 p3) (n_ofZ 0)) with true.
  2: { symmetry. rops. apply Reqb_true. apply dist0_on_segment; auto. }
  assert (C1 : (vneqb p0 p2 && vneqb p0 p3 && point_between_two_point p0 p2 p3)%bool = inner 0 u v).
  { rewrite <- (cond_inner p0 p1 0 u v) by (auto; congruence). rewrite P0, <- E2, <- E3. auto. }
  assert (C2 : (vneqb p1 p2 && vneqb p1 p3 && point_between_two_point p1 p2 p3)%bool = inner 1 u v).
  { rewrite <- (cond_inner p0 p1 1 u v) by (auto; congruence). rewrite P1, <- E2, <- E3. auto. }
  assert (C3 : (vneqb p2 p0 && vneqb p2 p1 && point_between_two_point p2 p0 p1)%bool = inner u 0 1).
  { rewrite <- (cond_inner p0 p1 u 0 1) by (auto; try lra; congruence). rewrite P0, P1, <- E2. auto. }
  assert (C4 : (vneqb p3 p0 && vneqb p3 p1 && point_between_two_point p3 p0 p1)%bool = inner v 0 1).
  { rewrite <- (cond_inner p0 p1 v 0 1) by (auto; try lra; congruence). rewrite P0, P1, <- E3. auto. }
  rewrite C1, C2, C3, C4.
  assert (R0 : forall x, (if n_eqb (vy (vsub p2 p3)) (n_ofZ 0)
                then n_div (vx (vsub (pt p0 p1 x) p2)) (n_neg (vx (vsub p2 p3)))
                else n_div (vy (vsub (pt p0 p1 x) p2)) (n_neg (vy (vsub p2 p3)))) = (x - u) / (v - u)).
  { intros x. rewrite E2, E3. destruct p0 as [ax ay], p1 as [bx by']. unfold pt. rn.
    destruct (Reqb _ _) eqn:E; rbool.
    - assert (by' - ay = 0).
      { assert ((u - v) * (by' - ay) = 0) by lra. apply Rmult_integral in H as []; lra. }
      assert (bx - ax <> 0) by (intros Z2; apply Hne; f_equal; lra).
      field. split; [lra|]. intros Z2. assert ((v - u) * (bx - ax) = 0) by lra.
      apply Rmult_integral in H1 as []; lra.
    - assert (by' - ay <> 0) by (intros Z2; rewrite Z2 in E; lra).
      field. split; [lra|]. intros Z2. assert ((v - u) * (by' - ay) = 0) by lra.
      apply Rmult_integral in H0 as []; lra. }
  assert (L0 : forall x, (if n_eqb (vy (vsub p1 p0)) (n_ofZ 0)
                then n_div (vx (vsub (pt p0 p1 x) p0)) (vx (vsub p1 p0))
                else n_div (vy (vsub (pt p0 p1 x) p0)) (vy (vsub p1 p0))) = x).
  { intros x. destruct p0 as [ax ay], p1 as [bx by']. unfold pt. rn.
    destruct (Reqb _ _) eqn:E; rbool.
    - assert (bx - ax <> 0) by (intros Z2; apply Hne; f_equal; lra). field. auto.
    - field; auto. }
  pose proof (R0 0) as R00. pose proof (R0 1) as R01. pose proof (L0 u) as Lu. pose proof (L0 v) as Lv.
  rewrite P0 in R00. rewrite P1 in R01. rewrite <- E2 in Lu. rewrite <- E3 in Lv.
  rewrite R00, R01, Lu, Lv. rops.
  replace (0 - u) with (- u) by ring.
  (* at most two of the four conditions hold *)
  assert (K : inner 0 u v = true -> inner 1 u v = true -> inner u 0 1 = false /\ inner v 0 1 = false).
  { rewrite <- !not_true_iff_false, !inner_spec. unfold btw. lra. }
  assert (K2 : inner u 0 1 = true -> inner v 0 1 = true -> inner 0 u v = false /\ inner 1 u v = false).
  { rewrite <- !not_true_iff_false, !inner_spec. unfold btw. lra. }
  destruct (inner 0 u v) eqn:I1, (inner 1 u v) eqn:I2, (inner u 0 1) eqn:I3, (inner v 0 1) eqn:I4;
    try (destruct (K eq_refl eq_refl); discriminate); try (destruct (K2 eq_refl eq_refl); discriminate);
    reflexivity.
Qed.

Lemma pt_param_R p2 p3 x u v p0 p1 : u <> v -> p2 = pt p0 p1 u -> p3 = pt p0 p1 v ->
  pt p0 p1 x = pt p2 p3 ((x - u) / (v - u)).
Proof. intros H -> ->. rewrite pt_pt. f_equal. field. lra. Qed.

Lemma btw_param x u v : u <> v -> btw x u v -> 0 <= (x - u) / (v - u) <= 1.
Proof.
  intros Huv H.
  assert (E : (x - u) / (v - u) = (u - x) / (u - v)) by (field; lra).
  destruct (Rlt_dec u v).
  - assert (0 < / (v - u)) by (apply Rinv_0_lt_compat; lra).
    assert (I : (v - u) * / (v - u) = 1) by (field; lra). unfold Rdiv, btw in *. split; nra.
  - rewrite E. assert (0 < / (u - v)) by (apply Rinv_0_lt_compat; lra).
    assert (I : (u - v) * / (u - v) = 1) by (field; lra). unfold Rdiv, btw in *. split; nra.
Qed.

Lemma in_opt {A} c (x y : A) : In y (opt c x) <-> c = true /\ y = x.
Proof. destruct c; cbn; intuition congruence. Qed.

(** C16 soundness *)
Lemma C16_sound_lemma (p0 p1 p2 p3 : vec2 R) l : ends_ok p0 p1 p2 p3 ->
  intersect_lines p0 p1 p2 p3 = Ok l -> forall i, In i l -> meets p0 p1 p2 p3 i.
Proof.
  intros Hok E i Hi. destruct (parallel_dec p0 p1 p2 p3) as [Hp|Hp].
  - destruct (Req_dec (dist2_point_line p0 p2 p3) 0) as [Z|Z].
    + assert (Hon : on_segment p0 p2 p3) by (apply dist0_on_segment; auto; apply Hok).
      destruct (collinear_case _ _ _ _ Hok Hp Hon) as (u & v & Huv & E2 & E3 & El).
      rewrite El in E. inversion E; subst l; clear E. 
      rewrite !in_app_iff, !in_opt, !inner_spec in Hi.
      pose proof (pt_param_R p2 p3 0 u v p0 p1 Huv E2 E3) as Q0.
      pose proof (pt_param_R p2 p3 1 u v p0 p1 Huv E2 E3) as Q1.
      rewrite pt_0 in Q0. rewrite pt_1 in Q1. replace (0 - u) with (- u) in Q0 by ring.
      destruct Hi as [[(_ & _ & H) ->]|[[(_ & _ & H) ->]|[[(_ & _ & H) ->]|[(_ & _ & H) ->]]]];
        unfold meets; cbn [ip it0 it1].
      * apply btw_param in H; auto. replace (0 - u) with (- u) in H by ring.
        repeat split; try lra; auto. rewrite pt_0; auto.
      * apply btw_param in H; auto. repeat split; try lra; auto. rewrite pt_1; auto.
      * unfold btw in H. repeat split; try lra; auto. rewrite pt_0; auto.
      * unfold btw in H. repeat split; try lra; auto. rewrite pt_1; auto.
    + exfalso. unfold intersect_lines in E. 
      replace (n_eqb (dist2_point_line p0 p2 p3) (n_ofZ 0)) with false in E
        by (symmetry; rops; apply Reqb_false; auto).
      match type of E with (if ?c then _ else _) = _ => replace c with true in E end.
      * inversion E; subst; contradiction.
      * symmetry. apply orb_true_iff. left. exact (par_den _ _ _ _ Hp).
  - destruct (lines_cross _ _ _ _ Hp) as (s & t & Em & _ & El). rewrite El in E.
    destruct (Rleb 0 s && Rleb s 1 && (Rleb 0 t && Rleb t 1))%bool eqn:C; inversion E; subst; [|contradiction].
    rbool. destruct Hi as [<-|[]]. unfold meets; cbn [ip it0 it1]. repeat split; auto.
Qed.

(** C16 completeness, non-parallel *)
Lemma C16_complete_lemma (p0 p1 p2 p3 : vec2 R) s t : ~ parallel p0 p1 p2 p3 ->
  0 <= s <= 1 -> 0 <= t <= 1 -> pt p0 p1 s = pt p2 p3 t ->
  intersect_lines p0 p1 p2 p3 = Ok [Isect (pt p0 p1 s) s t].
Proof.
  intros Hp Hs Ht E. destruct (lines_cross _ _ _ _ Hp) as (s' & t' & _ & U & El).
  destruct (U s t E) as [-> ->]. rewrite El.
  assert ((Rleb 0 s' && Rleb s' 1 && (Rleb 0 t' && Rleb t' 1))%bool = true) as ->; auto.
  rewrite !andb_true_iff, !Rleb_true. lra.
Qed.

(** C16 for collinear segments when p0 touches p2p3 *)
Lemma C16_collinear_partial_lemma (p0 p1 p2 p3 : vec2 R) : ends_ok p0 p1 p2 p3 ->
  parallel p0 p1 p2 p3 -> on_segment p0 p2 p3 ->
  exists l, intersect_lines p0 p1 p2 p3 = Ok l /\
    forall p, In p (map ip l) <-> inner_end p0 p1 p2 p3 p.
Proof.
  intros Hok Hp Hon.
  destruct (collinear_case _ _ _ _ Hok Hp Hon) as (u & v & Huv & E2 & E3 & El).
  eexists. split; [exact El|]. destruct Hok as (Hne & Hne2 & _).
  assert (S23 : forall x, on_segment (pt p0 p1 x) p2 p3 <-> btw x u v).
  { intros x. split.
    - intros (t & Ht & E). rewrite E2, E3, pt_pt in E. apply pt_inj in E; auto. subst x.
      unfold btw. destruct (Rle_dec u v); [left|right]; nra.
    - intros B. exists ((x - u) / (v - u)). split; [apply btw_param; auto|].
      apply pt_param_R; auto. }
  assert (S01 : forall x, on_segment (pt p0 p1 x) p0 p1 <-> btw x 0 1).
  { intros x. split.
    - intros (t & Ht & E). apply pt_inj in E; auto. subst. unfold btw; lra.
    - intros B. exists x. unfold btw in B. split; [lra|auto]. }
  pose proof (pt_0 p0 p1) as P0. pose proof (pt_1 p0 p1) as P1.
  assert (NE : forall x y, x <> y <-> pt p0 p1 x <> pt p0 p1 y).
  { intros x y. split; [intros H E; apply pt_inj in E; auto|congruence]. }
  assert (I0 : inner 0 u v = true <-> on_segment p0 p2 p3 /\ p0 <> p2 /\ p0 <> p3).
  { rewrite inner_spec, (NE 0 u), (NE 0 v), <- S23, P0, <- E2, <- E3. tauto. }
  assert (I1 : inner 1 u v = true <-> on_segment p1 p2 p3 /\ p1 <> p2 /\ p1 <> p3).
  { rewrite inner_spec, (NE 1 u), (NE 1 v), <- S23, P1, <- E2, <- E3. tauto. }
  assert (I2 : inner u 0 1 = true <-> on_segment p2 p0 p1 /\ p2 <> p0 /\ p2 <> p1).
  { rewrite inner_spec, (NE u 0), (NE u 1), <- S01, P0, P1, <- E2. tauto. }
  assert (I3 : inner v 0 1 = true <-> on_segment p3 p0 p1 /\ p3 <> p0 /\ p3 <> p1).
  { rewrite inner_spec, (NE v 0), (NE v 1), <- S01, P0, P1, <- E3. tauto. }
  intros p. rewrite !map_app, !in_app_iff.
  assert (MO : forall c i, In p (map ip (opt c i)) <-> c = true /\ p = ip i).
  { intros c i. destruct c; cbn; intuition congruence. }
  rewrite !MO, I0, I1, I2, I3. cbn [ip]. unfold inner_end.
  split.
  - intros [[? ->]|[[? ->]|[[? ->]|[? ->]]]]; tauto.
  - intros [[[->| ->] ?]|[[->| ->] ?]]; tauto.
Qed.

(** but a segment strictly inside the other one goes unnoticed *)
Lemma R_huge_big : 1000 <= R_huge.
Proof. unfold R_huge. apply IZR_le. vm_compute. discriminate. Qed.

Lemma C16_collinear_refuted_lemma : exists (p0 p1 p2 p3 p : vec2 R), ends_ok p0 p1 p2 p3 /\
  parallel p0 p1 p2 p3 /\ inner_end p0 p1 p2 p3 p /\ intersect_lines p0 p1 p2 p3 = Ok [].
Proof.
  exists (V2 0 0), (V2 10 0), (V2 2 0), (V2 4 0), (V2 2 0). pose proof R_huge_big.
  split; [|split; [|split]].
  - unfold ends_ok, fin. cbn [vx vy].
    split; [intros E; inversion E; lra|]. split; [intros E; inversion E; lra|]. lra.
  - unfold parallel. cbn. lra.
  - right. split; [auto|]. split; [exists (2/10); split; [lra|unfold pt; cbn; f_equal; lra]|].
    split; intros E; inversion E; lra.
  - unfold intersect_lines.
    replace (n_eqb (dist2_point_line _ _ _) _) with false.
    + destruct (_ || _)%bool eqn:E; auto.
      apply orb_false_iff in E as [E _]. rn_all. apply Reqb_false in E. lra.
    + symmetry. rops. apply Reqb_false. unfold dist2_point_line. rn.
      replace (Rltb _ 0) with true by (symmetry; apply Rltb_true; lra). lra.
Qed.

(** C17 *)
Lemma C17_lemma (p0 p1 p2 p3 : vec2 R) : ends_ok p0 p1 p2 p3 ->
  exists l, intersect_lines p0 p1 p2 p3 = Ok l /\ (length l <= 2)%nat.
Proof.
  intros Hok. destruct (parallel_dec p0 p1 p2 p3) as [Hp|Hp].
  - destruct (Req_dec (dist2_point_line p0 p2 p3) 0) as [Z|Z].
    + assert (Hon : on_segment p0 p2 p3) by (apply dist0_on_segment; auto; apply Hok).
      destruct (collinear_case _ _ _ _ Hok Hp Hon) as (u & v & Huv & E2 & E3 & El).
      eexists. split; [exact El|]. 
      assert (K : inner 0 u v = true -> inner 1 u v = true -> inner u 0 1 = false /\ inner v 0 1 = false).
      { rewrite <- !not_true_iff_false, !inner_spec. unfold btw. lra. }
      assert (K2 : inner u 0 1 = true -> inner v 0 1 = true -> inner 0 u v = false /\ inner 1 u v = false).
      { rewrite <- !not_true_iff_false, !inner_spec. unfold btw. lra. }
      destruct (inner 0 u v) eqn:I1, (inner 1 u v) eqn:I2, (inner u 0 1) eqn:I3, (inner v 0 1) eqn:I4;
      try (destruct (K eq_refl eq_refl); discriminate); try (destruct (K2 eq_refl eq_refl); discriminate);
      cbn; lia.
    + exists []. split; [|cbn; lia]. unfold intersect_lines.
      replace (n_eqb (dist2_point_line p0 p2 p3) (n_ofZ 0)) with false
        by (symmetry; rops; apply Reqb_false; auto).
      match goal with |- (if ?c then _ else _) = _ => replace c with true end; auto.
      symmetry. apply orb_true_iff. left. exact (par_den _ _ _ _ Hp).
  - destruct (lines_cross _ _ _ _ Hp) as (s & t & _ & _ & El). eexists. split; [exact El|].
    destruct (_ && _)%bool; cbn; lia.
Qed.
