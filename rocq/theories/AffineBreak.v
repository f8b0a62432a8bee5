(** The breaks of polygons that are moved and scaled. *)
From Coq Require Import ZArith Bool List Reals Lra Lia Permutation.
From Verif Require Import Outcome Num Order Rmath Segment Path PathSpec RTac ScanLine VState VPath VBreak VLemmas
  RingSpec BreakSpec LineSpec LineR BreakLines EquiMap EquiLoad StretchSpec AffineSpec.
Import ListNotations.
Local Open Scope out.

(** *** One coordinate *)
Section One.
  Variables a b : R.
  Hypothesis A : (0 < a)%R.
  Lemma aff_sub x y : (affine a b x - affine a b y = a * (x - y))%R.
  Proof. unfold affine. ring. Qed.
  Lemma aff_lt x y : (affine a b x < affine a b y <-> x < y)%R.
  Proof.
    unfold affine. split; intros H; [|apply Rplus_lt_compat_r, Rmult_lt_compat_l; auto].
    apply (Rmult_lt_reg_l a); auto. lra.
  Qed.
  Lemma aff_le x y : (affine a b x <= affine a b y <-> x <= y)%R.
  Proof. split; intros H; apply Rnot_lt_le; intros K; [apply aff_lt in K|apply (proj1 (aff_lt _ _)) in K]; lra. Qed.
  Lemma aff_inj x y : affine a b x = affine a b y <-> x = y.
  Proof. split; [intros H|now intros ->]. apply Rle_antisym; apply aff_le; lra. Qed.
  Lemma aff_ltb x y : Rltb (affine a b x) (affine a b y) = Rltb x y.
  Proof. destruct (Rltb x y) eqn:E; rbool; [apply Rltb_true, aff_lt|apply Rltb_false, aff_le]; auto. Qed.
  Lemma aff_leb x y : Rleb (affine a b x) (affine a b y) = Rleb x y.
  Proof. destruct (Rleb x y) eqn:E; rbool; [apply Rleb_true, aff_le|apply Rleb_false, aff_lt]; auto. Qed.
  Lemma aff_eqb x y : Reqb (affine a b x) (affine a b y) = Reqb x y.
  Proof. destruct (Reqb x y) eqn:E; rbool; [apply Reqb_true, aff_inj|apply Reqb_false; rewrite aff_inj]; auto. Qed.
  Lemma aff_min x y : n_min (T := R) (affine a b x) (affine a b y) = affine a b (n_min (T := R) x y).
  Proof. unfold n_min. rops. rewrite aff_ltb. now destruct (Rltb _ _). Qed.
  Lemma aff_max x y : n_max (T := R) (affine a b x) (affine a b y) = affine a b (n_max (T := R) x y).
  Proof. unfold n_max. rops. rewrite aff_ltb. now destruct (Rltb _ _). Qed.
  Lemma scale_div u v : (a * u / (a * v) = u / v)%R.
  Proof. destruct (Req_dec v 0) as [->|N]; [rewrite Rmult_0_r; unfold Rdiv; rewrite Rinv_0; ring|field; lra]. Qed.
  Lemma scale_zero v : Reqb (a * v) 0 = Reqb v 0.
  Proof. destruct (Reqb v 0) eqn:E; rbool; [apply Reqb_true; subst; ring|apply Reqb_false; intros H; apply Rmult_integral in H as [H|H]; lra]. Qed.
End One.

Section Affine.
  Variables a b c d : R.
  Hypotheses (A : (0 < a)%R) (C : (0 < c)%R).
  Let fx := affine a b.
  Let fy := affine c d.
  Notation m := (moved fx fy).
  Lemma moved_veqb p q : veqb (m p) (m q) = veqb p q.
  Proof. unfold veqb. cbn [moved vx vy]. rops. unfold fx, fy. now rewrite !aff_eqb. Qed.
  Lemma moved_vneqb p q : vneqb (m p) (m q) = vneqb p q.
  Proof. unfold vneqb. now rewrite moved_veqb. Qed.
  Lemma moved_inj p q : m p = m q <-> p = q.
  Proof. split; [|now intros ->]. intros H. unfold moved, fx, fy in H. injection H as H1 H2. apply aff_inj in H1, H2; auto. now apply vec_eq. Qed.
  Definition moved_rect (r : rect R) : rect R := Rect (m (rmin r)) (m (rmax r)).
  Lemma box2 (p q : vec2 R) : fin p -> fin q ->
    rect_from [p; q] = Rect (V2 (n_min (vx p) (vx q)) (n_min (vy p) (vy q))) (V2 (n_max (vx p) (vx q)) (n_max (vy p) (vy q))).
  Proof.
    intros (P1 & P2) _. unfold rect_from. cbn [fold_left]. unfold rect_from_step. cbn [rmin rmax vx vy].
    assert (L : forall x, (- R_huge <= x <= R_huge)%R -> n_min (T := R) n_huge x = x).
    { intros x H. unfold n_min. rops. destruct (Rltb x R_huge) eqn:E; rbool; auto. lra. }
    assert (G : forall x, (- R_huge <= x <= R_huge)%R -> n_max (T := R) (n_neg n_huge) x = x).
    { intros x H. unfold n_max. rops. destruct (Rltb (- R_huge) x) eqn:E; rbool; auto. lra. }
    now rewrite !L, !G by auto.
  Qed.
  Lemma moved_box p q : fin p -> fin q -> fin (m p) -> fin (m q) -> rect_from [m p; m q] = moved_rect (rect_from [p; q]).
  Proof.
    intros. rewrite !box2 by auto. unfold moved_rect, moved, fx, fy. cbn [vx vy rmin rmax]. now rewrite !aff_min, !aff_max.
  Qed.
  Lemma moved_meet r r' : rect_intersect (moved_rect r) (moved_rect r') = rect_intersect r r'.
  Proof. unfold rect_intersect, moved_rect. cbn [rmin rmax moved vx vy]. rops. unfold fx, fy. now rewrite !aff_ltb. Qed.
  Lemma moved_between p q r : fin q -> fin r -> fin (m q) -> fin (m r) ->
    point_between_two_point (m p) (m q) (m r) = point_between_two_point p q r.
  Proof.
    intros. unfold point_between_two_point. rewrite moved_box by auto. unfold moved_rect. cbn [rmin rmax moved vx vy]. rops. unfold fx, fy. now rewrite !aff_eqb, !aff_leb.
  Qed.
  Lemma moved_pt p q t : m (pt p q t) = pt (m p) (m q) t.
  Proof. unfold moved, pt, fx, fy, affine. cbn [ip vx vy]. f_equal; ring. Qed.
  Lemma dist_same p q : dist2_point_line (T := R) p q q = 0%R <-> p = q.
  Proof.
    unfold dist2_point_line. cbv zeta. unfold vdist2, vdot, vsub, vadd, vmul. cbn [vx vy]. rops.
    rewrite !Rminus_eq_0, !Rmult_0_l, Rplus_0_r. replace (Rltb 0 0) with false by (symmetry; apply Rltb_false; lra). rewrite !Rplus_0_r.
    destruct p as [px py], q as [qx qy]. cbn [vx vy]. split; [intros H|intros E; injection E as -> ->; ring].
    assert (S : forall x y, (x * x + y * y = 0 -> x = 0)%R).
    { intros x y E. pose proof (Rle_0_sqr x) as P1. pose proof (Rle_0_sqr y) as P2. unfold Rsqr in *. assert (E0 : (x * x = 0)%R) by lra. apply Rmult_integral in E0. tauto. }
    assert (E1 : (px - qx = 0)%R) by (eapply S; exact H). assert (E2 : (py - qy = 0)%R) by (eapply S; rewrite Rplus_comm; exact H). f_equal; lra.
  Qed.
  Lemma moved_dist0 p q r : Reqb (dist2_point_line (m p) (m q) (m r)) 0 = Reqb (dist2_point_line p q r) 0.
  Proof.
    assert (D : q = r \/ q <> r).
    { destruct q as [qx qy], r as [rx ry]. destruct (Req_dec qx rx) as [->|N]; [|right; congruence]. destruct (Req_dec qy ry) as [->|N]; [now left|right; congruence]. }
    destruct D as [->|N].
    { destruct (Reqb (dist2_point_line p r r) 0) eqn:E; rbool; [apply Reqb_true|apply Reqb_false]; rewrite dist_same in *; rewrite moved_inj; auto. }
    assert (K : dist2_point_line (m p) (m q) (m r) = 0%R <-> dist2_point_line p q r = 0%R).
    { rewrite !dist0_on_segment; auto; [|now rewrite moved_inj]. unfold on_segment. split; intros (t & T & E); exists t; split; auto.
      - apply moved_inj. now rewrite moved_pt. - now rewrite E, moved_pt. }
    destruct (Reqb (dist2_point_line p q r) 0) eqn:E; rbool; [apply Reqb_true|apply Reqb_false]; tauto.
  Qed.
  Definition moved_isect (i : isect R) : isect R := Isect (m (ip i)) (it0 i) (it1 i).
  Lemma moved_push k n l x : push_if k n (map moved_isect l) (moved_isect x) = omap (map moved_isect) (push_if k n l x).
  Proof. unfold push_if, push_res. destruct k; [|reflexivity]. rewrite map_length. destruct (Nat.ltb (length l) n); cbn; auto. now rewrite map_app. Qed.
  Lemma moved_lines p0 p1 p2 p3 : fin p0 -> fin p1 -> fin p2 -> fin p3 -> fin (m p0) -> fin (m p1) -> fin (m p2) -> fin (m p3) ->
    intersect_lines (m p0) (m p1) (m p2) (m p3) = omap (map moved_isect) (intersect_lines p0 p1 p2 p3).
  Proof.
    intros F0 F1 F2 F3 G0 G1 G2 G3. unfold intersect_lines. cbv zeta.
    set (u := vsub p1 p0). set (v := vsub p2 p3). set (w := vsub p0 p2).
    assert (SX : forall p q, vx (vsub (m p) (m q)) = (a * vx (vsub p q))%R) by (intros; cbn [vsub moved vx vy]; rops; unfold fx; apply aff_sub).
    assert (SY : forall p q, vy (vsub (m p) (m q)) = (c * vy (vsub p q))%R) by (intros; cbn [vsub moved vx vy]; rops; unfold fy; apply aff_sub).
    rewrite !SX, !SY. fold u v w.
    set (ux := vx u). set (uy := vy u). set (vx' := vx v). set (vy' := vy v). set (wx := vx w). set (wy := vy w).
    rops. cbn [negb]. rewrite !orb_false_r.
    replace (c * uy * (a * vx') - a * ux * (c * vy'))%R with ((a * c) * (uy * vx' - ux * vy'))%R by ring.
    assert (AC : (0 < a * c)%R) by (apply Rmult_lt_0_compat; auto).
    rewrite (scale_zero (a * c)) by auto. destruct (Reqb (uy * vx' - ux * vy') 0) eqn:D.
    - rewrite moved_dist0. destruct (Reqb (dist2_point_line p0 p2 p3) 0) eqn:D3; [|reflexivity].
      all: rewrite !moved_vneqb, !moved_between, !scale_zero by auto.
      all: replace (- (a * vx'))%R with (a * - vx')%R by ring; replace (- (c * vy'))%R with (c * - vy')%R by ring.
      all: rewrite !scale_div by auto.
      all: match goal with |- bind (push_if ?B ?n _ (Isect (m ?p) ?s ?t)) _ = _ => change (Isect (m p) s t) with (moved_isect (Isect p s t)) end.
      all: change (@nil (isect R)) with (map moved_isect []) at 1.
      all: rewrite moved_push; destruct (push_if _ _ [] _) as [l1| | |]; cbn [omap bind]; auto.
      all: match goal with |- bind (push_if ?B ?n _ (Isect (m ?p) ?s ?t)) _ = _ => change (Isect (m p) s t) with (moved_isect (Isect p s t)) end.
      all: rewrite moved_push; destruct (push_if _ _ l1 _) as [l2| | |]; cbn [omap bind]; auto.
      all: match goal with |- bind (push_if ?B ?n _ (Isect (m ?p) ?s ?t)) _ = _ => change (Isect (m p) s t) with (moved_isect (Isect p s t)) end.
      all: rewrite moved_push; destruct (push_if _ _ l2 _) as [l3| | |]; cbn [omap bind]; auto.
      all: match goal with |- push_if ?B ?n _ (Isect (m ?p) ?s ?t) = _ => change (Isect (m p) s t) with (moved_isect (Isect p s t)) end.
      all: apply moved_push.
    - rbool.
      replace ((c * vy' * (a * wx) - a * vx' * (c * wy)) * (1 / (a * c * (uy * vx' - ux * vy'))))%R
        with ((vy' * wx - vx' * wy) * (1 / (uy * vx' - ux * vy')))%R by (field; csplit; lra).
      replace ((a * ux * (c * wy) - c * uy * (a * wx)) * (1 / (a * c * (uy * vx' - ux * vy'))))%R
        with ((ux * wy - uy * wx) * (1 / (uy * vx' - ux * vy')))%R by (field; csplit; lra).
      match goal with |- (if ?B then _ else _) = _ => destruct B end; [|reflexivity].
      cbn [omap bind map moved_isect ip it0 it1].
      match goal with |- Ok [Isect _ ?s ?t] = _ => apply (f_equal (fun p => Ok [Isect p s t])) end.
      unfold vadd, vmul. rops. rewrite SX, SY. fold u ux uy. unfold moved, fx, fy, affine. cbn [ip vx vy]. f_equal; ring.
  Qed.

  (** *** The scan *)
  Definition moved_point (p : scan_point R) : scan_point R := SP (fx (sp_x p)) (sp_in p) (sp_out p).
  Lemma moved_at x f ps : (forall p, f (moved_point p) = moved_point (f p)) -> at_point (fx x) f (map moved_point ps) = map moved_point (at_point x f ps).
  Proof.
    intros H. assert (E : f (SP (fx x) [] []) = moved_point (f (SP x [] []))) by apply (H (SP x [] [])).
    induction ps as [|p ps IH]; cbn [at_point map]; [now rewrite E|]. cbn [moved_point sp_x]. rops. unfold fx at 1 2 4 5. rewrite !aff_ltb by auto.
    destruct (Rltb x (sp_x p)); [cbn; now rewrite E|]. destruct (Rltb (sp_x p) x); cbn; [now rewrite IH|now rewrite H].
  Qed.
  Definition moved_scan (l : scan_line R) : scan_line R := SL (map moved_point (sl_points l)) (map moved_rect (sl_boxes l)).
  Lemma moved_segment l r : add_segment (moved_scan l) (moved_rect r) = moved_scan (add_segment l r).
  Proof.
    unfold add_segment, moved_scan. cbn [sl_points sl_boxes]. rewrite map_length, map_app. cbn [map moved_rect rmin rmax]. unfold moved at 1 2. cbn [vx].
    rewrite !moved_at by reflexivity. reflexivity.
  Qed.
  Lemma moved_scan_of bs : scan_of (map moved_rect bs) = moved_scan (scan_of bs).
  Proof.
    unfold scan_of. change (@sl_empty R) with (moved_scan (@sl_empty R)) at 1. generalize (@sl_empty R) as l.
    induction bs as [|x bs IH]; intros l; cbn [map fold_left]; auto. now rewrite moved_segment, IH.
  Qed.
  (** the numbers in a scan are those of its boxes *)
  Definition low (n : nat) (p : scan_point R) : Prop := Forall (fun i => i < n) (sp_in p).
  Lemma low_at n x f ps : (forall p, low n p -> low n (f p)) -> Forall (low n) ps -> Forall (low n) (at_point x f ps).
  Proof.
    intros H. assert (E : low n (SP x [] [])) by constructor.
    induction 1; cbn [at_point]; [constructor; auto|]. destruct (n_ltb x (sp_x x0)); [auto|]. destruct (n_ltb (sp_x x0) x); auto.
  Qed.
  Lemma low_scan bs : length (sl_boxes (scan_of bs)) = length bs /\ Forall (low (length bs)) (sl_points (scan_of bs)).
  Proof.
    unfold scan_of. assert (G : forall (l : scan_line R), Forall (low (length (sl_boxes l))) (sl_points l) ->
      length (sl_boxes (fold_left add_segment bs l)) = length (sl_boxes l) + length bs /\
      Forall (low (length (sl_boxes (fold_left add_segment bs l)))) (sl_points (fold_left add_segment bs l))).
    { induction bs as [|x bs IH]; intros l H; cbn [fold_left length]; [split; auto; lia|].
      assert (L : length (sl_boxes (add_segment l x)) = S (length (sl_boxes l))) by (cbn; rewrite app_length; cbn; lia).
      destruct (IH (add_segment l x)) as (I1 & I2).
      - rewrite L. unfold add_segment. cbn [sl_points].
        apply low_at; [intros p Hp; exact Hp|]. apply low_at; [intros p Hp; apply Forall_app; split; [exact Hp|constructor; [lia|constructor]]|].
        eapply Forall_impl; [|exact H]. intros p Hp. eapply Forall_impl; [|exact Hp]. intros; cbn in *; lia.
      - split; auto. rewrite I1, L. lia. }
    destruct (G sl_empty) as (G1 & G2); [constructor|]. cbn [sl_boxes sl_empty length plus] in G1. rewrite G1 in G2. auto.
  Qed.
  Variable order : list nat -> list nat.
  Hypothesis PO : forall l, Permutation (order l) l.
  Lemma box_moved bs i j : i < length bs -> j < length bs ->
    rect_intersect (box_of (map moved_rect bs) i) (box_of (map moved_rect bs) j) = rect_intersect (box_of bs i) (box_of bs j).
  Proof.
    intros I J. unfold box_of. rewrite (nth_indep _ _ (moved_rect (nth i bs (Rect (V2 0%R 0%R) (V2 0%R 0%R))))) by (rewrite map_length; auto).
    rewrite (nth_indep (map moved_rect bs) (n := j) _ (moved_rect (nth i bs (Rect (V2 0%R 0%R) (V2 0%R 0%R))))) by (rewrite map_length; auto).
    set (z := nth i bs _). rewrite (map_nth moved_rect bs z i), (map_nth moved_rect bs z j), moved_meet.
    rewrite (nth_indep bs z (Rect (V2 (n_ofZ 0%Z) (n_ofZ 0%Z)) (V2 (n_ofZ 0%Z) (n_ofZ 0%Z)))) by auto.
    now rewrite (nth_indep bs (n := j) z (Rect (V2 (n_ofZ 0%Z) (n_ofZ 0%Z)) (V2 (n_ofZ 0%Z) (n_ofZ 0%Z)))) by auto.
  Qed.
  Lemma moved_in bs ins : forall cur, Forall (fun i => i < length bs) ins -> Forall (fun i => i < length bs) cur ->
    do_in order (map moved_rect bs) ins cur = do_in order bs ins cur /\ Forall (fun i => i < length bs) (snd (do_in order bs ins cur)).
  Proof.
    induction ins as [|i ins IH]; intros cur I H; cbn [do_in]; auto. apply Forall_cons_iff in I as (I1 & I2).
    destruct (IH (set_insert i cur) I2) as (E & K); [unfold set_insert; destruct (mem i cur); auto|].
    rewrite E. destruct (do_in order bs ins (set_insert i cur)) as (o & cr). cbn [snd] in *. split; auto. do 3 f_equal.
    apply filter_ext_in. intros j Hj. apply box_moved; auto. rewrite Forall_forall in H. apply H. eapply Permutation_in; [apply PO|exact Hj].
  Qed.
  Lemma out_low n outs : forall cur, Forall (fun i => i < n) cur -> Forall (fun i => i < n) (do_out outs cur).
  Proof.
    unfold do_out. induction outs as [|o outs IH]; intros cur H; cbn; auto. apply IH. unfold set_erase. rewrite Forall_forall in *. intros x Hx. apply filter_In in Hx as (Hx & _). auto.
  Qed.
  Lemma moved_points bs ps : Forall (low (length bs)) ps -> forall cur, Forall (fun i => i < length bs) cur ->
    do_points order (map moved_rect bs) (map moved_point ps) cur = do_points order bs ps cur.
  Proof.
    induction 1 as [|p ps P _ IH]; intros cur H; cbn [map do_points]; auto. cbn [moved_point sp_in sp_out].
    destruct (moved_in bs (sp_in p) cur P H) as (-> & K). destruct (do_in order bs (sp_in p) cur) as (o & cr). cbn [snd] in K. f_equal. apply IH. now apply out_low.
  Qed.
  Lemma moved_process bs : scan_process order (scan_of (map moved_rect bs)) = scan_process order (scan_of bs).
  Proof.
    destruct (low_scan bs) as (L & H). unfold scan_process. rewrite moved_scan_of. unfold moved_scan. cbn [sl_boxes sl_points]. apply moved_points; [|constructor]. now rewrite L.
  Qed.
End Affine.

(** *** The breaks *)
Section Breaks.
  Variables a b c d : R.
  Hypotheses (A : (0 < a)%R) (C : (0 < c)%R).
  Let fx := affine a b.
  Let fy := affine c d.
  Notation m := (moved fx fy).
  Notation fv := (fvert fx fy).
  Variable en : env.
  Hypothesis PO : forall l, Permutation (en_order en l) l.
  Variable vs : list (vertex R).
  Variable ls : list (list nat).
  Hypothesis ST : straight vs ls.
  Hypothesis ST2 : straight (map fv vs) ls.
  Definition moved_break (k : break_info R) : break_info R := Break (br_vert k) (m (br_pt k)) (br_t k).
  Lemma both i : In i (concat ls) -> exists v q, nth_error vs i = Some v /\ v_seg v = Some (SLine q) /\ v_pt v <> q /\
    fin (v_pt v) /\ fin q /\ fin (m (v_pt v)) /\ fin (m q).
  Proof.
    intros Hi. destruct (ST i Hi) as (v & q & V & S & NE & F1 & F2). destruct (ST2 i Hi) as (v2 & q2 & V2 & S2 & _ & G1 & G2).
    rewrite nth_error_map, V in V2. injection V2 as <-. cbn in S2. rewrite S in S2. injection S2 as <-. exists v, q. csplit; auto.
  Qed.
  Lemma moved_boxes vids : (forall i, In i vids -> In i (concat ls)) -> vert_boxes (map fv vs) vids = omap (map (moved_rect a b c d)) (vert_boxes vs vids).
  Proof.
    induction vids as [|i vids IH]; intros H; cbn [vert_boxes]; auto. rewrite IH by (intros; apply H; right; auto).
    destruct (both i) as (v & q & V & S & NE & F1 & F2 & G1 & G2); [apply H; now left|].
    unfold vert_box, at_. rewrite nth_error_map, V. cbn [option_map of_opt bind]. cbn [fvert v_seg v_pt]. rewrite S. cbn [option_map of_opt bind fseg seg_boundary].
    change (fp fx fy q) with (m q). change (fp fx fy (v_pt v)) with (m (v_pt v)). unfold fx, fy. rewrite moved_box by auto.
    destruct (vert_boxes vs vids); reflexivity.
  Qed.
  Lemma moved_pair i j l : break_pair i j (map (moved_isect a b c d) l) = map moved_break (break_pair i j l).
  Proof.
    unfold break_pair. induction l as [|x l IH]; cbn [map flat_map]; auto. rewrite IH, !map_app. cbn [moved_isect ip it0 it1].
    destruct (in_open (it0 x)), (in_open (it1 x)); reflexivity.
  Qed.
  Lemma moved_intersect i j : In i (concat ls) -> In j (concat ls) -> seg_intersect en (map fv vs) i j = omap (map moved_break) (seg_intersect en vs i j).
  Proof.
    intros I J. destruct (both i I) as (v & q & V & S & NE & F1 & F2 & G1 & G2). destruct (both j J) as (w & r & W & S' & NE' & H1 & H2 & K1 & K2).
    unfold seg_intersect, at_. rewrite !nth_error_map, V, W. cbn [option_map of_opt bind fvert v_seg v_pt]. rewrite S, S'. cbn [option_map of_opt bind fseg].
    change (fp fx fy) with m. unfold fx, fy. rewrite moved_lines by auto. destruct (intersect_lines _ _ _ _) as [l| | |]; cbn [omap bind]; auto. now rewrite moved_pair.
  Qed.
  Lemma moved_run vids l : (forall i, In i vids -> In i (concat ls)) -> run_pairs en (map fv vs) vids l = omap (map moved_break) (run_pairs en vs vids l).
  Proof.
    intros H. induction l as [|(i & j) l IH]; cbn [run_pairs]; auto. unfold at_.
    destruct (nth_error vids i) as [x|] eqn:X; cbn [of_opt bind]; auto. destruct (nth_error vids j) as [y|] eqn:Y; cbn [of_opt bind]; auto.
    rewrite moved_intersect by (apply H; eapply nth_error_In; eauto). destruct (seg_intersect en vs x y) as [k| | |]; cbn [omap bind]; auto.
    rewrite IH. destruct (run_pairs en vs vids l); cbn [omap bind]; auto. now rewrite map_app.
  Qed.
  Lemma moved_find sts : all_rings vs sts = Ok (concat ls) -> all_rings (map fv vs) sts = Ok (concat ls) ->
    find_breaks en (map fv vs) sts = omap (map moved_break) (find_breaks en vs sts).
  Proof.
    intros R1 R2. unfold find_breaks. rewrite R1, R2. cbn [bind]. rewrite moved_boxes by auto. destruct (vert_boxes vs (concat ls)) as [bs| | |]; cbn [omap bind]; auto.
    rewrite moved_process by auto. now apply moved_run.
  Qed.
  Lemma moved_tidy l : tidy_breaks en (map moved_break l) = map moved_break (tidy_breaks en l).
  Proof.
    unfold tidy_breaks. rewrite (sort_by_map moved_break (break_ltb en) (break_ltb en)) by reflexivity. apply unique_by_map. intros x y _ _.
    unfold break_eqb. cbn [moved_break br_vert br_pt br_t]. unfold fx, fy. now rewrite moved_veqb.
  Qed.
End Breaks.
