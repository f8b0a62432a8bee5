(** The order of sides from left to right. *)
From Coq Require Import ZArith Bool List Reals Lra Lia.
From Verif Require Import Outcome Num Order OrdTac Rmath RTac Segment VState VAel VLemmas RingSpec LineSpec ClimbSpec AelSpec VAelProofs VClimb SpanSpec SpanRing SpanTop PlaneSpec.
Import ListNotations.
Local Open Scope R_scope.

Lemma xat_line a b : vy a < vy b -> exists m c, forall z, xat a b z = m * z + c.
Proof.
  intros H. exists ((vx b - vx a) / (vy b - vy a)), (vx a - (vx b - vx a) / (vy b - vy a) * vy a).
  intros z. unfold xat. field. lra.
Qed.
Lemma xat_bot a b : xat a b (vy a) = vx a.
Proof. unfold xat. unfold Rdiv. replace (vy a - vy a) with 0 by ring. ring. Qed.
Lemma xat_top a b : vy a < vy b -> xat a b (vy b) = vx b.
Proof. intros H. unfold xat. field. lra. Qed.
Lemma xat_on a b z : vy a < vy b -> vy a <= z <= vy b -> on_segment (V2 (xat a b z) z) a b.
Proof.
  intros H K. exists ((z - vy a) / (vy b - vy a)). split.
  - split; [apply Rmult_le_pos; [lra|left; apply Rinv_0_lt_compat; lra]|].
    apply Rmult_le_reg_r with (vy b - vy a); [lra|]. unfold Rdiv. rewrite Rmult_assoc, Rinv_l by lra. lra.
  - unfold pt. apply vec_eq; cbn.
    + unfold xat. field. lra.
    + field. lra.
Qed.
(** [xat] does not depend on the direction. *)
Lemma xat_rev a b z : vy a <> vy b -> xat a b z = xat b a z.
Proof. intros H. unfold xat. field. lra. Qed.
Lemma on_segment_rev p a b : on_segment p a b -> on_segment p b a.
Proof. intros (t & H & ->). exists (1 - t). split; [lra|]. unfold pt. apply vec_eq; cbn; ring. Qed.

(** Two straight lines that do not meet between two heights keep their order. *)
Lemma line_sign m c lo hi : (forall z, lo < z < hi -> m * z + c <> 0) ->
  (forall z, lo < z < hi -> m * z + c < 0) \/ (forall z, lo < z < hi -> 0 < m * z + c).
Proof.
  intros H. destruct (Rlt_dec lo hi) as [L|L]; [|left; intros; lra].
  set (q := (lo + hi) / 2). assert (Q : lo < q < hi) by (unfold q; lra).
  destruct (Rtotal_order (m * q + c) 0) as [S|[S|S]]; [left|exfalso; apply (H q); auto|right]; intros z Z;
    destruct (Rtotal_order (m * z + c) 0) as [S'|[S'|S']]; try lra; exfalso; try (apply (H z Z); lra);
    set (d := m * z + c) in *; set (f := m * q + c) in *.
  - apply (H ((d * q - f * z) / (d - f))).
    + split; apply Rmult_lt_reg_r with (d - f); try lra; unfold Rdiv; rewrite Rmult_assoc, Rinv_l by lra; nra.
    + unfold d, f in *. field. lra.
  - apply (H ((f * z - d * q) / (f - d))).
    + split; apply Rmult_lt_reg_r with (f - d); try lra; unfold Rdiv; rewrite Rmult_assoc, Rinv_l by lra; nra.
    + unfold d, f in *. field. lra.
Qed.

Section Geo.
  Variable vs : list (vertex R).
  Notation Y := (height vs).
  Variables P M : nat -> Prop.
  Hypothesis MK : marked vs P M.
  Hypothesis PL : plane vs P M.
  Notation placed := (placed vs P).

  (** The edge stands on its side, reaches over the height [y] and has its x there. *)
  Definition rises (e : edge R) : Prop := placed e /\ climbing vs e /\ vy (e_bot e) < vy (e_top e).
  Definition over (y : R) (e : edge R) : Prop := rises e /\ vy (e_bot e) <= y < vy (e_top e).
  Definition here (y : R) (e : edge R) : Prop := over y e /\ e_x e = ex e y.

  Lemma side_ne fwd j k : P j -> side vs fwd j k -> Y j <> Y k.
  Proof.
    intros Pj S. destruct fwd; [exact (pl_level _ _ _ PL j k Pj S)|].
    apply side_sym in S. apply not_eq_sym. eapply (pl_level _ _ _ PL k j); auto. eapply side_P'; eauto.
  Qed.
  Lemma placed_ends e : placed e -> climbing vs e -> exists j v w, P j /\ P (e_vtop e) /\ side vs (edge_up e) j (e_vtop e) /\ nth_error vs j = Some v /\ nth_error vs (e_vtop e) = Some w /\
    e_bot e = v_pt v /\ e_top e = v_pt w /\ vy (e_bot e) = Y j /\ vy (e_top e) = Y (e_vtop e).
  Proof.
    intros [Pk (j & v & Pj & S & V & B)] [(w & W & ET) _]. exists j, v, w. csplit; auto.
    - rewrite B. symmetry. now apply height_some'.
    - rewrite ET. symmetry. now apply height_some'.
  Qed.
  (** Two different sides meet at corners only. *)
  Lemma edges_apart e f z : rises e -> rises f -> edge_side e <> edge_side f -> vy (e_bot e) <= z <= vy (e_top e) -> vy (e_bot f) <= z <= vy (e_top f) ->
    ex e z = ex f z -> (z = vy (e_bot e) \/ z = vy (e_top e)) /\ (z = vy (e_bot f) \/ z = vy (e_top f)).
  Proof.
    intros (Pe & Ce & He) (Pf & Cf & Hf) NE Ze Zf EX.
    destruct (placed_ends e Pe Ce) as (j & v & w & Pj & Pk & S & V & W & Eb & Et & Yb & Yt).
    destruct (placed_ends f Pf Cf) as (j' & v' & w' & Pj' & Pk' & S' & V' & W' & Eb' & Et' & Yb' & Yt').
    pose proof (xat_on (e_bot e) (e_top e) z He Ze) as O1. pose proof (xat_on (e_bot f) (e_top f) z Hf Zf) as O2.
    change (xat (e_bot e) (e_top e) z) with (ex e z) in O1. change (xat (e_bot f) (e_top f) z) with (ex f z) in O2. rewrite <- EX in O2.
    set (p := V2 (ex e z) z) in *.
    assert (K : (p = e_bot e \/ p = e_top e) /\ (p = e_bot f \/ p = e_top f)).
    { unfold edge_side in NE. rewrite Eb, Et, Eb', Et' in *.
      destruct (edge_up e) eqn:U, (edge_up f) eqn:U'.
      - eapply (pl_apart _ _ _ PL j _ j' _ v w v' w' p); eauto. intros ->. apply NE. f_equal. eapply side_fun; eauto.
      - apply side_sym in S'. cbn in S'. apply on_segment_rev in O2.
        enough ((p = v_pt v \/ p = v_pt w) /\ (p = v_pt w' \/ p = v_pt v')) by tauto.
        eapply (pl_apart _ _ _ PL j _ (e_vtop f) _ v w w' v' p); eauto. intros ->. assert (e_vtop e = j') by (eapply side_fun; eauto). subst j'.
        rewrite V' in W. injection W as ->. rewrite W' in V. injection V as ->. lra.
      - apply side_sym in S. cbn in S. apply on_segment_rev in O1.
        enough ((p = v_pt w \/ p = v_pt v) /\ (p = v_pt v' \/ p = v_pt w')) by tauto.
        eapply (pl_apart _ _ _ PL (e_vtop e) _ j' _ w v v' w' p); eauto. intros <-. assert (j = e_vtop f) by (eapply side_fun; eauto). subst j.
        rewrite V' in W. injection W as ->. rewrite W' in V. injection V as ->. lra.
      - apply side_sym in S, S'. cbn in S, S'. apply on_segment_rev in O1, O2.
        enough ((p = v_pt w \/ p = v_pt v) /\ (p = v_pt w' \/ p = v_pt v')) by tauto.
        eapply (pl_apart _ _ _ PL (e_vtop e) _ (e_vtop f) _ w v w' v' p); eauto. }
    assert (Q : forall q, p = q -> z = vy q) by (intros q <-; reflexivity).
    destruct K as [[K|K] [K'|K']]; apply Q in K, K'; auto.
  Qed.
  (** *** The order *)
  Lemma ex_line e : rises e -> exists m c, forall z, ex e z = m * z + c.
  Proof. intros (_ & _ & H). now apply xat_line. Qed.
  Lemma before_either y e f : over y e -> over y f -> edge_side e <> edge_side f -> before y e f \/ before y f e.
  Proof.
    intros (Re & Ye) (Rf & Yf) NE. destruct (ex_line e Re) as (m & c & E). destruct (ex_line f Rf) as (m' & c' & F).
    set (hi := Rmin (vy (e_top e)) (vy (e_top f))).
    destruct (line_sign (m - m') (c - c') y hi) as [L|L].
    - intros z [Z1 Z2] K. unfold hi in Z2. pose proof (Rmin_l (vy (e_top e)) (vy (e_top f))). pose proof (Rmin_r (vy (e_top e)) (vy (e_top f))).
      destruct (edges_apart e f z Re Rf NE) as [[Q|Q] _]; try lra. rewrite E, F. lra.
    - left. intros z Z1 Z2 Z3. specialize (L z). rewrite E, F. unfold hi in L. assert (z < Rmin (vy (e_top e)) (vy (e_top f))) by (now apply Rmin_glb_lt). lra.
    - right. intros z Z1 Z2 Z3. specialize (L z). rewrite E, F. unfold hi in L. assert (z < Rmin (vy (e_top e)) (vy (e_top f))) by (now apply Rmin_glb_lt). lra.
  Qed.
  Lemma before_higher y y' e f : y <= y' -> before y e f -> before y' e f.
  Proof. intros H B z Z. apply B. lra. Qed.
  Lemma before_not y e f : over y e -> over y f -> before y e f -> before y f e -> False.
  Proof.
    intros (_ & Ye) (_ & Yf) A B. set (z := (y + Rmin (vy (e_top e)) (vy (e_top f))) / 2).
    pose proof (Rmin_l (vy (e_top e)) (vy (e_top f))). pose proof (Rmin_r (vy (e_top e)) (vy (e_top f))).
    assert (y < Rmin (vy (e_top e)) (vy (e_top f))) by (apply Rmin_glb_lt; lra).
    assert (Z : y < z /\ z < vy (e_top e) /\ z < vy (e_top f)) by (unfold z; lra). specialize (A z). specialize (B z). lra.
  Qed.
  Lemma before_le y z e f : over y e -> over y f -> before y e f -> y <= z -> z <= vy (e_top e) -> z <= vy (e_top f) -> ex e z <= ex f z.
  Proof.
    intros (Re & Ye) (Rf & Yf) A Z1 Z2 Z3. destruct (ex_line e Re) as (m & c & E). destruct (ex_line f Rf) as (m' & c' & F).
    destruct (Rle_lt_dec (ex e z) (ex f z)) as [|G]; auto. exfalso.
    set (hi := Rmin (vy (e_top e)) (vy (e_top f))) in *.
    pose proof (Rmin_l (vy (e_top e)) (vy (e_top f))). pose proof (Rmin_r (vy (e_top e)) (vy (e_top f))).
    assert (y < hi) by (apply Rmin_glb_lt; lra). assert (z <= hi) by (now apply Rmin_glb). fold hi in H, H0.
    set (q := (y + hi) / 2). assert (Q : ex e q < ex f q) by (apply A; unfold q; lra).
    rewrite E, F in *.
    (* near z the difference is still positive *)
    set (g := fun t => (m - m') * t + (c - c')). assert (Gz : 0 < g z) by (unfold g; lra). assert (Gq : g q < 0) by (unfold g; lra).
    set (d := g z / (2 * (g z - g q))). assert (D : 0 < d < 1).
    { unfold d. split; [apply Rdiv_lt_0_compat; lra|]. apply Rmult_lt_reg_r with (2 * (g z - g q)); [lra|]. unfold Rdiv. rewrite Rmult_assoc, Rinv_l; lra. }
    set (t := z + d * (q - z)). assert (Gt : g t = g z / 2).
    { unfold t. assert (g (z + d * (q - z)) = g z + d * (g q - g z)) as -> by (unfold g; ring). unfold d. field. lra. }
    assert (y < q < hi) by (unfold q; lra).
    assert (T : y < t < hi) by (unfold t; nra).
    specialize (A t). rewrite E, F in A. unfold g in Gt, Gz, Gq. assert (m * t + c < m' * t + c') by (apply A; lra). lra.
  Qed.
  Lemma lt_before y e f : over y e -> over y f -> edge_side e <> edge_side f -> ex e y < ex f y -> before y e f.
  Proof.
    intros A B NE L. destruct (before_either y e f A B NE) as [K|K]; auto. apply (before_le y y f e) in K; auto; try lra; destruct A, B; lra.
  Qed.
  Lemma before_trans y e f g : over y e -> over y f -> over y g -> edge_side e <> edge_side g -> before y e f -> before y f g -> before y e g.
  Proof.
    intros A B C NE K L. destruct (before_either y e g A C NE) as [|G]; auto. exfalso.
    destruct A as (_ & A), B as (_ & B), C as (_ & C).
    set (hi := Rmin (vy (e_top e)) (Rmin (vy (e_top f)) (vy (e_top g)))).
    pose proof (Rmin_l (vy (e_top e)) (Rmin (vy (e_top f)) (vy (e_top g)))). pose proof (Rmin_r (vy (e_top e)) (Rmin (vy (e_top f)) (vy (e_top g)))).
    pose proof (Rmin_l (vy (e_top f)) (vy (e_top g))). pose proof (Rmin_r (vy (e_top f)) (vy (e_top g))).
    assert (y < hi) by (apply Rmin_glb_lt; [lra|apply Rmin_glb_lt; lra]). fold hi in H, H0.
    set (z := (y + hi) / 2). assert (Z : y < z < hi) by (unfold z; lra). specialize (K z). specialize (L z). specialize (G z). lra.
  Qed.
  (** Where two sides have the same x they both start. *)
  Lemma same_start y e f : over y e -> over y f -> edge_side e <> edge_side f -> ex e y = ex f y -> vy (e_bot e) = y /\ vy (e_bot f) = y.
  Proof. intros (Re & A) (Rf & B) NE E. destruct (edges_apart e f y Re Rf NE) as [[?|?] [?|?]]; auto; lra. Qed.

  (** *** The functions of the code *)
  Lemma edge_x_at_ex s e z : verts s = vs -> rises e -> edge_x_at s e z = Ok (ex e z).
  Proof.
    intros HV (Pe & Ce & H). destruct (placed_ends e Pe Ce) as (j & v & w & Pj & Pk & S & V & W & Eb & Et & Yb & Yt).
    unfold edge_x_at, get_seg, at_. rewrite HV, W. cbn [of_opt bind].
    assert (CX : forall a b, vy a <> vy b -> chord_x a b z = xat a b z).
    { intros a b N. unfold chord_x, xat. rops. field. lra. }
    destruct (edge_up e) eqn:U.
    - destruct (pl_line _ _ _ PL j _ Pj S) as (v' & w' & V' & W' & G). rewrite V in V'. injection V' as <-. rewrite W in W'. injection W' as <-.
      destruct S as (v1 & w1 & V1 & W1 & _ & N). rewrite W in W1. injection W1 as <-. cbn in N. rewrite N. cbn [deref of_opt bind]. rewrite V. cbn [of_opt bind fst snd].
      rewrite G. cbn [of_opt bind seg_curr_x]. f_equal. rewrite <- Eb, <- Et. apply CX. lra.
    - apply side_sym in S. cbn in S. destruct (pl_line _ _ _ PL _ _ Pk S) as (w' & v' & W' & V' & G). rewrite V in V'. injection V' as <-. rewrite W in W'. injection W' as <-.
      rewrite G. cbn [of_opt bind fst snd seg_curr_x]. f_equal. rewrite <- Eb. unfold ex. rewrite xat_rev by lra. apply CX. lra.
  Qed.
  Lemma valid_order_before y s e f b : verts s = vs -> here y e -> here y f -> edge_side e <> edge_side f -> valid_order s e f = Ok b ->
    if b then before y e f else before y f e.
  Proof.
    intros HV [Oe Xe] [Of Xf] NE H. unfold valid_order in H. rewrite Xe, Xf in H. rops.
    destruct (Reqb (ex f y) (ex e y)) eqn:Q; cbn [negb] in H.
    - rbool. destruct (same_start y e f) as [B1 B2]; auto. pose proof Oe as (Re & Ye). pose proof Of as (Rf & Yf).
      rewrite !edge_x_at_ex in H by auto. cbn [bind] in H. unfold n_min in H. rops.
      set (mn := if Rltb (vy (e_bot f)) (vy (e_bot e)) then _ else _) in H. set (mx := if Rltb (vy (e_top f)) (vy (e_top e)) then _ else _) in H.
      assert (Mn : mn = y) by (unfold mn; destruct (Rltb _ _); auto).
      assert (Mx : y < mx /\ mx <= vy (e_top e) /\ mx <= vy (e_top f)).
      { unfold mx. destruct (Rltb (vy (e_top f)) (vy (e_top e))) eqn:L; rbool; lra. }
      rewrite Mn in H. set (mid := (y + mx) / 2) in H. assert (Md : y < mid < mx) by (unfold mid; lra).
      destruct (before_either y e f Oe Of NE) as [K|K].
      + assert (L : ex e mid < ex f mid) by (apply K; lra). destruct (Reqb (ex e mid) (ex f mid)) eqn:Q'; rbool; [lra|]. cbn [negb] in H.
        injection H as <-. destruct (Rltb (ex e mid) (ex f mid)) eqn:Q2; rbool; auto. lra.
      + assert (L : ex f mid < ex e mid) by (apply K; lra). destruct (Reqb (ex e mid) (ex f mid)) eqn:Q'; rbool; [lra|]. cbn [negb] in H.
        injection H as <-. destruct (Rltb (ex e mid) (ex f mid)) eqn:Q2; rbool; auto. lra.
    - rbool. injection H as <-. destruct (Rltb (ex e y) (ex f y)) eqn:L; rbool; apply lt_before; auto; lra.
  Qed.
End Geo.
