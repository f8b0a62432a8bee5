(** The first active edge at a scan line lies among the corners of the polygons. *)
From Coq Require Import ZArith Bool List Reals Lra Lia Permutation.
From Verif Require Import Outcome Num Order OrdTac Rmath Segment Path PathSpec RTac ScanLine VState VPath VBreak VAel VOut VMain VLemmas VFrame VBuild VBroken
  AelSpec VAelProofs RingSpec BreakSpec BezierSpec LineSpec BreakStatements BreakLines BreakDrawn ClimbSpec ClimbRing VClimb ClimbNone SortProofs MarkProofs VRing
  SpanSpec SpanRing SpanMark SpanTop SpanStep SpanRun SpanPoly SpanEnd EquiMap EquiLoad PlanePoly LineR.
Import ListNotations.
Local Open Scope out.

Section Hull.
  Variable Q : vec2 R -> Prop.
  Hypothesis QC : forall p q t, Q p -> Q q -> (0 <= t <= 1)%R -> Q (pt p q t).

  Lemma inc_lt ts : forall lo hi, increasing lo ts hi -> (lo < hi)%R.
  Proof. induction ts as [|t ts IH]; intros lo hi H; cbn in H; auto. destruct H as (A & B). apply IH in B. lra. Qed.
  Lemma follows_targets p q : Q p -> Q q -> forall ts lo p0 hs, (0 <= lo)%R -> increasing lo ts 1 -> follows p0 p (SLine q) lo ts hs ->
    forall h, In h hs -> match h with SLine _ => True | _ => False end -> Q (seg_target h).
  Proof.
    intros P1 P2. assert (K : forall p0 h t, (0 <= t <= 1)%R -> seg_at p0 h 1 = seg_at p (SLine q) t -> match h with SLine _ => True | _ => False end -> Q (seg_target h)).
    { intros p0 [?|r|? ? ?|? ? ?] t T E L; try contradiction. cbn [seg_target]. rewrite !seg_at_pt, pt_1 in E. rewrite E. auto. }
    induction ts as [|t ts IH]; intros lo p0 [|h hs] L I F; try contradiction.
    - destruct hs; [|contradiction]. intros h' [<-|[]] S. cbn in I. apply (K p0 h (lo + (1 - lo) * 1)%R); auto; lra.
    - destruct I as (I1 & I2). destruct F as (F1 & F2). pose proof (inc_lt _ _ _ I2) as I3. intros h' [<-|H] S.
      + apply (K p0 h (lo + (t - lo) * 1)%R); auto; lra.
      + eapply (IH t); eauto. lra.
  Qed.

  Variable en : env.
  Variable ps : list (path_type * list (list (outline (T := R)))).
  Variable s : clipper R.
  Hypothesis PO : forall l, Permutation (en_order en l) l.
  Hypothesis AI : forall i j, en_addr en i = en_addr en j -> i = j.
  Hypothesis PG : Forall polygon (all_outlines ps).
  Hypothesis LO : add_all clipper0 ps = Ok s.
  Hypothesis CO : forall o p, In o (all_outlines ps) -> In p (fst o :: map endpoint (snd o)) -> Q p.

  Lemma same_ids (z : clipper R) ls : Forall (fun l => exists gs, ring (verts z) l gs) ls -> all_rings (verts z) (map (hd 0) ls) = Ok (concat ls).
  Proof. apply all_rings_ok. Qed.
  Lemma rings_some (vs : list (vertex R)) ls : rings vs ls -> Forall (fun l => exists gs, ring vs l gs) ls.
  Proof. intros (H & _). eapply Forall_impl; [|exact H]. intros l (gs & K & _). eauto. Qed.
  Lemma corners_of ls i : rings (verts s) ls -> starts s = map (hd 0) ls -> In i (concat ls) ->
    exists v q, nth_error (verts s) i = Some v /\ v_seg v = Some (SLine q) /\ Q (v_pt v) /\ Q q.
  Proof.
    intros RG ST Hi. assert (D : drawable_paths ps) by (eapply Forall_impl; [|exact PG]; intros o; apply polygon_drawing).
    destruct (drawn_rings ps D) as (s' & ls' & E & RG' & ST' & H). rewrite LO in E. injection E as <-.
    pose proof (drawn_straight ps s ls' RG' H PG) as STR.
    assert (IDS : concat ls = concat ls').
    { pose proof (same_ids s ls (rings_some _ _ RG)) as A1. pose proof (same_ids s ls' (rings_some _ _ RG')) as A2. rewrite <- ST in A1. rewrite <- ST' in A2. congruence. }
    rewrite IDS in Hi. destruct (STR i Hi) as (v & q & V & S & _). exists v, q. csplit; auto.
    all: apply in_concat in Hi as (l & Hl & Hi); destruct (H l Hl) as (o & Ho & AC & R); rewrite Forall_forall in PG.
    - destruct (ring_target _ _ _ _ R Hi) as (w & g & W & G & EE). rewrite V in W. injection W as <-. rewrite EE. eapply CO; eauto. apply outline_targets; auto.
    - destruct (ring_link _ _ _ _ R Hi) as (j & g & _ & G & va & vb & W & _ & _ & _ & SG & _). rewrite V in W. injection W as <-. rewrite S in SG. injection SG as <-.
      eapply CO; eauto. apply (outline_targets o (SLine q)); auto.
  Qed.

  Lemma broken_inside s1 ls news : rings (verts s) ls -> starts s = map (hd 0) ls -> process_intersect en s = Ok s1 ->
    Forall (fun l => exists gs, ring (verts s1) l gs) (map (with_new news) ls) ->
    forall i, In i (concat (map (with_new news) ls)) -> exists v, nth_error (verts s1) i = Some v /\ Q (v_pt v).
  Proof.
    intros RG ST PI X i Hi.
    assert (STR : straight (verts s) ls).
    { assert (D : drawable_paths ps) by (eapply Forall_impl; [|exact PG]; intros o; apply polygon_drawing).
      destruct (drawn_rings ps D) as (s' & ls' & E & RG' & ST' & H). rewrite LO in E. injection E as <-. pose proof (drawn_straight ps s ls' RG' H PG) as STR.
      pose proof (same_ids s ls (rings_some _ _ RG)) as A1. pose proof (same_ids s ls' (rings_some _ _ RG')) as A2. rewrite <- ST in A1. rewrite <- ST' in A2.
      rewrite A1 in A2. injection A2 as IDS. intros k Hk. apply STR. now rewrite <- IDS. }
    destruct (find_breaks_lines en s ls PO RG ST STR) as (bs & FB & EX & _).
    destruct (C23_process_lemma en s ls bs RG ST FB) as (s2 & news' & PI' & _ & R' & _). rewrite PI in PI'. injection PI' as <-.
    assert (HD : forall nw, map (hd 0) (map (with_new nw) ls) = map (hd 0) ls).
    { intros nw. rewrite map_map. apply map_ext_in. intros l Hl. destruct RG as (RG & _). rewrite Forall_forall in RG. destruct (RG l Hl) as (gs & R & _).
      destruct l; [contradiction|reflexivity]. }
    pose proof (same_ids s1 _ X) as A1.
    assert (X' : Forall (fun l => exists gs, ring (verts s1) l gs) (map (with_new news') ls)).
    { rewrite Forall_forall in *. intros l Hl. apply in_map_iff in Hl as (l0 & <- & Hl). eauto. }
    pose proof (same_ids s1 _ X') as A2. rewrite HD in A1, A2. rewrite A1 in A2. injection A2 as IDS. rewrite IDS in Hi.
    apply in_concat in Hi as (l' & Hl & Hi). apply in_map_iff in Hl as (l & <- & Hl). rewrite Forall_forall in R'. specialize (R' l Hl).
    destruct (ring_target _ _ _ _ R' Hi) as (v & g & V & G & E). exists v. split; auto. rewrite E.
    apply in_flat_map in G as (k & Hk & G). assert (Hc : In k (concat ls)) by (apply in_concat; eauto).
    destruct (corners_of ls k RG ST Hc) as (w & q & W & S & Q1 & Q2).
    destruct (C23_exact_lemma en s ls bs AI RG EX k w _ Hc W S) as (ts & INC & FO & _).
    eapply follows_targets; [exact Q1|exact Q2| |exact INC|exact FO|exact G|]; [lra|].
    pose proof (pieces_straight (verts s) (tidy_breaks en bs) k w q W S) as PS. rewrite Forall_forall in PS. exact (PS g G).
  Qed.

  Lemma chord_pt (p q : vec2 R) y : (vy p < vy q /\ vy p <= y <= vy q \/ vy q < vy p /\ vy q <= y <= vy p)%R -> exists t, (0 <= t <= 1)%R /\ chord_x p q y = vx (pt p q t).
  Proof.
    intros H. exists ((y - vy p) / (vy q - vy p))%R. assert (NZ : (vy q - vy p <> 0)%R) by lra.
    assert (E : ((y - vy p) / (vy q - vy p) * (vy q - vy p) = y - vy p)%R) by (field; auto).
    set (t := ((y - vy p) / (vy q - vy p))%R) in *. split.
    - destruct H as [(H1 & H2)|(H1 & H2)]; split; nra.
    - unfold chord_x, pt. cbn [vx]. rops. unfold t. field. auto.
  Qed.

  (** what the sweep makes of an edge at the height [y] *)
  Definition comes_at (s : clipper R) (e : edge R) (y : R) : outcome R := if n_eqb (vy (e_top e)) y then Ok (vx (e_top e)) else edge_x_at s e y.

  Lemma first_inside op fill n y ys s1 s2 z s3 i e x : (forall p, Q p -> vy p <> (- R_huge)%R) -> (forall s', process_intersect en s = Ok s' -> lins s') ->
    visits en n s op fill (y :: ys) s1 -> scan_at n s1 y = Ok s2 -> pop_scanline s2 y = (Some z, s3) ->
    ael s3 = Some i -> nth_error (edges s3) i = Some e -> comes_at s3 e z = Ok x -> exists p, Q p /\ vx p = x.
  Proof.
    intros QE LI VI SA PS AE E CA.
    destruct (polygon_extremal en ps s PO AI PG LO) as (cs & ls & news & s' & B & RG & ST & PI & E1 & E2 & E3 & OLD & X).
    assert (D : drawable_paths ps) by (eapply Forall_impl; [|exact PG]; intros o; apply polygon_drawing).
    destruct (drawn_fresh ps s D LO) as (F1 & F2 & F3).
    pose proof (ex_ring _ _ _ _ X) as XR. set (L := map (with_new news) ls) in *.
    assert (INS : forall i, In i (concat L) -> exists v, nth_error (verts s') i = Some v /\ Q (v_pt v)).
    { apply broken_inside; auto. apply Forall_forall. exact XR. }
    assert (PI' : process_intersect en (w_op s op fill) = Ok (w_op s' op fill)) by (apply process_intersect_op; exact PI).
    assert (V : vs_valid (verts (w_op s' op fill))) by (intros v Hv; exact I).
    assert (NH : forall i, In i (map lm_vert (lmins (w_op s' op fill))) -> n_eqb (height (verts (w_op s' op fill)) i) (n_neg n_huge) = false).
    { intros k Hk. cbn [verts lmins w_op] in *. apply (ex_low _ _ _ _ X) in Hk as (l & Hl & LW). assert (Hk : In k l) by (destruct LW as (n0 & r0 & (a0 & b0 & -> & _) & _); apply in_or_app; right; now left).
      destruct (INS k) as (v & W & QV); [apply in_concat; eauto|]. rewrite (height_some _ _ _ W). rops. apply Reqb_false. apply QE. exact QV. }
    assert (HE : edges (w_op s' op fill) = []) by (cbn; congruence). assert (HQ : scans (w_op s' op fill) = []) by (cbn; congruence).
    pose proof (visits_ready en s (w_op s' op fill) op fill L PI' HE HQ V X NH n y ys s1 VI) as RD.
    pose proof (extremal_marked _ _ _ _ X) as MK.
    set (t := w_op s' op fill) in *. change (verts s') with (verts t) in *. change (lmins s') with (lmins t) in *. change (minima s') with (minima t) in *.
    pose proof (scan_at_ended (verts t) _ _ MK V (lmins t) _ (MS_some t L X) (MS_nodup t L X) (MS_M t L X) (MS_sorted t L V X) n y s1 s2 RD SA) as EN. clear SA.
    destruct EN as [Vy SL G QU AP (l & HA & [ND EXA] & TQ) _].
    pose proof (pop_in (verts t) V y s2 z s3 QU Vy PS) as PIN.
    destruct (pop_climbs (verts t) y s2 z s3 V G QU Vy PS) as ((G31 & G32 & _) & _ & LT & _).
    pose proof (pop_scanline_frame _ _ _ _ PS) as (P1 & _ & P2 & P3 & P4 & _). rewrite P3 in E. rewrite P2 in AE.
    assert (Hi : In i l). { destruct HA as (A1 & _). rewrite A1 in AE. destruct l; cbn in AE; [discriminate|]. injection AE as ->. now left. }
    assert (K : In (edge_side e) (map (side_of (edges s2)) l)).
    { apply in_map_iff. exists i. split; auto. unfold side_of. now rewrite E. }
    apply EXA in K as (j & Pj & SD & LJ & LK). cbn [edge_side fst snd] in *.
    assert (Pk : on_contour L (e_vtop e)) by (eapply (side_P _ _ _ MK); eauto).
    specialize (TQ i Hi). unfold side_of in TQ. rewrite E in TQ. cbn [edge_side snd] in TQ. apply PIN in TQ as (LZ & _).
    pose proof SD as (vj & vk & VJ & VK & NJ & NK).
    rewrite (height_some _ _ _ VJ) in LJ. rewrite (height_some _ _ _ VK) in LK, LZ. rops. rbool.
    destruct (G32 i e) as ((w & W & ET) & _); [congruence|]. rewrite VK in W. injection W as <-.
    assert (QJ : Q (v_pt vj)). { destruct Pj as (lj & H1 & H2). destruct (INS j) as (v & W & QV); [apply in_concat; eauto|]. rewrite VJ in W. now injection W as ->. }
    assert (QK : Q (v_pt vk)). { destruct Pk as (lk & H1 & H2). destruct (INS (e_vtop e)) as (v & W & QV); [apply in_concat; eauto|]. rewrite VK in W. now injection W as ->. }
    unfold comes_at in CA. destruct (n_eqb (vy (e_top e)) z); [injection CA as <-; rewrite ET; eauto|].
    specialize (LI s' PI). unfold lins in LI. rewrite Forall_forall in LI.
    unfold edge_x_at, get_seg, at_ in CA. rewrite G31, VK in CA. cbn [of_opt bind] in CA.
    destruct (edge_up e) eqn:UP; cbn [neighbour negb] in NJ, NK.
    - rewrite NK in CA. cbn [deref of_opt bind] in CA. rewrite VJ in CA. cbn [of_opt bind fst snd] in CA.
      destruct Pj as (lj & H1 & H2). destruct (XR lj H1) as (gs & R). destruct (ring_link _ _ _ _ R H2) as (k & g & _ & _ & va & vb & Wa & Wb & NX & _ & SG & TG).
      rewrite VJ in Wa. injection Wa as <-. rewrite NJ in NX. injection NX as <-. rewrite VK in Wb. injection Wb as <-. rewrite SG in CA. cbn [of_opt bind] in CA.
      pose proof (LI _ (nth_error_In _ _ VJ)) as LL. unfold lin in LL. rewrite SG in LL. destruct g; try contradiction. cbn [seg_curr_x] in CA. cbn [seg_target] in TG. subst.
      injection CA as CX. destruct (chord_pt (v_pt vj) (v_pt vk) z) as (t0 & T0 & K); [left; lra|]. exists (pt (v_pt vj) (v_pt vk) t0). split; [auto|]. rewrite <- K. exact CX.
    - cbn [of_opt bind fst snd] in CA.
      destruct Pk as (lk & H1 & H2). destruct (XR lk H1) as (gs & R). destruct (ring_link _ _ _ _ R H2) as (k & g & _ & _ & va & vb & Wa & Wb & NX & _ & SG & TG).
      rewrite VK in Wa. injection Wa as <-. rewrite NK in NX. injection NX as <-. rewrite VJ in Wb. injection Wb as <-. rewrite SG in CA. cbn [of_opt bind] in CA.
      pose proof (LI _ (nth_error_In _ _ VK)) as LL. unfold lin in LL. rewrite SG in LL. destruct g; try contradiction. cbn [seg_curr_x] in CA. cbn [seg_target] in TG. subst.
      rewrite ET in CA. injection CA as CX. destruct (chord_pt (v_pt vk) (v_pt vj) z) as (t0 & T0 & K); [right; lra|]. exists (pt (v_pt vk) (v_pt vj) t0). split; [auto|]. rewrite <- K. exact CX.
  Qed.
  Lemma scans_inside op fill s1 s2 z : process_intersect en (w_op s op fill) = Ok s1 -> reset s1 = Ok s2 -> In z (scans s2) -> exists p, Q p /\ vy p = z.
  Proof.
    intros P1 P2 HZ.
    destruct (polygon_extremal en ps s PO AI PG LO) as (cs & ls & news & s' & B & RG & ST & PI & E1 & E2 & E3 & OLD & X).
    assert (D : drawable_paths ps) by (eapply Forall_impl; [|exact PG]; intros o; apply polygon_drawing).
    destruct (drawn_fresh ps s D LO) as (F1 & F2 & F3).
    pose proof (ex_ring _ _ _ _ X) as XR. set (L := map (with_new news) ls) in *.
    assert (INS : forall i, In i (concat L) -> exists v, nth_error (verts s') i = Some v /\ Q (v_pt v)).
    { apply broken_inside; auto. apply Forall_forall. exact XR. }
    assert (PI' : process_intersect en (w_op s op fill) = Ok (w_op s' op fill)) by (apply process_intersect_op; exact PI).
    rewrite P1 in PI'. injection PI' as ->.
    destruct (reset_in _ _ P2) as (A1 & A2 & A3 & A4 & A5 & A6 & A7 & A8); [cbn; congruence|].
    apply A8 in HZ as (m & Hm & ->). rewrite A3 in Hm. eapply Permutation_in in Hm; [|apply Permutation_sym, sort_by_perm].
    destruct (A7 _ Hm) as (x & Hx). cbn [verts lmins w_op] in *. unfold lv. rewrite Hx.
    assert (K : In (lm_vert x) (map lm_vert (lmins s'))) by (apply in_map; eapply nth_error_In; eauto).
    apply (ex_low _ _ _ _ X) in K as (l & Hl & (n0 & r0 & (a0 & b0 & -> & _) & _)).
    destruct (INS (lm_vert x)) as (v & W & QV); [apply in_concat; exists (a0 ++ lm_vert x :: b0); split; auto; apply in_or_app; right; now left|].
    exists (v_pt v). split; auto. now rewrite (height_some _ _ _ W).
  Qed.
End Hull.
