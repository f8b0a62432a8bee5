(** Polygons in general position: order, counts and kept edges in every run. *)
From Coq Require Import ZArith Bool List Reals Lra Lia Sorted Permutation.
From Verif Require Import Outcome Num Order OrdTac Rmath Segment Path PathSpec RTac ScanLine VState VPath VBreak VAel VOut VMain VLemmas VFrame ClipSpec AelSpec VAelProofs VEdges
  VAelRun VRun SortProofs RingSpec BezierSpec BreakSpec WindSpec VWind VKept WindStatements
  MarkProofs VRing VBuild VAdd MarkSpec VCut VBroken TraceR LineSpec LineR RingStatements BreakStatements BreakLines BreakDrawn ClimbSpec ClimbRing ClimbBroken ClimbPoly
  VClimb ClimbNone SpanSpec SpanRing SpanTop SpanStep SpanRun SpanMark SpanPoly SpanEnd PlaneSpec PlaneGeo PlaneSort PlaneTop PlaneRun PlaneCount PlaneScan PlaneWind PlanePoly PlaneInput.
Import ListNotations.
Local Open Scope out.

Section End.
  Variable en : env.
  Variable s0 s1 : clipper R.
  Variables (op : clip_type) (fill : fill_rule).
  Variable ls : list (list nat).
  Hypothesis HP : process_intersect en (w_op s0 op fill) = Ok s1.
  Hypothesis HE : edges s1 = [].
  Hypothesis HQ : scans s1 = [].
  Hypothesis X : extremal (verts s1) (lmins s1) (minima s1) ls.
  Hypothesis NH : forall i, In i (map lm_vert (lmins s1)) -> n_eqb (height (verts s1) i) (n_neg n_huge) = false.
  Let MS := sort_by (min_ltb s1) (minima s1).
  Let MK := extremal_marked _ _ _ _ X.
  Let P := on_contour ls.
  Let M := is_lowest (verts s1) ls.
  Hypothesis PL : plane (verts s1) P M.
  Variable ty : nat -> path_type.
  Hypothesis ty_side : forall j k, P j -> side (verts s1) true j k -> ty j = ty k.
  Hypothesis ty_min : forall m x, nth_error (lmins s1) m = Some x -> lm_type x = ty (lm_vert x).
  Notation due := (due (verts s1) P (lmins s1) MS ty).
  Notation swept := (swept (verts s1) P (lmins s1) MS ty).
  Let V : vs_valid (verts s1). Proof. intros v _. exact I. Qed.

  Hypothesis HO : cop s1 = op /\ cfill s1 = fill.
  Lemma visits_op n l s : visits en n s0 op fill l s -> cop s = op /\ cfill s = fill.
  Proof.
    intros H. induction H as [s1' s2 s3 y P1 P2 P3|y ys s s2 s3 s4 y' H IH P1 P2 P3].
    - rewrite HP in P1. injection P1 as <-. pose proof (pop_scanline_frame _ _ _ _ P3) as (F1 & _).
      unfold reset in P2. cbn zeta in P2. apply bind_ok in P2 as (s & F & P2). injection P2 as <-. apply push_minima_in in F as (A & _).
      unfold VFrame.fin in *. cbn in *. injection A as A1 A2 A3 A4 A5 A6 A7. injection F1 as B1 B2 B3 B4 B5 B6 B7. destruct HO. split; congruence.
    - pose proof (scan_at_frame _ _ _ _ P1) as F1. pose proof (pop_scanline_frame _ _ _ _ P2) as (F2 & _). pose proof (beam_frame _ _ _ _ P3) as [F3 _].
      unfold VFrame.fin in *. injection F1 as A1 A2 A3 A4 A5 A6 A7. injection F2 as B1 B2 B3 B4 B5 B6 B7. injection F3 as C1 C2 C3 C4 C5 C6 C7. destruct IH. split; congruence.
  Qed.
  Lemma visits_due n y ys s : visits en n s0 op fill (y :: ys) s -> due y s.
  Proof.
    intros H. remember (y :: ys) as l eqn:El. revert y ys El. induction H as [s1' s2 s3 y P1 P2 P3|y ys s s2 s3 s4 y' H IH P1 P2 P3]; intros y0 ys0 El; injection El as <- <-.
    - split.
      + eapply (visits_ready en s0 s1 op fill ls HP HE HQ V X NH n); eauto. econstructor; eauto.
      + rewrite HP in P1. injection P1 as <-. destruct (reset_in s1 s2 P2 HQ) as (A1 & A2 & A3 & A4 & A5 & A6 & A7 & A8).
        pose proof (pop_scanline_frame _ _ _ _ P3) as (F1 & F2 & F3 & F4 & _).
        exists []. split; [constructor|].
        * red. rewrite F3, A5. csplit; auto; [constructor|constructor].
        * intros i [].
        * constructor.
        * intros i e [].
        * intros i [].
    - specialize (IH y ys eq_refl).
      pose proof (scan_at_swept (verts s1) P M MK V PL (lmins s1) MS (MS_some s1 ls X) (MS_nodup s1 ls X) (MS_M s1 ls X) (MS_sorted s1 ls V X) ty ty_side ty_min n y s s2 IH P1) as SW.
      exact (beam_due (verts s1) P M MK V PL (lmins s1) MS (MS_some s1 ls X) (MS_M s1 ls X) ty ty_side n y s2 y' s3 s4 SW P2 P3).
  Qed.
  Lemma visits_swept n y ys s s2 : visits en n s0 op fill (y :: ys) s -> scan_at n s y = Ok s2 -> swept y s2.
  Proof.
    intros H P1. apply visits_due in H.
    exact (scan_at_swept (verts s1) P M MK V PL (lmins s1) MS (MS_some s1 ls X) (MS_nodup s1 ls X) (MS_M s1 ls X) (MS_sorted s1 ls V X) ty ty_side ty_min n y s s2 H P1).
  Qed.
  Lemma wtof_wind s l t : lmins s = lmins s1 -> directed s l -> wind s t l (zsum (wtof (lmins s1) (edges s) t) l).
  Proof.
    intros E. induction l as [|i l IH]; intros D; [constructor|]. rewrite zsum_cons.
    assert (D' : directed s l) by (intros j Hj; apply D; now right). specialize (IH D').
    destruct (D i (or_introl eq_refl)) as (t' & d & ID & _). pose proof ID as (e & m & E1 & E2 & E3 & E4).
    assert (W : wtof (lmins s1) (edges s) t i = if ptype_eqb t' t then d else 0%Z) by (unfold wtof, wt; rewrite E1, <- E, E2, E3, E4; reflexivity).
    rewrite W. destruct t, t'; cbn [ptype_eqb]; try (apply wind_own; assumption); rewrite Z.add_0_l; eapply wind_other; eauto.
  Qed.
  Lemma visits_plane n y ys s s2 y' s3 z x : visits en n s0 op fill (y :: ys) s -> scan_at n s y = Ok s2 -> pop_scanline s2 y = (Some y', s3) -> (y < z < y')%R ->
    exists l1 l2, active s2 (l1 ++ l2) /\ directed s2 (l1 ++ l2) /\ all_counted fill s2 (l1 ++ l2) /\ cop s2 = op /\ cfill s2 = fill /\
      ForallOrdPairs (fun i j => forall e f, nth_error (edges s2) i = Some e -> nth_error (edges s2) j = Some f -> (ex e z < ex f z)%R) (l1 ++ l2) /\
      (forall i e, In i l1 -> nth_error (edges s2) i = Some e -> (ex e z < x)%R) /\ (forall i e, In i l2 -> nth_error (edges s2) i = Some e -> (x <= ex e z)%R) /\
      forall t, wind s2 t l1 (zsum (fun i => if ptype_eqb (ty i) t then vpass (verts s1) x z i else 0%Z) (concat ls)).
  Proof.
    intros H P1 P2 Hz. pose proof (visits_op _ _ _ H) as [O1 O2]. pose proof (scan_at_frame _ _ _ _ P1) as F1. unfold VFrame.fin in F1. injection F1 as _ _ _ _ _ A6 A7.
    destruct (visits_swept _ _ _ _ _ H P1) as [EN (l & SD & AC)]. rewrite A7, O2 in AC.
    destruct (wind_prefix (verts s1) P M MK V (lmins s1) MS (MS_M s1 ls X) ty ty_side (concat ls) (ex_nodup _ _ _ _ X)) with (y := y) (s := s2) (y' := y') (s3 := s3) (l := l) (x := x) (z := z) (t := subject)
      as (l1 & l2 & El & L1 & L2 & W1); auto; try lra.
    { intros i. unfold P, on_contour. rewrite in_concat. tauto. }
    destruct (wind_prefix (verts s1) P M MK V (lmins s1) MS (MS_M s1 ls X) ty ty_side (concat ls) (ex_nodup _ _ _ _ X)) with (y := y) (s := s2) (y' := y') (s3 := s3) (l := l) (x := x) (z := z) (t := clip)
      as (l1' & l2' & El' & L1' & L2' & W2); auto; try lra.
    { intros i. unfold P, on_contour. rewrite in_concat. tauto. }
    pose proof EN as [Vy SL G Q AP _ _]. pose proof SL as (SL1 & SL2 & SL3).
    assert (DIR : directed s2 l) by (eapply (stand_directed (verts s1) P (lmins s1) ty); eauto).
    assert (SOME : forall i, In i l -> exists e, nth_error (edges s2) i = Some e).
    { intros i Hi. destruct (DIR i Hi) as (t & d & (e & _ & E & _) & _). eauto. }
    assert (E12 : l1' = l1).
    { clear - El El' L1 L2 L1' L2' SOME. subst l. revert l1' El' L1' SOME. induction l1 as [|a l1 IH]; intros [|b l1'] El' L1' SOME; auto; cbn [app] in El'.
      - subst l2. destruct (SOME b (or_introl eq_refl)) as [e E]. specialize (L1' b e (or_introl eq_refl) E). specialize (L2 b e (or_introl eq_refl) E). lra.
      - subst l2'. destruct (SOME a (or_introl eq_refl)) as [e E]. specialize (L1 a e (or_introl eq_refl) E). specialize (L2' a e (or_introl eq_refl) E). lra.
      - injection El' as -> El'. f_equal. apply IH; auto.
        + intros i e Hi. apply L1. now right.
        + intros i e Hi. apply L1'. now right.
        + intros i Hi. apply SOME. now right. }
    subst l1'. exists l1, l2. rewrite <- El. pose proof SD as [HA AH SO KN]. csplit; auto; try congruence.
    - destruct (pop_gap (verts s1) P M MK V (lmins s1) MS (MS_M s1 ls X) y s2 y' s3 EN P2) as [GAP LY].
      eapply fop_mono_in; [|exact SO]. intros i j Hi Hj K e f E F. destruct (AH i Hi) as (e' & E' & [[Re He] _]). rewrite E in E'. injection E' as <-.
      destruct (AH j Hj) as (f' & F' & [[Rf Hf] _]). rewrite F in F'. injection F' as <-.
      assert (TOP : forall g, rises (verts s1) P g -> (y < vy (e_top g))%R -> (z < vy (e_top g))%R).
      { intros g (Pl & C & L) T. destruct (placed_ends (verts s1) P g Pl C) as (j0 & v & w & Pj & Pk & S & Vj & Wk & Eb & Et & Yb & Yt). rewrite Yt in *. apply GAP in T; auto. lra. }
      apply (K e f E F); try lra; apply TOP; auto; lra.
    - intros t. assert (D1 : directed s2 l1) by (intros i Hi; apply DIR; rewrite El; apply in_or_app; now left).
      assert (W : zsum (wtof (lmins s1) (edges s2) t) l1 = zsum (fun i => if ptype_eqb (ty i) t then vpass (verts s1) x z i else 0%Z) (concat ls)) by (destruct t; auto).
      rewrite <- W. apply wtof_wind; auto.
  Qed.
End End.

(** *** Polygons *)
Lemma polygons_plane en ps (s : clipper R) : (forall l, Permutation (en_order en l) l) -> (forall i j, en_addr en i = en_addr en j -> i = j) ->
  Forall polygon (all_outlines ps) -> Forall above_end (all_outlines ps) -> generic (all_sides ps) -> add_all clipper0 ps = Ok s ->
  forall n op fill y ys s1 s2 y' s3 z x, visits en n s op fill (y :: ys) s1 -> scan_at n s1 y = Ok s2 -> pop_scanline s2 y = (Some y', s3) -> (y < z < y')%R ->
  exists l1 l2, active s2 (l1 ++ l2) /\ directed s2 (l1 ++ l2) /\ all_counted fill s2 (l1 ++ l2) /\ cop s2 = op /\ cfill s2 = fill /\
    ForallOrdPairs (fun i j => forall e f, nth_error (edges s2) i = Some e -> nth_error (edges s2) j = Some f -> (ex e z < ex f z)%R) (l1 ++ l2) /\
    (forall i e, In i l1 -> nth_error (edges s2) i = Some e -> (ex e z < x)%R) /\ (forall i e, In i l2 -> nth_error (edges s2) i = Some e -> (x <= ex e z)%R) /\
    forall t, wind s2 t l1 (winding (typed_sides ps t) x z).
Proof.
  intros PO AI POL AE GE ADD n op fill y ys s1 s2 y' s3 z x H P1 P2 Hz.
  destruct (poly_broken en ps s PO AI POL ADD) as (cs & news & s' & B & RG & PI & E1 & E2 & E3 & OLD & X & NEW & CH).
  assert (D : drawable_paths ps) by (eapply Forall_impl; [|exact POL]; intros o; apply polygon_drawing).
  destruct (drawn_fresh ps s D ADD) as (F1 & F2 & F3).
  destruct (visits_plane en s (w_op s' op fill) op fill (map (with_new news) (map c_verts cs))) with (ty := ptype_of cs news) (n := n) (y := y) (ys := ys) (s := s1) (s2 := s2) (y' := y') (s3 := s3) (z := z) (x := x)
    as (l1 & l2 & A1 & A2 & A3 & A4 & A5 & A6 & A7 & A8 & A9); auto; cbn [edges scans verts lmins minima w_op cop cfill]; auto.
  - apply process_intersect_op. exact PI.
  - congruence.
  - congruence.
  - rewrite E3. intros i Hi. destruct (low_old s _ cs i B Hi) as (c & Hc & Hic).
    destruct B as (_ & IT & OK & _). rewrite Forall_forall in OK. destruct (OK c Hc) as (f & r & EV & NE & R' & _). rewrite <- EV in R'.
    destruct (ring_target _ _ _ _ R' Hic) as (v & g & Hv & Hg & Ev).
    assert (K : In (c_type c, c_segs c) (filter (fun it => accepted (snd it)) (flat_map (fun x => items (fst x) (concat (snd x))) ps))).
    { cbn [app] in IT. rewrite <- IT. exact (in_map (fun c : contour => (c_type c, c_segs c)) cs c Hc). }
    apply filter_In in K as [K AC]. destruct (items_outline _ _ K) as (o & Ho & EQ). cbn [snd] in EQ. rewrite EQ in Hg.
    rewrite Forall_forall in POL, AE. apply (outline_targets o g (POL o Ho)) in Hg. specialize (AE o Ho). unfold above_end in AE. rewrite Forall_forall in AE.
    apply AE in Hg. destruct (OLD i v Hv) as (w & W & PW). rewrite (height_some _ _ _ W), PW, Ev. exact Hg.
  - eapply (input_plane ps s s' cs news); eauto.
  - intros j k Pj S. eapply (ptype_side ps s s' cs news); eauto.
  - intros m x0 K. eapply (ptype_min ps s s' cs news); eauto.
  - exists l1, l2. csplit; auto. intros t. specialize (A9 t). cbn [verts w_op] in A9. erewrite (input_winding ps s s' cs news) in A9; eauto.
Qed.
(** C49 *)
Lemma C49_lemma en ps (s : clipper R) : (forall l, Permutation (en_order en l) l) -> (forall i j, en_addr en i = en_addr en j -> i = j) ->
  Forall polygon (all_outlines ps) -> Forall above_end (all_outlines ps) -> generic (all_sides ps) -> add_all clipper0 ps = Ok s ->
  forall n op fill y ys s1 s2 y' s3 z l, visits en n s op fill (y :: ys) s1 -> scan_at n s1 y = Ok s2 -> pop_scanline s2 y = (Some y', s3) -> (y < z < y')%R -> active s2 l ->
    ForallOrdPairs (fun i j => forall e f, nth_error (edges s2) i = Some e -> nth_error (edges s2) j = Some f -> (ex e z < ex f z)%R) l.
Proof.
  intros PO AI POL AE GE ADD n op fill y ys s1 s2 y' s3 z l H P1 P2 Hz A.
  destruct (polygons_plane en ps s PO AI POL AE GE ADD n op fill y ys s1 s2 y' s3 z 0%R H P1 P2 Hz) as (l1 & l2 & A' & _ & _ & _ & _ & B & _).
  now rewrite (active_fun _ _ _ A A').
Qed.
(** C50 *)
Lemma C50_counts_lemma en ps (s : clipper R) : (forall l, Permutation (en_order en l) l) -> (forall i j, en_addr en i = en_addr en j -> i = j) ->
  Forall polygon (all_outlines ps) -> Forall above_end (all_outlines ps) -> generic (all_sides ps) -> add_all clipper0 ps = Ok s ->
  forall n op fill y ys s1 s2 y' s3 z x, visits en n s op fill (y :: ys) s1 -> scan_at n s1 y = Ok s2 -> pop_scanline s2 y = (Some y', s3) -> (y < z < y')%R ->
  exists l1 l2, active s2 (l1 ++ l2) /\ all_counted fill s2 (l1 ++ l2) /\
    (forall i e, In i l1 -> nth_error (edges s2) i = Some e -> (ex e z < x)%R) /\ (forall i e, In i l2 -> nth_error (edges s2) i = Some e -> (x <= ex e z)%R) /\
    wind s2 subject l1 (winding (typed_sides ps subject) x z) /\ wind s2 clip l1 (winding (typed_sides ps clip) x z).
Proof.
  intros PO AI POL AE GE ADD n op fill y ys s1 s2 y' s3 z x H P1 P2 Hz.
  destruct (polygons_plane en ps s PO AI POL AE GE ADD n op fill y ys s1 s2 y' s3 z x H P1 P2 Hz) as (l1 & l2 & A1 & A2 & A3 & A4 & A5 & A6 & A7 & A8 & A9).
  exists l1, l2. csplit; auto.
Qed.
Lemma C50_inside_lemma en ps (s : clipper R) : (forall l, Permutation (en_order en l) l) -> (forall i j, en_addr en i = en_addr en j -> i = j) ->
  Forall polygon (all_outlines ps) -> Forall above_end (all_outlines ps) -> generic (all_sides ps) -> add_all clipper0 ps = Ok s ->
  forall n op fill y ys s1 s2 y' s3 z x, visits en n s op fill (y :: ys) s1 -> scan_at n s1 y = Ok s2 -> pop_scanline s2 y = (Some y', s3) -> (y < z < y')%R ->
  exists l1 l2 k, active s2 (l1 ++ l2) /\
    (forall i e, In i l1 -> nth_error (edges s2) i = Some e -> (ex e z < x)%R) /\ (forall i e, In i l2 -> nth_error (edges s2) i = Some e -> (x <= ex e z)%R) /\
    kept s2 l1 k /\ Nat.odd (length k) = bool_op op (in_fill fill (winding (typed_sides ps subject) x z)) (in_fill fill (winding (typed_sides ps clip) x z)).
Proof.
  intros PO AI POL AE GE ADD n op fill y ys s1 s2 y' s3 z x H P1 P2 Hz.
  destruct (polygons_plane en ps s PO AI POL AE GE ADD n op fill y ys s1 s2 y' s3 z x H P1 P2 Hz) as (l1 & l2 & A1 & A2 & A3 & A4 & A5 & A6 & A7 & A8 & A9).
  rewrite <- A5 in A3. destruct (parity_lemma s2 l1 l2 A2 A3) as (k & K & w & v & W & V & E). rewrite A4, A5 in E.
  exists l1, l2, k. csplit; auto. rewrite E. rewrite (wind_fun _ _ _ _ W _ (A9 subject)), (wind_fun _ _ _ _ V _ (A9 clip)). reflexivity.
Qed.
