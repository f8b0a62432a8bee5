(** In every run the active edges are the sides that the scan line meets: contours without crossings, and polygons. *)
From Coq Require Import ZArith Bool List Reals Lia Sorted Permutation.
From Verif Require Import Outcome Num Order OrdTac Rmath Segment Path PathSpec RTac ScanLine VState VPath VBreak VAel VOut VMain VLemmas VFrame ClipSpec AelSpec VAelProofs VEdges
  VAelRun VRun SortProofs RingSpec BezierSpec BreakSpec
  MarkProofs VRing VBuild VAdd MarkSpec VCut VBroken TraceR LineSpec LineR RingStatements BreakStatements BreakLines BreakDrawn ClimbSpec ClimbRing ClimbBroken ClimbPoly
  VClimb ClimbNone SpanSpec SpanRing SpanTop SpanStep SpanRun SpanMark SpanPoly.
Import ListNotations.
Local Open Scope out.

Section Spans.
  Context {T : Type} {N : Num T} {O : OrdNum T}.
  Implicit Types s : clipper T.
  Lemma push_minima_in l : forall s s', push_minima s l = Ok s' ->
    VFrame.fin s' = VFrame.fin s /\ edges s' = edges s /\ ael s' = ael s /\ cur s' = cur s /\
    (forall m, In m l -> exists x, nth_error (lmins s) m = Some x) /\
    forall z, In z (scans s') <-> In z (scans s) \/ exists m, In m l /\ z = height (verts s) (lv (lmins s) m).
  Proof.
    induction l as [|m l IH]; intros s s' H; cbn [push_minima] in H.
    { binvs. csplit; auto; try contradiction. intros z. split; auto. intros [K|(m & [] & _)]; auto. }
    apply bind_ok in H as (x & Ex & H). apply at_ok in Ex. apply bind_ok in H as (v & Ev & H). apply at_ok in Ev.
    apply IH in H as (A & B & C & D & E & F). cbn [lmins verts edges ael cur insert_scanline w_scans scans] in *. csplit; auto.
    - intros k [<-|Hk]; eauto.
    - intros z. rewrite F, in_insert. assert (K : vy (v_pt v) = height (verts s) (lv (lmins s) m)).
      { unfold lv. rewrite Ex. unfold height. now rewrite Ev. }
      rewrite K. split.
      + intros [[->|H]|(k & Hk & ->)]; auto; right; [exists m|exists k]; cbn; auto.
      + intros [H|(k & [<-|Hk] & ->)]; auto. right. eauto.
  Qed.
  Lemma reset_in s1 s2 : reset s1 = Ok s2 -> scans s1 = [] ->
    verts s2 = verts s1 /\ lmins s2 = lmins s1 /\ minima s2 = sort_by (min_ltb s1) (minima s1) /\ edges s2 = edges s1 /\ ael s2 = None /\ cur s2 = 0 /\
    (forall m, In m (minima s1) -> exists x, nth_error (lmins s1) m = Some x) /\
    forall z, In z (scans s2) <-> exists m, In m (minima s2) /\ z = height (verts s1) (lv (lmins s1) m).
  Proof.
    intros H Q. unfold reset in H. cbn zeta in H. apply bind_ok in H as (s & F & H). injection H as <-.
    apply push_minima_in in F as (A & B & C & D & E & F). cbn [lmins verts edges ael cur scans w_minima w_obl w_ael minima] in *.
    unfold VFrame.fin in A. cbn in A. injection A as A1 A2 A3 A4 A5 A6 A7. rewrite A1, A2, A3. csplit; auto.
    - intros m Hm. apply E. apply -> in_rev. eapply Permutation_in; [apply sort_by_perm|exact Hm].
    - intros z. rewrite F, Q. split.
      + intros [[]|(m & Hm & ->)]. exists m. split; auto. now apply in_rev.
      + intros (m & Hm & ->). right. exists m. split; auto. now apply -> in_rev.
  Qed.

  Variable en : env.
  Variable s0 s1 : clipper T.
  Variables (op : clip_type) (fill : fill_rule).
  Variable ls : list (list nat).
  Hypothesis HP : process_intersect en (w_op s0 op fill) = Ok s1.
  Hypothesis HE : edges s1 = [].
  Hypothesis HQ : scans s1 = [].
  Hypothesis V : vs_valid (verts s1).
  Hypothesis X : extremal (verts s1) (lmins s1) (minima s1) ls.
  Hypothesis NH : forall i, In i (map lm_vert (lmins s1)) -> n_eqb (height (verts s1) i) (n_neg n_huge) = false.
  Let MS := sort_by (min_ltb s1) (minima s1).
  Let MK := extremal_marked _ _ _ _ X.
  Notation ready := (ready (verts s1) (on_contour ls) (lmins s1) MS).
  Notation ended := (ended (verts s1) (on_contour ls) (lmins s1) MS).

  Lemma lv_seq l : map (lv l) (seq 0 (length l)) = map lm_vert l.
  Proof.
    assert (K : forall r pre, map (lv (pre ++ r)) (seq (length pre) (length r)) = map lm_vert r); [|apply (K l [])].
    induction r as [|x r IH]; intros pre; [reflexivity|]. cbn [length seq map]. f_equal.
    - unfold lv. rewrite nth_error_app2, Nat.sub_diag by lia. reflexivity.
    - specialize (IH (pre ++ [x])). rewrite <- app_assoc, app_length, Nat.add_1_r in IH. exact IH.
  Qed.
  Lemma lv_perm : Permutation (map (lv (lmins s1)) MS) (map lm_vert (lmins s1)).
  Proof. rewrite <- lv_seq, <- (ex_queue _ _ _ _ X). apply Permutation_map, Permutation_sym. apply sort_by_perm. Qed.
  Lemma MS_in m : In m MS -> In m (minima s1).
  Proof. intros H. eapply Permutation_in; [apply Permutation_sym, sort_by_perm|exact H]. Qed.
  Lemma MS_some m : In m MS -> exists x, nth_error (lmins s1) m = Some x.
  Proof.
    intros H. apply MS_in in H. rewrite (ex_queue _ _ _ _ X) in H. apply in_seq in H.
    destruct (nth_error (lmins s1) m) as [x|] eqn:E; eauto. apply nth_error_None in E. lia.
  Qed.
  Lemma MS_nodup : NoDup (map (lv (lmins s1)) MS).
  Proof. eapply Permutation_NoDup; [apply Permutation_sym, lv_perm|]. eapply ex_once; eauto. Qed.
  Lemma MS_M i : is_lowest (verts s1) ls i <-> In i (map (lv (lmins s1)) MS).
  Proof.
    unfold is_lowest. rewrite <- (ex_low _ _ _ _ X). split; apply Permutation_in; [apply Permutation_sym|]; apply lv_perm.
  Qed.
  Lemma low_height i : In i (map lm_vert (lmins s1)) -> exists v, nth_error (verts s1) i = Some v /\ nvalid (vy (v_pt v)).
  Proof.
    intros H. apply (ex_low _ _ _ _ X) in H. assert (K : on_contour ls i) by (eapply (start_P _ _ _ MK); exact H).
    destruct (mk_some _ _ _ MK i K) as [v Hv]. exists v. split; auto. apply V. eapply nth_error_In; eauto.
  Qed.
  Lemma MS_sorted : StronglySorted (fun a b => nle (height (verts s1) (lv (lmins s1) a)) (height (verts s1) (lv (lmins s1) b))) MS.
  Proof.
    set (ok := fun m => exists x v, nth_error (lmins s1) m = Some x /\ nth_error (verts s1) (lm_vert x) = Some v /\ nvalid (vy (v_pt v))).
    assert (OKH : forall m, ok m -> exists x v, nth_error (lmins s1) m = Some x /\ nth_error (verts s1) (lm_vert x) = Some v /\ nvalid (vy (v_pt v)) /\
      height (verts s1) (lv (lmins s1) m) = vy (v_pt v)).
    { intros m (x & v & A & B & C). exists x, v. csplit; auto. unfold lv. rewrite A. unfold height. now rewrite B. }
    apply (sort_by_sorted (min_ltb s1) ok).
    - intros a b c Ha Hb Hc. destruct (OKH a Ha) as (xa & va & _ & _ & A & ->), (OKH b Hb) as (xb & vb & _ & _ & B & ->), (OKH c Hc) as (xc & vc & _ & _ & C & ->).
      unfold nle. intros. ord.
    - intros a b Ha Hb. destruct (OKH a Ha) as (xa & va & A1 & A2 & A & ->), (OKH b Hb) as (xb & vb & B1 & B2 & B & ->).
      unfold min_ltb, nle. rewrite A1, B1, A2, B2. destruct (n_eqb (vy (v_pt va)) (vy (v_pt vb))) eqn:E.
      + destruct (n_ltb (vx (v_pt va)) (vx (v_pt vb))); ord.
      + destruct (n_ltb (vy (v_pt va)) (vy (v_pt vb))) eqn:L; ord.
    - apply Forall_forall. intros m Hm. rewrite (ex_queue _ _ _ _ X) in Hm. apply in_seq in Hm.
      destruct (nth_error (lmins s1) m) as [x|] eqn:E; [|apply nth_error_None in E; lia].
      destruct (low_height (lm_vert x)) as (v & Hv & K); [apply in_map; eapply nth_error_In; eauto|]. exists x, v. auto.
  Qed.
  Lemma visits_ready n y ys s : visits en n s0 op fill (y :: ys) s -> ready y s.
  Proof.
    intros H. remember (y :: ys) as l eqn:El. revert y ys El. induction H as [s1' s2 s3 y P1 P2 P3|y ys s s2 s3 s4 y' H IH P1 P2 P3]; intros y0 ys0 El; injection El as <- <-.
    - rewrite HP in P1. injection P1 as <-.
      destruct (reset_climbs (verts s1) s1 s2) as (G & S & H); auto; [eapply extremal_valleys; eauto|].
      destruct (reset_in s1 s2 P2 HQ) as (A1 & A2 & A3 & A4 & A5 & A6 & A7 & A8).
      eapply (pop_first (verts s1) (on_contour ls) (is_lowest (verts s1) ls) MK V (lmins s1) MS MS_M s2); auto.
      + unfold same_lists. auto.
      + congruence.
      + intros m Hm. apply A8. exists m. rewrite A3. auto.
      + intros m Hm. apply NH. eapply Permutation_in; [apply lv_perm|]. now apply in_map.
      + intros z Hz. apply A8 in Hz as (m & Hm & ->). exists m. rewrite A3 in Hm. auto.
    - specialize (IH y ys eq_refl).
      eapply (scan_at_ended (verts s1) (on_contour ls) (is_lowest (verts s1) ls) MK V (lmins s1) MS MS_some MS_nodup MS_M MS_sorted) in P1; eauto.
      eapply (pop_ready (verts s1) (on_contour ls) (is_lowest (verts s1) ls) MK V (lmins s1) MS MS_some MS_M); eauto.
  Qed.
  Lemma met_meets y u : met (verts s1) (on_contour ls) y u <-> meets (verts s1) ls y u.
  Proof.
    split.
    - intros (j & (l & Hl & Hj) & A & B & C). exists l, j. csplit; auto.
      assert (K : on_contour ls (snd u)) by (eapply (side_P _ _ _ MK); [|exact A]; exists l; auto).
      clear - Hl Hj A X. destruct u as [fwd k]. cbn [fst snd] in *. apply side_sym in A.
      destruct fwd; eapply (side_before (verts s1) ls (ex_ring _ _ _ _ X) (ex_valid _ _ _ _ X) (ex_flat _ _ _ _ X)); eauto.
    - intros (l & j & Hl & Hj & _ & A & B & C). exists j. csplit; auto. exists l. auto.
  Qed.
  Lemma visits_spans n y ys s s' : visits en n s0 op fill (y :: ys) s -> scan_at n s y = Ok s' -> verts s' = verts s1 /\ spans s' ls y.
  Proof.
    intros H P1. apply visits_ready in H.
    eapply (scan_at_ended (verts s1) (on_contour ls) (is_lowest (verts s1) ls) MK V (lmins s1) MS MS_some MS_nodup MS_M MS_sorted) in P1; eauto.
    destruct P1 as [Vy SL G Q AP (l & HA & [ND EX] & TQ) _]. destruct SL as (SL & _). split; auto.
    exists l. rewrite SL. csplit; auto.
    - intros u. rewrite EX. apply met_meets.
    - intros i e Hi E. destruct G as (_ & OK & _). destruct (OK i e E) as [(w & W & ET) _].
      destruct (AP i e E) as (_ & j & v & _ & SD & Hv & EB). exists j, v, w. auto.
  Qed.
End Spans.

Section Drawn.
  Context {T : Type} {N : Num T} {O : OrdNum T}.
  Lemma low_old (s : clipper T) its cs i : built clipper0 its cs s -> In i (map lm_vert (lmins s)) ->
    exists c, In c cs /\ In i (c_verts c).
  Proof.
    intros (_ & _ & OKC & _ & LM & _) H. cbn [clipper0 lmins app] in LM. rewrite LM, lows_verts in H. apply in_flat_map in H as (c & Hc & H).
    rewrite Forall_forall in OKC. destruct (OKC c Hc) as (f & r & EV & NE & R & X & F).
    apply extremes_sub in X; auto.
    assert (K : In i (f :: r)).
    { apply (sub_in _ _ X). unfold lows in H. apply in_map_iff in H as (z & <- & H). apply filter_In in H as [H _]. now apply in_map. }
    exists c. split; auto. now rewrite EV.
  Qed.
  (** Contours without crossings *)
  Lemma apart_spans en (ps : list (path_type * list (list (outline (T := T))))) (s : clipper T) : drawable_paths ps -> add_all clipper0 ps = Ok s ->
    Forall (fun v => nvalid (vy (v_pt v))) (verts s) -> not_at_end s -> find_breaks en (verts s) (starts s) = Ok [] ->
    exists ls, rings (verts s) ls /\ starts s = map (hd 0) ls /\
      forall n op fill y ys s1 s2, visits en n s op fill (y :: ys) s1 -> scan_at n s1 y = Ok s2 -> verts s2 = verts s /\ spans s2 ls y.
  Proof.
    intros D E V NH F.
    destruct (add_all_built ps clipper0 [] [] D (built_nil _)) as (s' & cs & E' & B). rewrite E in E'. injection E' as <-.
    destruct (built_rings _ _ _ B (items_drawable ps)) as [R ST]. exists (map c_verts cs). csplit; auto.
    destruct (drawn_fresh ps s D E) as (F1 & F2 & F3).
    assert (RG : forall c, In c cs -> ring (verts s) (c_verts c) (c_segs c)).
    { intros c Hc. destruct B as (_ & _ & OKC & _). rewrite Forall_forall in OKC. destruct (OKC c Hc) as (f & r & -> & _ & R' & _). exact R'. }
    assert (HV : forall c i, In c cs -> In i (c_verts c) -> nvalid (height (verts s) i)).
    { intros c i Hc Hi. destruct (ring_some _ _ _ _ (RG c Hc) Hi) as [v Hv]. rewrite (height_some _ _ _ Hv). rewrite Forall_forall in V.
      apply V. eapply nth_error_In; eauto. }
    assert (WN : map (fun c : contour => with_new (fun _ => []) (c_verts c)) cs = map c_verts cs) by (apply map_ext; intros; apply with_new_nil).
    assert (X : extremal (verts s) (lmins s) (minima s) (map c_verts cs)).
    { rewrite <- WN. apply (broken_extremal _ cs s (verts s) (fun _ => []) c_segs B).
      - intros c Hc. rewrite with_new_nil. auto.
      - rewrite WN. apply R.
      - intros i v Hv. exists v. auto.
      - contradiction.
      - intros j w L Hw. apply nth_error_None in L. congruence.
      - intros c i Hc Hi. rewrite with_new_nil in Hi. eauto.
      - intros c i j r Hc (a & b & K & K'). assert (In i (c_verts c) /\ In j (c_verts c)) as [I1 I2].
        { rewrite K. assert (In j (b ++ a)) by (rewrite <- K'; now left). rewrite !in_app_iff in *. cbn. tauto. }
        apply onway_nil; eauto. }
    intros n op fill y ys s1 s2 H1 H2.
    assert (PI : process_intersect en (w_op s op fill) = Ok (w_op (w_breaks s []) op fill)).
    { apply process_intersect_op. unfold process_intersect. rewrite F. reflexivity. }
    eapply (visits_spans en s (w_op (w_breaks s []) op fill) op fill (map c_verts cs)) in H2; eauto.
    - intros v Hv. rewrite Forall_forall in V. auto.
    - intros i Hi. destruct (low_old s _ cs i B Hi) as (c & Hc & Hic). destruct (ring_some _ _ _ _ (RG c Hc) Hic) as [v Hv]. change (n_eqb (height (verts s) i) (n_neg n_huge) = false). rewrite (height_some _ _ _ Hv).
      unfold not_at_end in NH. rewrite Forall_forall in NH. apply NH. eapply nth_error_In; eauto.
  Qed.
End Drawn.

(** Polygons *)
Lemma polygon_extremal en (ps : list (path_type * list (list (outline (T := R))))) (s : clipper R) :
  (forall l, Permutation (en_order en l) l) -> (forall i j, en_addr en i = en_addr en j -> i = j) ->
  Forall polygon (all_outlines ps) -> add_all clipper0 ps = Ok s ->
  exists cs ls news s1, built clipper0 (flat_map (fun x => items (fst x) (concat (snd x))) ps) cs s /\ rings (verts s) ls /\ starts s = map (hd 0) ls /\
    process_intersect en s = Ok s1 /\ edges s1 = edges s /\ scans s1 = scans s /\ lmins s1 = lmins s /\
    (forall i v, nth_error (verts s) i = Some v -> exists w, nth_error (verts s1) i = Some w /\ v_pt w = v_pt v) /\
    extremal (verts s1) (lmins s1) (minima s1) (map (with_new news) ls).
Proof.
  intros PO AI P E0. assert (D : drawable_paths ps) by (eapply Forall_impl; [|exact P]; intros o; apply polygon_drawing).
  destruct (add_all_built ps clipper0 [] [] D (built_nil _)) as (s' & cs & E & B). rewrite E0 in E. injection E as <-.
  destruct (built_rings _ _ _ B (items_drawable ps)) as [R ST]. set (ls := map c_verts cs) in *.
  assert (H : forall l, In l ls -> exists o, In o (all_outlines ps) /\ accepted (outline_segs o) = true /\ ring (verts s) l (outline_segs o)).
  { intros l Hl. apply in_map_iff in Hl as (c & <- & Hc). destruct B as (_ & IT & OK & _). rewrite Forall_forall in OK.
    destruct (OK c Hc) as (f & r & EV & NE & R' & _). rewrite EV.
    assert (K : In (c_type c, c_segs c) (filter (fun it => accepted (snd it)) (flat_map (fun x => items (fst x) (concat (snd x))) ps))).
    { cbn [app] in IT. rewrite <- IT. exact (in_map (fun c : contour => (c_type c, c_segs c)) cs c Hc). }
    apply filter_In in K as [K AC]. destruct (items_outline _ _ K) as (o & Ho & EQ). cbn [snd] in *. exists o. rewrite <- EQ. auto. }
  pose proof (drawn_straight ps s ls R H P) as STR.
  destruct (find_breaks_lines en s ls PO R ST STR) as (bs & FB & EX & CR).
  destruct (process_intersect_broken en s ls bs R ST FB) as (vs' & news & PI & RG & ND & LN & OLD & NEW & FLAG). cbn zeta in PI.
  exists cs, ls, news, (w_verts (w_breaks s (tidy_breaks en bs)) vs'). cbn [verts w_verts w_breaks edges scans lmins minima].
  split; [exact B|]. csplit; auto.
  - intros i v Hv. destruct (OLD i v Hv) as (w & W & PW & _). eauto.
  - subst ls. rewrite map_map in *.
  apply (broken_extremal _ cs s vs' news (fun c => flat_map (pieces_from (verts s) (tidy_breaks en bs)) (c_verts c)) B); auto.
  + intros c Hc. rewrite Forall_forall in RG. apply RG. now apply in_map.
  + intros; exact I.
  + intros c i j r Hc TR. assert (Hl : In (c_verts c) (map c_verts cs)) by now apply in_map.
    rewrite Forall_forall in RG. pose proof (RG _ Hl) as R'.
    assert (Hin : forall k, In k (c_verts c) -> In k (concat (map c_verts cs))) by (intros k Hk; apply in_concat; eauto).
    assert (Hi : In i (c_verts c)) by (destruct TR as (a & b & -> & _); apply in_or_app; right; now left).
    destruct (STR i (Hin i Hi)) as (v & q & V & G & _). destruct (C23_exact_lemma en s _ bs AI R EX i v _ (Hin i Hi) V G) as (ts & T1 & T2 & _).
    assert (LT : length ts = length (news i)).
    { assert (L0 : forall ts0 p0 p g0 lo hs, follows p0 p g0 lo ts0 hs -> length hs = S (length ts0)).
      { clear. induction ts0 as [|t ts0 IH]; intros p0 p g0 lo [|h hs] F; try contradiction.
        - destruct hs; [reflexivity|contradiction].
        - destruct F as [_ F]. simpl. f_equal. eapply IH; eauto. }
      apply L0 in T2. rewrite (LN i (Hin i Hi)) in T2. lia. }
    eapply (follows_onway vs' (v_pt v) q (news i) ts); eauto.
    * destruct TR as (a & b & Ec & Er). set (e := hd 0 (c_verts c)).
      assert (Ej : j = hd e b). { subst e. rewrite Ec. destruct b; cbn in Er |- *; [destruct a|]; cbn in *; try discriminate; now injection Er as -> _. }
      rewrite Ej. destruct (c_verts c) as [|f r0] eqn:EC; [destruct a; discriminate|]. cbn [with_new flat_map app ring] in R'. destruct R' as [_ R'].
      eapply (strand_walk vs' news (pieces_from (verts s) (tidy_breaks en bs)) e (f :: r0) f); eauto.
      reflexivity.
    * destruct (OLD i v V) as (w & W & PW & _). now rewrite (height_some _ _ _ W), PW.
Qed.
Lemma strand_target {T} (vs : list (vertex T)) l : forall a gs b, strand vs a l gs -> In b l -> exists v g, nth_error vs b = Some v /\ In g gs /\ v_pt v = seg_target g.
Proof.
  induction l as [|c l IH]; intros a [|g gs] b H K; try contradiction. destruct H as [(va & vb & _ & A & _ & _ & _ & B) H]. destruct K as [<-|K].
  - exists vb, g. cbn. auto.
  - destruct (IH c gs b H K) as (v & g' & X & Y & Z). exists v, g'. cbn. auto.
Qed.
Lemma ring_target {T} (vs : list (vertex T)) l gs b : ring vs l gs -> In b l -> exists v g, nth_error vs b = Some v /\ In g gs /\ v_pt v = seg_target g.
Proof.
  destruct l as [|i r]; [contradiction|]. intros [_ S] H. eapply strand_target; eauto. apply in_or_app. destruct H as [->|H]; [right; now left|now left].
Qed.
Lemma polygon_targets (p : vec2 R) cs : Forall (fun c => match c with PLine q => fin q | _ => False end) cs -> forall from,
  Forall (fun g => In (seg_target g) (map endpoint cs)) (all_pieces from cs).
Proof.
  induction 1 as [|c cs C _ IH]; intros from; cbn [all_pieces]; [constructor|]. apply Forall_app. split.
  - destruct c as [|q|]; try contradiction. cbn [pieces endpoint]. unfold line_piece. destruct (vneqb from q); repeat constructor.
  - eapply Forall_impl; [|apply IH]. intros g Hg. now right.
Qed.
Lemma outline_targets (o : outline (T := R)) g : polygon o -> In g (outline_segs o) -> In (seg_target g) (fst o :: map endpoint (snd o)).
Proof.
  intros [_ P] H. unfold outline_segs in H. pose proof (polygon_targets (fst o) (snd o) P (fst o)) as K. rewrite Forall_forall in K.
  assert (In g (all_pieces (fst o) (snd o) ++ [SLine (fst o)])) as Hg.
  { destruct (all_pieces (fst o) (snd o)) as [|g0 gs]; [contradiction|]. unfold closing in H. destruct (vneqb _ _); auto. apply in_or_app. now left. }
  apply in_app_or in Hg as [Hg|[<-|[]]]; [right; auto|now left].
Qed.
Lemma polygon_spans en (ps : list (path_type * list (list (outline (T := R))))) (s : clipper R) :
  (forall l, Permutation (en_order en l) l) -> (forall i j, en_addr en i = en_addr en j -> i = j) ->
  Forall polygon (all_outlines ps) -> Forall above_end (all_outlines ps) -> add_all clipper0 ps = Ok s ->
  exists ls news s', process_intersect en s = Ok s' /\ rings (verts s) ls /\ starts s = map (hd 0) ls /\
    (forall l, In l (map (with_new news) ls) -> exists gs, ring (verts s') l gs) /\ NoDup (concat (map (with_new news) ls)) /\
    forall n op fill y ys s1 s2, visits en n s op fill (y :: ys) s1 -> scan_at n s1 y = Ok s2 -> verts s2 = verts s' /\ spans s2 (map (with_new news) ls) y.
Proof.
  intros PO AI P AE E. destruct (polygon_extremal en ps s PO AI P E) as (cs & ls & news & s' & B & R & ST & PI & E1 & E2 & E3 & OLD & X).
  assert (D : drawable_paths ps) by (eapply Forall_impl; [|exact P]; intros o; apply polygon_drawing).
  destruct (drawn_fresh ps s D E) as (F1 & F2 & F3).
  exists ls, news, s'. csplit; auto.
  - apply (ex_ring _ _ _ _ X).
  - apply (ex_nodup _ _ _ _ X).
  - intros n op fill y ys s1 s2 H1 H2.
    eapply (visits_spans en s (w_op s' op fill) op fill) in H2; eauto.
    + apply process_intersect_op. exact PI.
    + cbn. congruence.
    + cbn. congruence.
    + intros v Hv. exact I.
    + cbn [verts lmins w_op]. rewrite E3. intros i Hi. destruct (low_old s _ cs i B Hi) as (c & Hc & Hic).
      destruct B as (_ & IT & OK & _). rewrite Forall_forall in OK. destruct (OK c Hc) as (f & r & EV & NE & R' & _). rewrite <- EV in R'.
      destruct (ring_target _ _ _ _ R' Hic) as (v & g & Hv & Hg & Ev).
      assert (K : In (c_type c, c_segs c) (filter (fun it => accepted (snd it)) (flat_map (fun x => items (fst x) (concat (snd x))) ps))).
      { cbn [app] in IT. rewrite <- IT. exact (in_map (fun c : contour => (c_type c, c_segs c)) cs c Hc). }
      apply filter_In in K as [K AC]. destruct (items_outline _ _ K) as (o & Ho & EQ). cbn [snd] in EQ. rewrite EQ in Hg.
      rewrite Forall_forall in P, AE. apply (outline_targets o g (P o Ho)) in Hg. specialize (AE o Ho). unfold above_end in AE. rewrite Forall_forall in AE.
      apply AE in Hg. destruct (OLD i v Hv) as (w & W & PW). rewrite (height_some _ _ _ W), PW, Ev. exact Hg.
Qed.
