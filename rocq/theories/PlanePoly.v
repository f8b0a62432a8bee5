(** Polygons in general position, broken at their crossings. *)
From Coq Require Import ZArith Bool List Reals Lra Lia Sorted Permutation.
From Verif Require Import Outcome Num Order OrdTac Rmath Segment Path PathSpec RTac ScanLine VState VPath VBreak VAel VOut VMain VLemmas VFrame ClipSpec AelSpec VAelProofs VEdges
  VAelRun VRun SortProofs RingSpec BezierSpec BreakSpec
  MarkProofs VRing VBuild VAdd MarkSpec VCut VBroken TraceR LineSpec LineR RingStatements BreakStatements BreakLines BreakDrawn ClimbSpec ClimbRing ClimbBroken ClimbPoly
  VClimb ClimbNone SpanSpec SpanRing SpanTop SpanStep SpanRun SpanMark SpanPoly SpanEnd PlaneSpec PlaneGeo PlaneCount PlaneWind.
Import ListNotations.
Local Open Scope out.

Lemma cuts_straight (p : vec2 R) q rs : Forall (fun h => match h with SLine _ => True | _ => False end) (cuts p (SLine q) rs).
Proof.
  unfold cuts. assert (K : forall rs hs, Forall (fun h : seg R => match h with SLine _ => True | _ => False end) hs ->
    Forall (fun h => match h with SLine _ => True | _ => False end) (fold_left (recut p) rs hs)).
  { clear. induction rs as [|r rs IH]; intros hs H; cbn; auto. apply IH. destruct hs as [|h hs]; cbn; auto.
    apply Forall_cons_iff in H as [Hh H]. apply Forall_app. split; auto. destruct h; try contradiction. cbn. apply Forall_app. split.
    - apply Forall_map. apply Forall_forall. intros. exact I.
    - repeat constructor. }
  apply K. repeat constructor.
Qed.
Lemma pieces_straight vs bs i v (q : vec2 R) : nth_error vs i = Some v -> v_seg v = Some (SLine q) -> Forall (fun h => match h with SLine _ => True | _ => False end) (pieces_from vs bs i).
Proof. intros V G. unfold pieces_from. rewrite V, G. apply cuts_straight. Qed.

(** The part of the side from [p] to [q] between two parameters *)
Definition part (vs : list (vertex R)) (p q : vec2 R) (a b : nat) (lo t : R) : Prop :=
  exists va vb, nth_error vs a = Some va /\ nth_error vs b = Some vb /\ v_next va = Some b /\ v_prev vb = Some a /\
    v_seg va = Some (SLine (v_pt vb)) /\ v_pt va = pt p q lo /\ v_pt vb = pt p q t.
Fixpoint chain (vs : list (vertex R)) (p q : vec2 R) (a : nat) (lo : R) (ns : list nat) (ts : list R) (b : nat) : Prop :=
  match ns, ts with
  | [], [] => part vs p q a b lo 1
  | n :: ns, t :: ts => part vs p q a n lo t /\ chain vs p q n t ns ts b
  | _, _ => False
  end.
Lemma seg_at_pt p q u : seg_at p (SLine q) u = pt p q u.
Proof. unfold seg_at, pt. f_equal; ring. Qed.
Lemma chain_of vs p q b : forall ns ts hs a va lo, follows (v_pt va) p (SLine q) lo ts hs -> strand vs a (ns ++ [b]) hs -> length ts = length ns ->
  Forall (fun h => match h with SLine _ => True | _ => False end) hs -> nth_error vs a = Some va -> v_pt va = pt p q lo -> chain vs p q a lo ns ts b.
Proof.
  induction ns as [|n ns IH]; intros [|t ts] [|h hs] a va lo F S L ST VA PA; try discriminate; try contradiction.
  - destruct hs; [|contradiction]. destruct S as [(v & w & A & B & C & D & E & G) _]. rewrite VA in A. injection A as <-.
    cbn [chain]. exists va, w. apply Forall_cons_iff in ST as [ST _]. destruct h as [|x|x|x]; try contradiction. cbn [seg_target] in G. rewrite <- G in E. csplit; auto.
    specialize (F 1%R). rewrite !seg_at_pt in F. replace (lo + (1 - lo) * 1)%R with 1%R in F by ring. rewrite <- F, G. unfold pt. destruct x as [x y]. cbn. f_equal; ring.
  - destruct F as [F1 F2]. destruct S as [(v & w & A & B & C & D & E & G) S]. rewrite VA in A. injection A as <-. apply Forall_cons_iff in ST as [ST1 ST].
    destruct h as [|x|x|x]; try contradiction. cbn [seg_target] in *.
    assert (PW : v_pt w = pt p q t).
    { specialize (F1 1%R). rewrite !seg_at_pt in F1. replace (lo + (t - lo) * 1)%R with t in F1 by ring. rewrite <- F1, G. unfold pt. destruct x as [x y]. cbn. f_equal; ring. }
    split.
    + exists va, w. rewrite <- G in E. csplit; auto.
    + rewrite <- G in F2. eapply IH; eauto.
Qed.
(** The parts of a chain *)
Lemma chain_part vs p q b ns : forall ts a lo j, chain vs p q a lo ns ts b -> increasing lo ts 1 -> In j (a :: ns) ->
  exists k t t', part vs p q j k t t' /\ (lo <= t < t')%R /\ (t' <= 1)%R /\ (j = a /\ t = lo \/ In j ns /\ In t ts) /\ (forall u, In u (lo :: ts) -> u <= t \/ t' <= u)%R /\
    (k = b /\ t' = 1%R \/ In k ns /\ In t' ts).
Proof.
  induction ns as [|n ns IH]; intros [|t ts] a lo j C I H; try contradiction.
  - destruct H as [->|[]]. exists b, lo, 1%R. cbn in I. csplit; auto; try lra. intros u [<-|[]]. lra.
  - destruct C as [C1 C2]. destruct I as [I1 I2]. destruct (increasing_lt _ _ _ I2) as [I3 I4]. rewrite Forall_forall in I4. destruct H as [->|H].
    + exists n, lo, t. csplit; auto; try lra.
      * intros u [<-|[<-|Hu]]; try lra. apply I4 in Hu. lra.
      * right. cbn. auto.
    + destruct (IH ts n t j C2 I2 H) as (k & u & u' & A & B & D & E & F & G). exists k, u, u'. csplit; auto; try lra.
      * right. destruct E as [[-> ->]|[E1 E2]]; cbn; auto.
      * intros z [<-|Hz]; [lra|]. apply F. exact Hz.
      * destruct G as [G|[G1 G2]]; cbn; auto.
Qed.
Lemma chain_inj vs p q b ns : forall ts a lo j j' k k' t t' u', chain vs p q a lo ns ts b -> increasing lo ts 1 -> In j (a :: ns) -> In j' (a :: ns) -> vy p <> vy q ->
  part vs p q j k t t' -> part vs p q j' k' t u' -> j = j'.
Proof.
  assert (PI : forall p q t u, vy p <> vy q -> pt p q t = pt p q u -> t = u).
  { intros p0 q0 t u NE E. injection E as _ E. assert ((t - u) * (vy q0 - vy p0) = 0)%R by lra. assert (t - u = 0)%R; [|lra]. apply Rmult_integral in H as [H|H]; lra. }
  assert (AFTER : forall l ts a lo j t k t', chain vs p q a lo l ts b -> increasing lo ts 1 -> vy p <> vy q -> In j l -> part vs p q j k t t' -> (lo < t)%R).
  { induction l as [|n l IH]; intros [|u ts] a lo j t k t' C I NE H PJ; try contradiction. destruct C as [C1 C2], I as [I1 I2]. destruct H as [->|H].
    - destruct C1 as (va & vb & _ & B & _ & _ & _ & _ & D). destruct PJ as (va' & vb' & A' & _ & _ & _ & _ & E & _). assert (pt p q u = pt p q t) by congruence.
      apply PI in H; auto. lra.
    - assert (u < t)%R by (eapply IH; eauto). lra. }
  induction ns as [|n ns IH]; intros [|u ts] a lo j j' k k' t t' u' C I H H' NE PJ PJ'; try contradiction.
  - destruct H as [<-|[]], H' as [<-|[]]. reflexivity.
  - assert (ST : forall x kx t0, a = x -> part vs p q x kx t t0 -> t = lo).
    { intros x kx t0 <- (v1 & v2 & A & _ & _ & _ & _ & B & _). destruct C as [(va & vb & A' & _ & _ & _ & _ & B' & _) _]. apply (PI p q); auto. congruence. }
    destruct H as [<-|H], H' as [<-|H']; auto.
    + pose proof (ST _ _ _ eq_refl PJ). pose proof (AFTER _ _ _ _ _ _ _ _ C I NE H' PJ'). lra.
    + pose proof (ST _ _ _ eq_refl PJ'). pose proof (AFTER _ _ _ _ _ _ _ _ C I NE H PJ). lra.
    + destruct C as [C1 C2], I as [I1 I2]. eapply IH; eauto.
Qed.

(** *** Sides of polygons and of the broken contours *)
Section Poly.
  Variable en : env.
  Variable ps : list (path_type * list (list (outline (T := R)))).
  Variable s : clipper R.
  Hypothesis PO : forall l, Permutation (en_order en l) l.
  Hypothesis AI : forall i j, en_addr en i = en_addr en j -> i = j.
  Hypothesis POL : Forall polygon (all_outlines ps).
  Hypothesis ADD : add_all clipper0 ps = Ok s.
  Notation cont := (contour (T := R)).
  Notation its := (flat_map (fun x => items (fst x) (concat (snd x))) ps).

  Lemma poly_broken : exists (cs : list cont) news s1, built clipper0 its cs s /\ rings (verts s) (map c_verts cs) /\
    process_intersect en s = Ok s1 /\ edges s1 = edges s /\ scans s1 = scans s /\ lmins s1 = lmins s /\
    (forall i v, nth_error (verts s) i = Some v -> exists w, nth_error (verts s1) i = Some w /\ v_pt w = v_pt v) /\
    extremal (verts s1) (lmins s1) (minima s1) (map (with_new news) (map c_verts cs)) /\
    (forall i j, In j (news i) -> length (verts s) <= j) /\
    (forall c i j r, In c cs -> turned (c_verts c) i (j :: r) -> exists v q w ts, nth_error (verts s) i = Some v /\ v_seg v = Some (SLine q) /\ nth_error (verts s) j = Some w /\ v_pt w = q /\
      increasing 0 ts 1 /\ chain (verts s1) (v_pt v) q i 0 (news i) ts j /\
      forall k t, In k (concat (map c_verts cs)) -> i <> k -> crosses (verts s) i k t -> well_inside t -> In t ts).
  Proof.
    destruct (polygon_extremal en ps s PO AI POL ADD) as (cs0 & ls0 & news0 & s0 & B0 & R0 & ST0 & PI0 & _).
    clear cs0 ls0 news0 B0 R0 ST0.
    assert (D : drawable_paths ps) by (eapply Forall_impl; [|exact POL]; intros o; apply polygon_drawing).
    destruct (add_all_built ps clipper0 [] [] D (built_nil _)) as (s' & cs & E & B). rewrite ADD in E. injection E as <-.
    destruct (built_rings _ _ _ B (items_drawable ps)) as [R ST]. set (ls := map c_verts cs) in *.
    assert (H : forall l, In l ls -> exists o, In o (all_outlines ps) /\ accepted (outline_segs o) = true /\ ring (verts s) l (outline_segs o)).
    { intros l Hl. apply in_map_iff in Hl as (c & <- & Hc). destruct B as (_ & IT & OK & _). rewrite Forall_forall in OK.
      destruct (OK c Hc) as (f & r & EV & NE & R' & _). rewrite EV.
      assert (K : In (c_type c, c_segs c) (filter (fun it => accepted (snd it)) its)).
      { cbn [app] in IT. rewrite <- IT. exact (in_map (fun c : contour => (c_type c, c_segs c)) cs c Hc). }
      apply filter_In in K as [K AC]. destruct (items_outline _ _ K) as (o & Ho & EQ). cbn [snd] in *. exists o. rewrite <- EQ. auto. }
    pose proof (drawn_straight ps s ls R H POL) as STR.
    destruct (find_breaks_lines en s ls PO R ST STR) as (bs & FB & EX & CR).
    destruct (process_intersect_broken en s ls bs R ST FB) as (vs' & news & PI & RG & ND & LN & OLD & NEW & FLAG). cbn zeta in PI.
    set (hs := pieces_from (verts s) (tidy_breaks en bs)) in *.
    assert (CH : forall c i j r, In c cs -> turned (c_verts c) i (j :: r) -> exists v q w ts, nth_error (verts s) i = Some v /\ v_seg v = Some (SLine q) /\ nth_error (verts s) j = Some w /\ v_pt w = q /\
      increasing 0 ts 1 /\ length ts = length (news i) /\ strand vs' i (news i ++ [j]) (hs i) /\ follows (v_pt v) (v_pt v) (SLine q) 0 ts (hs i) /\ chain vs' (v_pt v) q i 0 (news i) ts j /\
      forall k t, In k (concat (map c_verts cs)) -> i <> k -> crosses (verts s) i k t -> well_inside t -> In t ts).
    { intros c i j r Hc TR. assert (Hl : In (c_verts c) (map c_verts cs)) by now apply in_map.
      rewrite Forall_forall in RG. pose proof (RG _ Hl) as R'.
      assert (Hin : forall k, In k (c_verts c) -> In k (concat (map c_verts cs))) by (intros k Hk; apply in_concat; eauto).
      assert (Hi : In i (c_verts c)) by (destruct TR as (a & b & -> & _); apply in_or_app; right; now left).
      destruct (STR i (Hin i Hi)) as (v & q & V & G & _). destruct (C23_exact_lemma en s _ bs AI R EX i v _ (Hin i Hi) V G) as (ts & T1 & T2 & T3). fold hs in T2.
      assert (LT : length ts = length (news i)).
      { assert (L0 : forall ts0 p0 p g0 lo hs, follows p0 p g0 lo ts0 hs -> length hs = S (length ts0)).
        { clear. induction ts0 as [|t ts0 IH]; intros p0 p g0 lo [|h hs] F; try contradiction.
          - destruct hs; [reflexivity|contradiction].
          - destruct F as [_ F]. simpl. f_equal. eapply IH; eauto. }
        apply L0 in T2. rewrite (LN i (Hin i Hi)) in T2. lia. }
      assert (SW : strand vs' i (news i ++ [j]) (hs i)).
      { pose proof TR as (a & b & Ec & Er). set (e := hd 0 (c_verts c)).
        assert (Ej : j = hd e b). { subst e. rewrite Ec. destruct b; cbn in Er |- *; [destruct a|]; cbn in *; try discriminate; now injection Er as -> _. }
        rewrite Ej. destruct (c_verts c) as [|f r0] eqn:EC; [destruct a; discriminate|]. cbn [with_new flat_map app ring] in R'. destruct R' as [_ R'].
        eapply (strand_walk vs' news hs e (f :: r0) f); eauto. reflexivity. }
      destruct (OLD i v V) as (v' & V' & PV & _).
      assert (LK : exists w, nth_error (verts s) j = Some w /\ v_pt w = q).
      { destruct (H _ Hl) as (o & _ & _ & RO). destruct TR as (a & b & Ec & Er). destruct (ring_from _ _ _ i (j :: r) RO) as [g S]; [exists a, b; auto|].
        destruct g as [|g gs]; [contradiction|]. cbn [app strand] in S. destruct S as [(va & vb & A & C & _ & _ & F & T) _]. rewrite V in A. injection A as <-. rewrite G in F. injection F as <-.
        exists vb. auto. }
      destruct LK as (w & W & PW). exists v, q, w, ts. csplit; auto.
      - rewrite <- PV in T2 at 1. eapply (chain_of vs' (v_pt v) q j (news i) ts (hs i) i v'); eauto.
        + eapply pieces_straight; eauto.
        + rewrite PV. unfold pt. destruct (v_pt v). cbn. f_equal; ring.
      - intros k t Hk NE C W'. apply T3. apply (CR i k t); auto. }
    exists cs, news, (w_verts (w_breaks s (tidy_breaks en bs)) vs'). cbn [verts w_verts w_breaks edges scans lmins minima].
    split; [exact B|]. split; [exact R|]. split; [exact PI|]. split; [reflexivity|]. split; [reflexivity|]. split; [reflexivity|]. split; [|split; [|split; [exact NEW|]]].
    - intros i v Hv. destruct (OLD i v Hv) as (w & W & PW & _). eauto.
    - subst ls. rewrite map_map in *.
      apply (broken_extremal _ cs s vs' news (fun c => flat_map hs (c_verts c)) B); auto.
      + intros c Hc. rewrite Forall_forall in RG. apply RG. now apply in_map.
      + intros; exact I.
      + intros c i j r Hc TR. destruct (CH c i j r Hc TR) as (v & q & w & ts & V & _ & _ & _ & T1 & LT & SW & T2 & _).
        eapply (follows_onway vs' (v_pt v) q (news i) ts); eauto. destruct (OLD i v V) as (w' & W' & PW' & _). now rewrite (height_some _ _ _ W'), PW'.
    - intros c i j r Hc TR. destruct (CH c i j r Hc TR) as (v & q & w & ts & V & G & W & PW & T1 & LT & SW & T2 & C & CRS). exists v, q, w, ts. csplit; auto.
  Qed.
End Poly.
