(** Polygons in general position: their broken contours, and winding numbers. *)
From Coq Require Import ZArith Bool List Reals Lra Lia Sorted Permutation.
From Verif Require Import Outcome Num Order OrdTac Rmath Segment Path PathSpec RTac ScanLine VState VPath VBreak VAel VOut VMain VLemmas VFrame ClipSpec AelSpec VAelProofs VEdges
  VAelRun VRun SortProofs RingSpec BezierSpec BreakSpec WindSpec VWind
  MarkProofs VRing VBuild VAdd MarkSpec VCut VBroken TraceR LineSpec LineR RingStatements BreakStatements BreakLines BreakDrawn ClimbSpec ClimbRing ClimbBroken ClimbPoly
  VClimb ClimbNone SpanSpec SpanRing SpanTop SpanStep SpanRun SpanMark SpanPoly SpanEnd PlaneSpec PlaneGeo PlaneCount PlaneWind PlanePoly.
Import ListNotations.
Local Open Scope out.

Lemma pt_inj p q t u : vy p <> vy q -> pt p q t = pt p q u -> t = u.
Proof.
  intros NE E. injection E as _ E. assert (H : ((t - u) * (vy q - vy p) = 0)%R) by lra. assert (t - u = 0)%R; [|lra]. apply Rmult_integral in H as [H|H]; lra.
Qed.
Lemma pt_0 p q : pt p q 0 = p.
Proof. unfold pt. destruct p. cbn. f_equal; ring. Qed.
Lemma pt_1 p q : pt p q 1 = q.
Proof. unfold pt. destruct q. cbn. f_equal; ring. Qed.
Lemma pt_pt p q t t' u : pt (pt p q t) (pt p q t') u = pt p q (t + u * (t' - t)).
Proof. unfold pt. cbn. f_equal; ring. Qed.
Lemma on_part p q t t' x : (t < t')%R -> on_segment x (pt p q t) (pt p q t') -> exists u, (t <= u <= t')%R /\ x = pt p q u.
Proof. intros L (u & Hu & ->). rewrite pt_pt. eexists. split; [|reflexivity]. assert (0 <= u * (t' - t))%R by (apply Rmult_le_pos; lra). assert (0 <= (1 - u) * (t' - t))%R by (apply Rmult_le_pos; lra). lra. Qed.

(** *** Winding numbers add up. *)
Lemma xat_part p q a b z : vy p <> vy q -> a <> b -> xat (pt p q a) (pt p q b) z = xat p q z.
Proof.
  intros NE AB. unfold xat, pt. cbn.
  assert (D : (vy p + b * (vy q - vy p) - (vy p + a * (vy q - vy p)) <> 0)%R).
  { intros K. assert (H : ((b - a) * (vy q - vy p) = 0)%R) by lra. apply Rmult_integral in H as [H|H]; lra. }
  field. split; [lra|exact D].
Qed.
Lemma passes_split p q lo t x z : vy p <> vy q -> (lo < t < 1)%R ->
  (passes (pt p q lo) (pt p q t) x z + passes (pt p q t) (pt p q 1) x z = passes (pt p q lo) (pt p q 1) x z)%Z.
Proof.
  intros NE L. unfold passes. rewrite !xat_part by lra. set (w := Rltb (xat p q z) x).
  assert (YY : forall u, vy (pt p q u) = (vy p + u * (vy q - vy p))%R) by reflexivity.
  assert (C : (vy (pt p q lo) < vy (pt p q t) < vy (pt p q 1) \/ vy (pt p q 1) < vy (pt p q t) < vy (pt p q lo))%R) by (rewrite !YY; destruct (Rtotal_order (vy p) (vy q)) as [K|[K|K]]; [left|contradiction|right]; nra).
  generalize dependent (vy (pt p q lo)). generalize dependent (vy (pt p q t)). generalize dependent (vy (pt p q 1)). clear. intros a b c C.
  unfold Rleb, Rltb. repeat (match goal with |- context [if ?d then _ else _] => match d with Rle_dec _ _ => destruct d | Rlt_dec _ _ => destruct d end end; cbn [andb]); try lra; destruct w; reflexivity.
Qed.
Lemma chain_sum vs p q b x z ns : vy p <> vy q -> forall ts a lo, chain vs p q a lo ns ts b -> increasing lo ts 1 ->
  zsum (vpass vs x z) (a :: ns) = passes (pt p q lo) (pt p q 1) x z.
Proof.
  intros NE. assert (ONE : forall a k t t', part vs p q a k t t' -> vpass vs x z a = passes (pt p q t) (pt p q t') x z).
  { intros a k t t' (va & vb & A & B & C & _ & _ & D & E). unfold vpass. rewrite A, C, B, D, E. reflexivity. }
  induction ns as [|n ns IH]; intros [|t ts] a lo C I; try contradiction.
  - cbn [chain] in C. rewrite zsum_cons, (ONE _ _ _ _ C). cbn. lia.
  - destruct C as [C1 C2], I as [I1 I2]. rewrite zsum_cons, (ONE _ _ _ _ C1), (IH ts n t C2 I2). apply passes_split; auto. apply increasing_lt in I2 as [I2 _]. lra.
Qed.

(** *** The sides of a ring *)
Definition draws (vs : list (vertex R)) (i : nat) (ab : vec2 R * vec2 R) : Prop := exists v g, nth_error vs i = Some v /\ v_pt v = fst ab /\ v_seg v = Some g /\ seg_target g = snd ab.
Lemma strand_draws vs x : forall a va gs, strand vs a x gs -> nth_error vs a = Some va ->
  Forall2 (draws vs) (removelast (a :: x)) (combine (v_pt va :: map seg_target gs) (map seg_target gs)).
Proof.
  induction x as [|b x IH]; intros a va [|g gs] S A; try contradiction; [constructor|].
  destruct S as [(v & w & A' & B & _ & _ & G & TG) S]. rewrite A in A'. injection A' as <-.
  change (removelast (a :: b :: x)) with (a :: removelast (b :: x)). cbn [map combine]. constructor.
  - exists va, g. auto.
  - rewrite <- TG. apply (IH b w gs S B).
Qed.
Lemma ring_draws vs l gs : ring vs l gs -> Forall2 (draws vs) l (sides_of gs).
Proof.
  intros H. destruct (ring_end vs l gs (V2 0 0)%R H) as (v & V & E). destruct l as [|f r]; [contradiction|]. destruct H as [_ S]. cbn [hd] in V.
  pose proof (strand_draws vs (r ++ [f]) f v gs S V) as K. change (f :: r ++ [f]) with ((f :: r) ++ [f]) in K. rewrite removelast_last in K.
  unfold sides_of. unfold end_of in E. rewrite <- E. exact K.
Qed.
Lemma forall2_nth {A B} (r : A -> B -> Prop) l m : Forall2 r l m -> forall n a, nth_error l n = Some a -> exists b, nth_error m n = Some b /\ r a b.
Proof. induction 1; intros [|n] z E; try discriminate; cbn in *; [injection E as <-; eauto|eauto]. Qed.
Lemma same_contour {A} (F : A -> list nat) cs c c' j : NoDup (concat (map F cs)) -> In c cs -> In c' cs -> In j (F c) -> In j (F c') -> c = c'.
Proof.
  induction cs as [|d cs IH]; cbn [map concat]; intros ND Hc Hc' Hj Hj'; [contradiction|].
  assert (X : In j (F d) -> forall e, In e cs -> In j (F e) -> False).
  { intros Hd e He Hje. assert (HC : In j (concat (map F cs))) by (apply in_concat; exists (F e); split; auto; now apply in_map). clear - ND Hd HC. induction (F d) as [|q r IHr]; [contradiction|]. cbn in ND. apply NoDup_cons_iff in ND as [N1 N2]. destruct Hd as [->|Hd]; auto. apply N1. apply in_or_app. now right. }
  assert (ND2 : NoDup (concat (map F cs))) by (clear - ND; induction (F d) as [|q r IHr]; cbn in ND; auto; apply NoDup_cons_iff in ND as [_ ND]; auto).
  destruct Hc as [<-|Hc], Hc' as [<-|Hc']; auto.
  - exfalso. eapply X; eauto.
  - exfalso. eapply X; eauto.
Qed.

Section Input.
  Variable ps : list (path_type * list (list (outline (T := R)))).
  Variables s s1 : clipper R.
  Notation cont := (contour (T := R)).
  Notation its := (flat_map (fun x => items (fst x) (concat (snd x))) ps).
  Variable cs : list cont.
  Variable news : nat -> list nat.
  Hypothesis GE : generic (all_sides ps).
  Hypothesis B : built clipper0 its cs s.
  Hypothesis RG : rings (verts s) (map c_verts cs).
  Hypothesis LM : lmins s1 = lmins s.
  Hypothesis OLD : forall i v, nth_error (verts s) i = Some v -> exists w, nth_error (verts s1) i = Some w /\ v_pt w = v_pt v.
  Hypothesis X : extremal (verts s1) (lmins s1) (minima s1) (map (with_new news) (map c_verts cs)).
  Hypothesis NEW : forall i j, In j (news i) -> length (verts s) <= j.
  Hypothesis CH : forall c i j r, In c cs -> turned (c_verts c) i (j :: r) -> exists v q w ts, nth_error (verts s) i = Some v /\ v_seg v = Some (SLine q) /\ nth_error (verts s) j = Some w /\ v_pt w = q /\
      increasing 0 ts 1 /\ chain (verts s1) (v_pt v) q i 0 (news i) ts j /\
      forall k t, In k (concat (map c_verts cs)) -> i <> k -> crosses (verts s) i k t -> well_inside t -> In t ts.
  Let B0 := concat (map c_verts cs).
  Let ls := map (with_new news) (map c_verts cs).
  Let P := on_contour ls.
  Let M := is_lowest (verts s1) ls.

  Lemma contours_cs : contours ps = map (fun c : cont => (c_type c, c_segs c)) cs.
  Proof. destruct B as (_ & IT & _). rewrite IT. reflexivity. Qed.
  Lemma c_ring (c : cont) : In c cs -> ring (verts s) (c_verts c) (c_segs c).
  Proof. intros Hc. destruct B as (_ & _ & OK & _). rewrite Forall_forall in OK. destruct (OK c Hc) as (f & r & -> & _ & R' & _). exact R'. Qed.
  Lemma all_draws : Forall2 (draws (verts s)) B0 (all_sides ps).
  Proof.
    unfold B0, all_sides. rewrite contours_cs. assert (K : forall l : list cont, (forall c, In c l -> In c cs) -> Forall2 (draws (verts s)) (concat (map c_verts l)) (flat_map (fun it => sides_of (snd it)) (map (fun c : cont => (c_type c, c_segs c)) l))).
    { induction l as [|c l IH]; intros H; cbn [map concat flat_map]; [constructor|]. apply Forall2_app; [apply ring_draws, c_ring, H; now left|apply IH; intros; apply H; now right]. }
    apply K. auto.
  Qed.
  Lemma old_side i v q : In i B0 -> nth_error (verts s) i = Some v -> v_seg v = Some (SLine q) -> exists n, nth_error B0 n = Some i /\ nth_error (all_sides ps) n = Some (v_pt v, q).
  Proof.
    intros Hi V G. apply In_nth_error in Hi as [n Hn]. destruct (forall2_nth _ _ _ all_draws n i Hn) as ([a b] & Hab & v' & g & V' & E1 & E2 & E3).
    cbn [fst snd] in *. rewrite V in V'. injection V' as <-. rewrite G in E2. injection E2 as <-. cbn in E3. exists n. subst. auto.
  Qed.
  Lemma frame i : In i B0 -> exists c v q j w ts, In c cs /\ In i (c_verts c) /\ In j (c_verts c) /\ nth_error (verts s) i = Some v /\ v_seg v = Some (SLine q) /\ nth_error (verts s) j = Some w /\ v_pt w = q /\
    increasing 0 ts 1 /\ chain (verts s1) (v_pt v) q i 0 (news i) ts j /\ vy (v_pt v) <> vy q /\
    forall k t, In k B0 -> i <> k -> crosses (verts s) i k t -> well_inside t -> In t ts.
  Proof.
    intros Hi. pose proof Hi as Hi0. apply in_concat in Hi as (l & Hl & Hi). apply in_map_iff in Hl as (c & <- & Hc).
    assert (L2 : 2 <= length (c_verts c)).
    { destruct RG as [R _]. rewrite Forall_forall in R. destruct (R (c_verts c)) as (_ & _ & _ & L); auto. now apply in_map. }
    destruct (turned_of _ i Hi L2) as (j & r & TR). destruct (CH c i j r Hc TR) as (v & q & w & ts & V & G & W & PW & T1 & C & CR).
    exists c, v, q, j, w, ts. csplit; auto.
    - destruct TR as (a & b & -> & E). assert (K : In j (b ++ a)) by (rewrite <- E; now left). rewrite in_app_iff in *. cbn. tauto.
    - destruct (old_side i v q Hi0 V G) as (n & _ & Hn). apply nth_error_In in Hn. eapply ge_level; eauto.
  Qed.
  Lemma own j : P j -> exists i, In i B0 /\ In j (i :: news i).
  Proof.
    intros (l & Hl & Hj). unfold ls in Hl. rewrite map_map in Hl. apply in_map_iff in Hl as (c & <- & Hc). unfold with_new in Hj. apply in_flat_map in Hj as (i & Hi & Hj).
    exists i. split; auto. apply in_concat. exists (c_verts c). split; auto. now apply in_map.
  Qed.
  Lemma own_in c i j : In c cs -> In i (c_verts c) -> In j (i :: news i) -> In j (with_new news (c_verts c)).
  Proof. intros Hc Hi Hj. apply in_flat_map. eauto. Qed.
  Lemma part_side p q j k k' t t' : part (verts s1) p q j k t t' -> side (verts s1) true j k' -> k = k'.
  Proof. intros (va & vb & A & _ & C & _) (v & w & V & _ & D & _). cbn in D. congruence. Qed.
  Lemma on_pt p q u : (0 <= u <= 1)%R -> on_segment (pt p q u) p q.
  Proof. intros H. exists u. auto. Qed.

  Lemma input_plane : plane (verts s1) P M.
  Proof.
    assert (PART : forall j k, P j -> side (verts s1) true j k -> exists i v q w ts b t t', In i B0 /\ In j (i :: news i) /\ nth_error (verts s) i = Some v /\ v_seg v = Some (SLine q) /\
      nth_error (verts s) b = Some w /\ v_pt w = q /\ increasing 0 ts 1 /\ chain (verts s1) (v_pt v) q i 0 (news i) ts b /\ vy (v_pt v) <> vy q /\
      (forall k t, In k B0 -> i <> k -> crosses (verts s) i k t -> well_inside t -> In t ts) /\
      part (verts s1) (v_pt v) q j k t t' /\ (0 <= t < t')%R /\ (t' <= 1)%R /\ (forall u, In u (0%R :: ts) -> u <= t \/ t' <= u)%R).
    { intros j k Pj S. destruct (own j Pj) as (i & Hi & Hj). destruct (frame i Hi) as (c & v & q & b & w & ts & Hc & _ & _ & V & G & W & PW & T & C & LV & CR).
      destruct (chain_part _ _ _ _ _ _ _ _ j C T Hj) as (k' & t & t' & PT & L1 & L2 & _ & GAP & _). rewrite (part_side _ _ _ _ _ _ _ PT S) in PT.
      exists i, v, q, w, ts, b, t, t'. csplit; auto; try lra. }
    constructor.
    - intros j k Pj S. destruct (PART j k Pj S) as (i & v & q & w & ts & b & t & t' & _ & _ & _ & _ & _ & _ & _ & _ & _ & _ & (va & vb & A & C & _ & _ & G & _) & _). exists va, vb. auto.
    - intros j k Pj S. destruct (PART j k Pj S) as (i & v & q & w & ts & b & t & t' & _ & _ & _ & _ & _ & _ & _ & _ & LV & _ & (va & vb & A & C & _ & _ & G & E1 & E2) & L1 & _).
      rewrite (height_some _ _ _ A), (height_some _ _ _ C), E1, E2. unfold pt. cbn. intros K.
      assert (H : ((t' - t) * (vy q - vy (v_pt v)) = 0)%R) by lra. apply Rmult_integral in H as [H|H]; lra.
    - intros j k j' k' a b a' b' p Pj Pj' S S' NE A0 B0' A0' B0'' ON ON'.
      destruct (PART j k Pj S) as (i & v & q & w & ts & e & t & t' & Hi & Hj & V & G & W & PW & T & C & LV & CR & PT & L1 & L2 & GAP).
      destruct (PART j' k' Pj' S') as (i' & v' & q' & w' & ts' & e' & u & u' & Hi' & Hj' & V' & G' & W' & PW' & T' & C' & LV' & CR' & PT' & L1' & L2' & GAP').
      assert (Ea : v_pt a = pt (v_pt v) q t /\ v_pt b = pt (v_pt v) q t').
      { destruct PT as (va & vb & A1 & A2 & _ & _ & _ & A3 & A4). rewrite A0 in A1. injection A1 as <-. rewrite B0' in A2. injection A2 as <-. auto. }
      assert (Ea' : v_pt a' = pt (v_pt v') q' u /\ v_pt b' = pt (v_pt v') q' u').
      { destruct PT' as (va & vb & A1 & A2 & _ & _ & _ & A3 & A4). rewrite A0' in A1. injection A1 as <-. rewrite B0'' in A2. injection A2 as <-. auto. }
      destruct Ea as [Ea Eb], Ea' as [Ea' Eb']. rewrite Ea, Eb in ON. rewrite Ea', Eb' in ON'. rewrite Ea, Eb, Ea', Eb'.
      apply on_part in ON as (z & Hz & Ez); [|lra]. apply on_part in ON' as (z' & Hz' & Ez'); [|lra].
      destruct (Nat.eq_dec i i') as [EI|NI].
      + subst i'. rewrite V in V'. injection V' as <-. rewrite G in G'. injection G' as <-.
        assert (z = z') by (apply (pt_inj (v_pt v) q); congruence). subst z'.
        (* two parts of one side *)
        assert (DJ : (t' <= u \/ u' <= t)%R).
        { destruct (chain_part _ _ _ _ _ _ _ _ j' C T Hj') as (k2 & u2 & u2' & PT2 & _ & _ & IN2 & GAP2 & _). rewrite (part_side _ _ _ _ _ _ _ PT2 S') in PT2.
          assert (u2 = u /\ u2' = u') as [-> ->].
          { destruct PT2 as (x1 & x2 & X1 & X2 & _ & _ & _ & X3 & X4). destruct PT' as (y1 & y2 & Y1 & Y2 & _ & _ & _ & Y3 & Y4).
            split; apply (pt_inj (v_pt v) q); congruence. }
          assert (IU : In u (0%R :: ts)) by (destruct IN2 as [[_ ->]|[_ K]]; [now left|now right]).
          destruct (chain_part _ _ _ _ _ _ _ _ j C T Hj) as (k3 & t3 & t3' & PT3 & _ & _ & IN3 & _ & _). rewrite (part_side _ _ _ _ _ _ _ PT3 S) in PT3.
          assert (t3 = t) as ->.
          { destruct PT3 as (x1 & x2 & X1 & X2 & _ & _ & _ & X3 & X4). destruct PT as (y1 & y2 & Y1 & Y2 & _ & _ & _ & Y3 & Y4). apply (pt_inj (v_pt v) q); congruence. }
          assert (IT : In t (0%R :: ts)) by (destruct IN3 as [[_ ->]|[_ K]]; [now left|now right]).
          destruct (GAP u IU) as [K|K]; [|now left]. destruct (GAP2 t IT) as [K'|K']; [|now right].
          assert (t = u) by lra. subst u. exfalso. apply NE. eapply (chain_inj (verts s1) (v_pt v) q e (news i) ts i 0%R j j' k k' t t' u'); eauto. }
        destruct DJ as [DJ|DJ].
        * assert (z = t' /\ z = u) as [E1 E2] by lra. rewrite Ez. split; [right; now rewrite E1|left; now rewrite E2].
        * assert (z = t /\ z = u') as [E1 E2] by lra. rewrite Ez. split; [left; now rewrite E1|right; now rewrite E2].
      + destruct (old_side i v q Hi V G) as (n & N1 & N2). destruct (old_side i' v' q' Hi' V' G') as (m & M1 & M2).
        assert (NM : n <> m) by (intros ->; rewrite N1 in M1; injection M1; auto).
        assert (O1 : on_segment p (v_pt v) q) by (rewrite Ez; apply on_pt; lra). assert (O2 : on_segment p (v_pt v') q') by (rewrite Ez'; apply on_pt; lra).
        destruct (ge_meet _ GE n m _ _ _ _ p N2 M2 NM O1 O2) as [[E1 E2]|(NP & x & x' & Wx & Wx' & E1 & E2)].
        * split.
          -- destruct E1 as [E1|E1].
             ++ left. rewrite Ez. f_equal. assert (z = 0%R); [|lra]. apply (pt_inj (v_pt v) q); auto. rewrite pt_0; congruence.
             ++ right. rewrite Ez. f_equal. assert (z = 1%R); [|lra]. apply (pt_inj (v_pt v) q); auto. rewrite pt_1; congruence.
          -- destruct E2 as [E2|E2].
             ++ left. rewrite Ez'. f_equal. assert (z' = 0%R); [|lra]. apply (pt_inj (v_pt v') q'); auto. rewrite pt_0; congruence.
             ++ right. rewrite Ez'. f_equal. assert (z' = 1%R); [|lra]. apply (pt_inj (v_pt v') q'); auto. rewrite pt_1; congruence.
        * assert (z = x) by (apply (pt_inj (v_pt v) q); congruence). assert (z' = x') by (apply (pt_inj (v_pt v') q'); congruence). subst x x'.
          unfold well_inside in *.
          assert (I1 : In z ts). { apply (CR i'); auto. exists v, q, v', q', z'. csplit; auto; try lra. congruence. }
          assert (I2 : In z' ts'). { apply (CR' i); auto. exists v', q', v, q, z. csplit; auto; try lra; [|congruence]. intros K. apply NP. unfold parallel in *. lra. }
          split.
          -- destruct (GAP z (or_intror I1)); rewrite Ez; [left|right]; f_equal; lra.
          -- destruct (GAP' z' (or_intror I2)); rewrite Ez'; [left|right]; f_equal; lra.
    - intros i j v w Hi Pj V W E. unfold M, is_lowest in Hi. apply (ex_low _ _ _ _ X) in Hi. rewrite LM in Hi. destruct (low_old s _ cs i B Hi) as (c & Hc & Hic).
      assert (Hi0 : In i B0) by (apply in_concat; exists (c_verts c); split; auto; now apply in_map).
      destruct (frame i Hi0) as (_ & vi & qi & _ & _ & _ & _ & _ & _ & VI & GI & _ & _ & _ & _ & LVI & _).
      destruct (OLD i vi VI) as (v' & V' & EV). rewrite V in V'. injection V' as <-.
      destruct (own j Pj) as (k & Hk & Hj). destruct (frame k Hk) as (_ & vk & qk & bk & wk & ts & _ & _ & _ & VK & GK & _ & _ & T & C & LVK & _).
      destruct (old_side i vi qi Hi0 VI GI) as (n & N1 & N2). destruct (old_side k vk qk Hk VK GK) as (m & M1 & M2).
      destruct (chain_part _ _ _ _ _ _ _ _ j C T Hj) as (k' & t & t' & PT & L1 & L2 & IN & _ & _).
      assert (EJ : v_pt w = pt (v_pt vk) qk t) by (destruct PT as (x1 & x2 & X1 & _ & _ & _ & _ & X3 & _); congruence).
      destruct IN as [[-> ->]|[INJ INT]].
      + rewrite pt_0 in EJ. assert (n = m) by (eapply (ge_corner _ GE n m); eauto; congruence). congruence.
      + exfalso. destruct (increasing_lt _ _ _ T) as [_ FT]. rewrite Forall_forall in FT. apply FT in INT.
        assert (EQ : v_pt vi = pt (v_pt vk) qk t) by congruence. destruct (Nat.eq_dec i k) as [EK|NK].
        * subst k. assert (vk = vi /\ qk = qi) as [-> ->] by (split; congruence). assert (t = 0%R); [|lra]. apply (pt_inj (v_pt vi) qi); auto. now rewrite pt_0.
        * assert (NM : n <> m) by (intros ->; rewrite N1 in M1; injection M1; auto).
          assert (O1 : on_segment (v_pt vi) (v_pt vi) qi) by (rewrite <- (pt_0 (v_pt vi) qi) at 1; apply on_pt; lra).
          assert (O2 : on_segment (v_pt vi) (v_pt vk) qk) by (rewrite EQ; apply on_pt; lra).
          destruct (ge_meet _ GE n m _ _ _ _ _ N2 M2 NM O1 O2) as [[_ [E1|E1]]|(_ & x & x' & Wx & Wx' & E1 & E2)].
          -- assert (t = 0%R); [|lra]. apply (pt_inj (v_pt vk) qk); auto. rewrite pt_0. congruence.
          -- assert (t = 1%R); [|lra]. apply (pt_inj (v_pt vk) qk); auto. rewrite pt_1. congruence.
          -- unfold well_inside in Wx. assert (x = 0%R); [|lra]. apply (pt_inj (v_pt vi) qi); auto. rewrite pt_0. congruence.
  Qed.

  (** Which polygon a vertex belongs to *)
  Definition ptype_of (j : nat) : path_type := match find (fun c : cont => existsb (Nat.eqb j) (with_new news (c_verts c))) cs with Some c => c_type c | None => subject end.
  Lemma ptype_of_in c j : In c cs -> In j (with_new news (c_verts c)) -> ptype_of j = c_type c.
  Proof.
    intros Hc Hj. unfold ptype_of. destruct (find _ cs) as [c'|] eqn:F.
    - apply find_some in F as [Hc' Hj']. apply existsb_exists in Hj' as (j' & Hj' & E). apply Nat.eqb_eq in E. subst j'. f_equal.
      eapply (same_contour (fun c : cont => with_new news (c_verts c)) cs c' c j); auto. pose proof (ex_nodup _ _ _ _ X) as ND. now rewrite map_map in ND.
    - exfalso. pose proof (find_none _ _ F c Hc) as K. cbn in K. rewrite <- not_true_iff_false in K. apply K. apply existsb_exists. exists j. split; auto. apply Nat.eqb_refl.
  Qed.
  Lemma ptype_side j k : P j -> side (verts s1) true j k -> ptype_of j = ptype_of k.
  Proof.
    intros Pj S. destruct (own j Pj) as (i & Hi & Hj). destruct (frame i Hi) as (c & v & q & b & w & ts & Hc & Hic & Hbc & V & G & W & PW & T & C & LV & CR).
    destruct (chain_part _ _ _ _ _ _ _ _ j C T Hj) as (k' & t & t' & PT & _ & _ & _ & _ & K). rewrite (part_side _ _ _ _ _ _ _ PT S) in K.
    assert (KI : In k (with_new news (c_verts c))).
    { destruct K as [[-> _]|[K _]]; [apply (own_in c b b)|apply (own_in c i k)]; auto; [now left|now right]. }
    rewrite (ptype_of_in c j Hc (own_in c i j Hc Hic Hj)). symmetry. exact (ptype_of_in c k Hc KI).
  Qed.
  Lemma ptype_min m x : nth_error (lmins s1) m = Some x -> lm_type x = ptype_of (lm_vert x).
  Proof.
    intros H. apply nth_error_In in H. rewrite LM in H. pose proof B as (_ & _ & OKC & _ & LMS & _). cbn [clipper0 lmins app] in LMS. rewrite LMS in H.
    apply in_flat_map in H as (c & Hc & H). apply in_map_iff in H as (v & <- & Hv). cbn [lm_type lm_vert]. symmetry. apply ptype_of_in; auto.
    rewrite Forall_forall in OKC. destruct (OKC c Hc) as (f & r & EV & NE & R & XT & F).
    apply extremes_sub in XT; auto.
    assert (K : In v (f :: r)).
    { apply (sub_in _ _ XT). unfold lows in Hv. apply in_map_iff in Hv as (z & <- & Hv). apply filter_In in Hv as [Hv _]. now apply in_map. }
    rewrite <- EV in K. apply (own_in c v v); auto. now left.
  Qed.
  (** The winding number of the broken contours is that of the polygons. *)
  Lemma winding_app a b x z : winding (a ++ b) x z = (winding a x z + winding b x z)%Z.
  Proof. unfold winding. rewrite map_app. induction (map _ a) as [|n l IH]; cbn; [reflexivity|]. cbn in IH. lia. Qed.
  Lemma contour_winding c x z : In c cs -> zsum (vpass (verts s1) x z) (with_new news (c_verts c)) = winding (sides_of (c_segs c)) x z.
  Proof.
    intros Hc. pose proof (ring_draws _ _ _ (c_ring c Hc)) as D.
    assert (K : forall l m, (forall i, In i l -> In i B0) -> Forall2 (draws (verts s)) l m -> zsum (vpass (verts s1) x z) (with_new news l) = winding m x z).
    { intros l m H F. induction F as [|i [a b] l m DR F IH]; [reflexivity|]. unfold with_new in *. cbn [flat_map]. rewrite zsum_app, IH by (intros k Hk; apply H; now right).
      unfold winding. cbn [map fold_right fst snd]. f_equal. destruct (frame i (H i (or_introl eq_refl))) as (c' & v & q & e & w & ts & _ & _ & _ & V & G & _ & _ & T & C & LV & _).
      rewrite (chain_sum _ _ _ _ x z _ LV _ _ _ C T), pt_0, pt_1. destruct DR as (v' & g & V' & E1 & E2 & E3). cbn [fst snd] in *.
      rewrite V in V'. injection V' as <-. rewrite G in E2. injection E2 as <-. cbn in E3. congruence. }
    apply K; auto. intros i Hi. apply in_concat. exists (c_verts c). split; auto. now apply in_map.
  Qed.
  Lemma input_winding t x z : zsum (fun j => if ptype_eqb (ptype_of j) t then vpass (verts s1) x z j else 0%Z) (concat ls) = winding (typed_sides ps t) x z.
  Proof.
    unfold typed_sides. rewrite contours_cs. unfold ls.
    assert (K : forall l : list cont, (forall c, In c l -> In c cs) ->
      zsum (fun j => if ptype_eqb (ptype_of j) t then vpass (verts s1) x z j else 0%Z) (concat (map (with_new news) (map c_verts l))) =
      winding (flat_map (fun it => if ptype_eqb (fst it) t then sides_of (snd it) else []) (map (fun c : cont => (c_type c, c_segs c)) l)) x z).
    { induction l as [|c l IH]; intros H; [reflexivity|]. cbn [map concat flat_map fst snd]. rewrite zsum_app, winding_app, IH by (intros; apply H; now right). f_equal.
      assert (Hc : In c cs) by (apply H; now left).
      rewrite (zsum_ext _ (fun j => if ptype_eqb (c_type c) t then vpass (verts s1) x z j else 0%Z)) by (intros j Hj; now rewrite (ptype_of_in c j Hc Hj)).
      destruct (ptype_eqb (c_type c) t); [now apply contour_winding|]. rewrite zsum_0; auto. }
    apply K. auto.
  Qed.
End Input.
