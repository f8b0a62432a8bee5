(** Polygons broken at their crossings, over the reals. *)
From Coq Require Import ZArith Bool List Reals Lra Lia Sorted Permutation.
From Verif Require Import Outcome Num Order Rmath Segment Path PathSpec RTac RectSpec RectProofs ScanLine ScanProofs VState VPath VBreak VLemmas AelSpec
  SortProofs RingSpec BezierSpec BreakSpec VRing VBuild VAdd VCut VBroken TraceR LineSpec LineR BreakStatements.
Import ListNotations.
Local Open Scope out.

Lemma filter_sorted {A} (P : A -> A -> Prop) f l : StronglySorted P l -> StronglySorted P (filter f l).
Proof.
  induction 1 as [|x l S IH F]; [constructor|]. cbn [filter]. destruct (f x); auto. constructor; auto.
  rewrite Forall_forall in *. intros y Hy. apply filter_In in Hy as [Hy _]. auto.
Qed.

Lemma C23_exact_lemma en (s : clipper R) ls bs : (forall i j, en_addr en i = en_addr en j -> i = j) ->
  rings (verts s) ls -> Forall (exact_break (verts s)) bs ->
  forall i v g, In i (concat ls) -> nth_error (verts s) i = Some v -> v_seg v = Some g ->
  exists ts, increasing 0 ts 1 /\ follows (v_pt v) (v_pt v) g 0 ts (pieces_from (verts s) (tidy_breaks en bs) i) /\
    forall t, In t ts <-> exists b, In b bs /\ br_vert b = i /\ br_t b = t.
Proof.
  intros AI R EX i v g Hi V G. pose proof (tidy_sorted en AI (verts s) bs EX) as S.
  set (fs := filter (fun b => Nat.eqb (br_vert b) i) (tidy_breaks en bs)).
  assert (FX : forall b, In b fs -> In b bs /\ br_vert b = i /\ (0 < br_t b < 1)%R /\ br_pt b = seg_at (v_pt v) g (br_t b)).
  { intros b Hb. apply filter_In in Hb as [Hb E]. apply Nat.eqb_eq in E. apply tidy_in in Hb. rewrite Forall_forall in EX.
    destruct (EX b Hb) as (T & v' & g' & V' & G' & P). rewrite E, V in V'. injection V' as <-. rewrite G in G'. injection G' as <-. auto. }
  exists (map br_t fs).
  assert (INC : increasing 0 (map br_t fs) 1).
  { apply sorted_increasing; [|apply Forall_forall; intros t Ht; apply in_map_iff in Ht as (b & <- & Hb); apply FX; auto|lra].
    assert (SF : StronglySorted (blt en) fs) by now apply filter_sorted.
    revert SF FX. generalize fs as m. induction 1 as [|b m SM IH F]; intros FX; [constructor|]. cbn [map]. constructor.
    - apply IH. intros c Hc. apply FX. now right.
    - rewrite Forall_forall in *. intros t Ht. apply in_map_iff in Ht as (c & <- & Hc). destruct (F c Hc) as [K|[_ K]]; auto.
      destruct (FX b) as (_ & E1 & _); [now left|]. destruct (FX c) as (_ & E2 & _); [now right|]. rewrite E1, E2 in K. lia. }
  split; [exact INC|]. split.
  - unfold pieces_from. rewrite V, G, (sorted_runs en) by auto. fold fs.
    destruct fs as [|b m] eqn:EF.
    + cbn [map follows cuts fold_left]. intros u. f_equal. lra.
    + cbn [cuts fold_left recut]. rewrite app_nil_r. apply cut_follows; auto; [|discriminate|].
      * destruct (rings_in _ _ _ R Hi) as (l & gs & j & g' & v' & w & _ & _ & _ & _ & D & _ & _ & V' & _ & G' & _).
        rewrite V in V'. injection V' as <-. rewrite G in G'. injection G' as <-. exact D.
      * apply Forall_forall. intros c Hc. apply FX. exact Hc.
  - intros t. rewrite in_map_iff. split.
    + intros (b & <- & Hb). exists b. destruct (FX b Hb) as (A & B & _). auto.
    + intros (b & Hb & E & Et).
      assert (IS : In b (sort_by (break_ltb en) bs)) by (apply (Permutation_in _ (sort_by_perm _ bs)); auto).
      destruct (fun X => unique_by_rep break_eqb (fun x => br_vert x = i /\ br_t x = t) (sort_by (break_ltb en) bs) b X IS (conj E Et)) as (z & Hz & E1 & E2).
      * intros x y Q [Q1 Q2]. unfold break_eqb in Q. apply andb_true_iff in Q as [Q Q3]. apply andb_true_iff in Q as [Q4 _].
        apply Nat.eqb_eq in Q4. cbn [n_eqb R_num] in Q3. apply Reqb_true in Q3. split; congruence.
      * exists z. split; auto. apply filter_In. split; [exact Hz|]. now apply Nat.eqb_eq.
Qed.

(** *** Polygons *)
Definition straight (vs : list (vertex R)) (ls : list (list nat)) : Prop :=
  forall i, In i (concat ls) -> exists v q, nth_error vs i = Some v /\ v_seg v = Some (SLine q) /\ v_pt v <> q /\ fin (v_pt v) /\ fin q.

Lemma fin_finite p : fin p -> finite_point p.
Proof. intros [A B]. unfold finite_point, vvalid, nvalid. cbn. unfold nle. cbn [n_leb R_num]. rops. rewrite !Rleb_true. intuition. Qed.
Lemma vert_boxes_ok (vs : list (vertex R)) vids : (forall i, In i vids -> exists v q, nth_error vs i = Some v /\ v_seg v = Some (SLine q) /\ v_pt v <> q /\ fin (v_pt v) /\ fin q) ->
  exists boxes, vert_boxes vs vids = Ok boxes /\ length boxes = length vids /\ Forall rect_wf boxes /\
    forall k i v q, nth_error vids k = Some i -> nth_error vs i = Some v -> v_seg v = Some (SLine q) ->
      exists b, nth_error boxes k = Some b /\ forall t, (0 <= t <= 1)%R -> inbox b (pt (v_pt v) q t).
Proof.
  induction vids as [|i vids IH]; intros H.
  - exists []. csplit; auto. intros k i v q K. destruct k; discriminate.
  - destruct IH as (boxes & E & L & W & IB); [intros j Hj; apply H; now right|].
    destruct (H i (or_introl eq_refl)) as (v & q & V & G & _ & F1 & F2).
    assert (FF : Forall finite_point [q; v_pt v]) by (repeat constructor; now apply fin_finite).
    destruct (C06_lemma [q; v_pt v]) as (W1 & IN & _); [discriminate|now apply Forall_forall|].
    exists (rect_from [q; v_pt v] :: boxes). cbn [vert_boxes]. unfold vert_box. rewrite (proj2 (at_ok _ _ _) V). cbn [bind]. rewrite G. cbn [bind of_opt seg_boundary].
    rewrite E. cbn [bind]. csplit; auto; [simpl; lia|].
    intros [|k] i' v' q' K V' G'; [|apply (IB k i' v' q'); auto]. cbn [nth_error] in K. injection K as <-. rewrite V in V'. injection V' as <-.
    rewrite G in G'. injection G' as <-. eexists. split; [reflexivity|]. intros t Ht.
    pose proof (IN q (or_introl eq_refl)) as I1. pose proof (IN (v_pt v) (or_intror (or_introl eq_refl))) as I2. revert I1 I2.
    generalize (rect_from [q; v_pt v]) as r. intros r. unfold inbox, nle. cbn [n_leb R_num]. unfold pt. cbn [vx vy]. rewrite !Rleb_true.
    intros (A1 & A2 & A3 & A4) (B1 & B2 & B3 & B4).
    assert (K : forall lo hi a b, (lo <= a <= hi -> lo <= b <= hi -> lo <= a + t * (b - a) <= hi)%R).
    { intros lo hi a b Ha Hb. replace (a + t * (b - a))%R with ((1 - t) * a + t * b)%R by ring. split.
      - replace lo with ((1 - t) * lo + t * lo)%R by ring. apply Rplus_le_compat; apply Rmult_le_compat_l; lra.
      - replace hi with ((1 - t) * hi + t * hi)%R by ring. apply Rplus_le_compat; apply Rmult_le_compat_l; lra. }
    pose proof (K _ _ _ _ (conj B1 B2) (conj A1 A2)). pose proof (K _ _ _ _ (conj B3 B4) (conj A3 A4)). lra.
Qed.
Lemma pt_seg_at p q t : pt p q t = seg_at p (SLine q) t.
Proof. apply vec_eq; cbn; ring. Qed.
Lemma in_open_R t : in_open (N := R_num) t = true <-> well_inside t.
Proof.
  unfold in_open, v_zero, v_one, well_inside. rops. rewrite andb_true_iff, !Rltb_true. unfold v_err. rops.
  replace (0 + 1 / 1000000)%R with (1 / 1000000)%R by lra. tauto.
Qed.
Lemma inside_01 t : well_inside t -> (0 < t < 1)%R.
Proof. unfold well_inside. lra. Qed.
Lemma pair_in a b (l : list (isect R)) x : In x (break_pair a b l) <-> exists i, In i l /\
  (well_inside (it0 i) /\ x = Break a (ip i) (it0 i) \/ well_inside (it1 i) /\ x = Break b (ip i) (it1 i)).
Proof.
  unfold break_pair. rewrite in_flat_map. split; intros (i & Hi & H); exists i; split; auto.
  - apply in_app_or in H as [H|H].
    + destruct (in_open (it0 i)) eqn:E; [|contradiction]. apply in_open_R in E. destruct H as [<-|[]]. auto.
    + destruct (in_open (it1 i)) eqn:E; [|contradiction]. apply in_open_R in E. destruct H as [<-|[]]. auto.
  - apply in_or_app. destruct H as [[H ->]|[H ->]]; apply in_open_R in H; rewrite H; [left|right]; now left.
Qed.
Lemma parallel_sym p0 p1 p2 p3 : parallel p0 p1 p2 p3 -> parallel p2 p3 p0 p1.
Proof. unfold parallel. lra. Qed.
Lemma seg_intersect_lines en vs ls i j : straight vs ls -> In i (concat ls) -> In j (concat ls) ->
  exists bs, seg_intersect en vs i j = Ok bs /\ Forall (exact_break vs) bs /\
    (forall t, crosses vs i j t -> well_inside t -> exists b, In b bs /\ br_vert b = i /\ br_t b = t) /\
    (forall t, crosses vs j i t -> well_inside t -> exists b, In b bs /\ br_vert b = j /\ br_t b = t).
Proof.
  intros ST Hi Hj. destruct (ST i Hi) as (v & q & V & G & NE & F1 & F2). destruct (ST j Hj) as (w & r & W & H & NE' & F3 & F4).
  assert (OK : ends_ok (v_pt v) q (v_pt w) r) by (repeat split; auto; apply F1 || apply F2 || apply F3 || apply F4).
  destruct (C17_lemma _ _ _ _ OK) as (res & E & _).
  exists (break_pair i j res). unfold seg_intersect. rewrite (proj2 (at_ok _ _ _) V), (proj2 (at_ok _ _ _) W). cbn [bind].
  rewrite G, H. cbn [bind of_opt]. rewrite E. cbn [bind]. csplit; auto.
  - apply Forall_forall. intros b Hb. apply pair_in in Hb as (x & Hx & Hb). destruct (C16_sound_lemma _ _ _ _ _ OK E x Hx) as (_ & _ & P1 & P2).
    destruct Hb as [[T ->]|[T ->]]; (split; [now apply inside_01|]).
    + exists v, (SLine q). cbn [br_vert br_pt br_t]. rewrite <- pt_seg_at. auto.
    + exists w, (SLine r). cbn [br_vert br_pt br_t]. rewrite <- pt_seg_at. auto.
  - intros t (v' & q' & w' & r' & u & V' & G' & W' & H' & NP & Ht & Hu & EQ) T.
    rewrite V in V'. injection V' as <-. rewrite G in G'. injection G' as <-. rewrite W in W'. injection W' as <-. rewrite H in H'. injection H' as <-.
    rewrite (C16_complete_lemma _ _ _ _ t u NP Ht Hu EQ) in E. injection E as <-.
    exists (Break i (pt (v_pt v) q t) t). cbn [br_vert br_t]. csplit; auto. apply pair_in. eexists. split; [now left|]. left. auto.
  - intros t (w' & r' & v' & q' & u & W' & H' & V' & G' & NP & Ht & Hu & EQ) T.
    rewrite V in V'. injection V' as <-. rewrite G in G'. injection G' as <-. rewrite W in W'. injection W' as <-. rewrite H in H'. injection H' as <-.
    rewrite (C16_complete_lemma _ _ _ _ u t) in E; auto; [|intros K; apply NP; now apply parallel_sym]. injection E as <-.
    exists (Break j (pt (v_pt v) q u) t). cbn [br_vert br_t]. csplit; auto. apply pair_in. eexists. split; [now left|]. right. auto.
Qed.
Lemma run_pairs_lines en vs ls l : straight vs ls ->
  (forall a b, In (a, b) l -> a < length (concat ls) /\ b < length (concat ls)) ->
  exists bs, run_pairs en vs (concat ls) l = Ok bs /\ Forall (exact_break vs) bs /\
    forall a b i j t, In (a, b) l \/ In (b, a) l -> nth_error (concat ls) a = Some i -> nth_error (concat ls) b = Some j ->
      crosses vs i j t -> well_inside t -> exists x, In x bs /\ br_vert x = i /\ br_t x = t.
Proof.
  intros ST. induction l as [|[a b] l IH]; intros H.
  - exists []. csplit; auto. intros a b i j t [[]|[]].
  - destruct IH as (bs & E & X & C); [intros c d Hc; apply H; now right|].
    destruct (H a b (or_introl eq_refl)) as [La Lb]. destruct (nth_some _ _ La) as (i & A). destruct (nth_some _ _ Lb) as (j & B).
    destruct (seg_intersect_lines en vs ls i j ST) as (b1 & E1 & X1 & C1 & C2); [eapply nth_error_In; eauto|eapply nth_error_In; eauto|].
    exists (b1 ++ bs). cbn [run_pairs]. rewrite (proj2 (at_ok _ _ _) A), (proj2 (at_ok _ _ _) B). cbn [bind]. rewrite E1, E. cbn [bind].
    csplit; [reflexivity|now apply Forall_app|].
    intros c d i' j' t HI Hc Hd CR T.
    assert (K : (In (c, d) l \/ In (d, c) l) \/ (c = a /\ d = b) \/ (c = b /\ d = a)).
    { destruct HI as [[HI|HI]|[HI|HI]]; try (injection HI as -> ->); auto. }
    destruct K as [K|[[-> ->]|[-> ->]]].
    + destruct (C c d i' j' t K Hc Hd CR T) as (x & Hx & Q). exists x. split; auto. apply in_or_app. auto.
    + rewrite A in Hc. injection Hc as <-. rewrite B in Hd. injection Hd as <-. destruct (C1 t CR T) as (x & Hx & Q). exists x. split; auto. apply in_or_app. auto.
    + rewrite B in Hc. injection Hc as <-. rewrite A in Hd. injection Hd as <-. destruct (C2 t CR T) as (x & Hx & Q). exists x. split; auto. apply in_or_app. auto.
Qed.
Lemma find_breaks_lines en (s : clipper R) ls : (forall l, Permutation (en_order en l) l) ->
  rings (verts s) ls -> starts s = map (hd 0) ls -> straight (verts s) ls ->
  exists bs, find_breaks en (verts s) (starts s) = Ok bs /\ Forall (exact_break (verts s)) bs /\
    forall i j t, In i (concat ls) -> In j (concat ls) -> i <> j -> crosses (verts s) i j t -> well_inside t ->
      exists b, In b bs /\ br_vert b = i /\ br_t b = t.
Proof.
  intros PO R SS ST. unfold find_breaks. rewrite SS, all_rings_ok by (destruct R as [R _]; eapply Forall_impl; [|exact R]; intros l (gs & H & _); eauto).
  cbn [bind]. destruct (vert_boxes_ok (verts s) (concat ls) ST) as (boxes & E & L & W & IB). rewrite E. cbn [bind].
  pose proof (C20_lemma (en_order en) boxes PO W) as H. cbv zeta in H. set (prs := scan_process _ _) in *. destruct H as (_ & _ & C20).
  destruct (run_pairs_lines en (verts s) ls prs ST) as (bs & E1 & X & C).
  { intros a b Hab. destruct (proj1 (C20 a b) (or_introl Hab)) as (_ & ba & bb & p & A & B & _). rewrite <- L. split; eapply nth_lt; eauto. }
  exists bs. csplit; auto. intros i j t Hi Hj NE CR T.
  destruct (In_nth_error _ _ Hi) as (a & A). destruct (In_nth_error _ _ Hj) as (b & B). apply (C a b i j t); auto.
  destruct CR as (v & q & w & r & u & V & G & W' & H' & NP & Ht & Hu & EQ).
  destruct (IB a i v q A V G) as (ba & BA & IA). destruct (IB b j w r B W' H') as (bb & BB & IBB).
  apply C20. split; [intros ->; congruence|]. exists ba, bb, (pt (v_pt v) q t). csplit; auto.
  - split; exact I.
  - rewrite EQ. auto.
Qed.
