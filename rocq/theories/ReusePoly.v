(** Polygons in general position are broken once and for all. *)
From Coq Require Import ZArith Bool List Reals Lra Lia Permutation.
From Verif Require Import Outcome Num Order OrdTac Rmath Segment Path PathSpec PathProofs RTac ScanLine ScanProofs VState VPath VBreak VAel VOut VMain VLemmas VFrame VRepeat ClipSpec AelSpec SortProofs RingSpec BezierSpec BreakSpec WindSpec
  VRing VBuild VAdd VCut VBroken TraceR LineSpec LineR RingStatements BreakStatements BreakLines BreakDrawn ClimbSpec ClimbRing ClimbBroken ClimbPoly ClimbNone
  SpanMark SpanRing SpanPoly PlanePoly PlaneInput SpanSpec PlaneSpec OutSpec OutRun OutEven LayoutSpec SortRun ReuseSpec ReuseRun.
Import ListNotations.
Local Open Scope out.

Lemma quiet_pairs en vs vids l : (forall a b, In (a, b) l -> exists i j, nth_error vids a = Some i /\ nth_error vids b = Some j /\ seg_intersect en vs i j = Ok []) ->
  run_pairs (N := R_num) en vs vids l = Ok [].
Proof.
  induction l as [|[a b] l IH]; intros H; [reflexivity|]. destruct (H a b (or_introl eq_refl)) as (i & j & A & B & S).
  cbn [run_pairs]. rewrite (proj2 (at_ok _ _ _) A), (proj2 (at_ok _ _ _) B). cbn [bind]. rewrite S. cbn [bind]. rewrite IH; [reflexivity|]. intros c d K. apply H. now right.
Qed.
Lemma pt_end p q t : p <> q -> (0 < t < 1)%R -> pt p q t <> p /\ pt p q t <> q.
Proof.
  intros NE T. destruct p as [a b], q as [c d]. unfold pt. cbn [vx vy].
  split; intros K; injection K as K1 K2; apply NE.
  - assert (A : (t * (c - a) = 0)%R) by lra. assert (B : (t * (d - b) = 0)%R) by lra. apply Rmult_integral in A as [A|A]; apply Rmult_integral in B as [B|B]; try lra. f_equal; lra.
  - assert (A : ((1 - t) * (c - a) = 0)%R) by lra. assert (B : ((1 - t) * (d - b) = 0)%R) by lra. apply Rmult_integral in A as [A|A]; apply Rmult_integral in B as [B|B]; try lra. f_equal; lra.
Qed.
(** Two sides that meet in no inner point of either *)
Lemma quiet_sides en vs ls i j v q w r : straight vs ls -> In i (concat ls) -> In j (concat ls) -> nth_error vs i = Some v -> v_seg v = Some (SLine q) -> nth_error vs j = Some w -> v_seg w = Some (SLine r) ->
  (forall p, on_segment p (v_pt v) q -> on_segment p (v_pt w) r -> (p = v_pt v \/ p = q) /\ (p = v_pt w \/ p = r)) ->
  seg_intersect en vs i j = Ok [].
Proof.
  intros ST Hi Hj V G W H APT. destruct (ST i Hi) as (v' & q' & V' & G' & NE & F1 & F2). destruct (ST j Hj) as (w' & r' & W' & H' & NE' & F3 & F4).
  rewrite V in V'. injection V' as <-. rewrite G in G'. injection G' as <-. rewrite W in W'. injection W' as <-. rewrite H in H'. injection H' as <-.
  assert (OK : ends_ok (v_pt v) q (v_pt w) r) by (repeat split; auto; apply F1 || apply F2 || apply F3 || apply F4).
  destruct (C17_lemma _ _ _ _ OK) as (res & E & _). unfold seg_intersect. rewrite (proj2 (at_ok _ _ _) V), (proj2 (at_ok _ _ _) W). cbn [bind]. rewrite G, H. cbn [bind of_opt]. rewrite E. cbn [bind].
  destruct (break_pair i j res) as [|b bs] eqn:B; [reflexivity|]. exfalso. assert (K : In b (break_pair i j res)) by (rewrite B; now left).
  apply pair_in in K as (x & Hx & K). destruct (C16_sound_lemma _ _ _ _ _ OK E x Hx) as (T0 & T1 & P1 & P2).
  destruct (APT (ip x)) as [A1 A2]; [now exists (it0 x)|now exists (it1 x)|].
  destruct K as [[K _]|[K _]]; apply inside_01 in K.
  - destruct (pt_end (v_pt v) q _ NE K) as [Q1 Q2]. rewrite <- P1 in Q1, Q2. tauto.
  - destruct (pt_end (v_pt w) r _ NE' K) as [Q1 Q2]. rewrite <- P2 in Q1, Q2. tauto.
Qed.
Lemma fin_part p q t : fin p -> fin q -> (0 <= t <= 1)%R -> fin (pt p q t).
Proof.
  unfold fin, pt. cbn [vx vy]. intros [A B] [C D] T.
  assert (K : forall lo hi a b, (lo <= a <= hi -> lo <= b <= hi -> lo <= a + t * (b - a) <= hi)%R).
  { intros lo hi a b Ha Hb. replace (a + t * (b - a))%R with ((1 - t) * a + t * b)%R by ring. split.
    - replace lo with ((1 - t) * lo + t * lo)%R by ring. apply Rplus_le_compat; apply Rmult_le_compat_l; lra.
    - replace hi with ((1 - t) * hi + t * hi)%R by ring. apply Rplus_le_compat; apply Rmult_le_compat_l; lra. }
  split; apply K; auto.
Qed.
Lemma polygons_quiet en ps (s : clipper R) : (forall l, Permutation (en_order en l) l) -> (forall i j, en_addr en i = en_addr en j -> i = j) ->
  Forall polygon (all_outlines ps) -> generic (all_sides ps) -> add_all clipper0 ps = Ok s -> quiet en s.
Proof.
  intros PO AI POL GE ADD b PI'.
  destruct (poly_broken en ps s PO AI POL ADD) as (cs & news & s1 & B & RG & PI & E1 & E2 & E3 & OLD & X & NEW & CH).
  rewrite PI in PI'. injection PI' as <-. set (ls := map (with_new news) (map c_verts cs)) in *.
  assert (PL : plane (verts s1) (on_contour ls) (is_lowest (verts s1) ls)) by (eapply (input_plane ps s s1 cs news); eauto).
  assert (SS : starts s1 = map (hd 0) ls). { destruct (intersect_changes _ _ _ PI) as [_ ->]. destruct (built_rings _ _ _ B (items_drawable ps)) as [_ ->].
    unfold ls. rewrite !map_map. apply map_ext. intros c. now destruct (c_verts c). }
  assert (STR0 : straight (verts s) (map c_verts cs)).
  { apply (drawn_straight ps s _ RG); auto. intros l Hl. apply in_map_iff in Hl as (c & <- & Hc). destruct B as (_ & IT & OK & _). rewrite Forall_forall in OK.
    destruct (OK c Hc) as (f & r & EV & NE & R' & _). rewrite EV.
    assert (K : In (c_type c, c_segs c) (filter (fun it => accepted (snd it)) (flat_map (fun x => items (fst x) (concat (snd x))) ps))).
    { cbn [app] in IT. rewrite <- IT. exact (in_map (fun c : contour => (c_type c, c_segs c)) cs c Hc). }
    apply filter_In in K as [K AC]. destruct (items_outline _ _ K) as (o & Ho & EQ). cbn [snd] in *. exists o. rewrite <- EQ. auto. }
  assert (SIDE : forall j, In j (concat ls) -> exists k v w, side (verts s1) true j k /\ nth_error (verts s1) j = Some v /\ nth_error (verts s1) k = Some w /\ v_seg v = Some (SLine (v_pt w)) /\ v_pt v <> v_pt w /\ fin (v_pt v) /\ fin (v_pt w)).
  { intros j Hj. destruct (own cs news j) as (i & Hi & Hji); [unfold on_contour; now apply in_concat|].
    destruct (frame ps s s1 cs news GE B RG CH i Hi) as (c & v & q & e & w & ts & Hc & _ & _ & V & G & W & PW & T & C & LV & CR).
    destruct (chain_part _ _ _ _ _ _ _ _ j C T Hji) as (k & t & t' & PT & L1 & L2 & L3 & _). destruct PT as (va & vb & A1 & A2 & A3 & A4 & A5 & A6 & A7).
    destruct (STR0 i Hi) as (v' & q' & V' & G' & _ & F1 & F2). rewrite V in V'. injection V' as <-. rewrite G in G'. injection G' as <-.
    exists k, va, vb. split; [exists va, vb; auto|]. split; auto. split; auto. split; auto. split; [|split].
    - rewrite A6, A7. intros K. assert (K' := f_equal vy K). unfold pt in K'. cbn in K'. assert (H : ((t' - t) * (vy q - vy (v_pt v)) = 0)%R) by lra. apply Rmult_integral in H as [H|H]; lra.
    - rewrite A6. apply fin_part; auto. lra.
    - rewrite A7. apply fin_part; auto. lra. }
  assert (ST : straight (verts s1) ls).
  { intros j Hj. destruct (SIDE j Hj) as (k & v & w & _ & V & W & G & NE & F1 & F2). exists v, (v_pt w). auto. }
  unfold find_breaks. rewrite SS, all_rings_ok by (apply Forall_forall; intros l Hl; eapply ex_ring; eauto). cbn [bind].
  destruct (vert_boxes_ok (verts s1) (concat ls) ST) as (boxes & E & L & W & _). rewrite E. cbn [bind].
  pose proof (C20_lemma (en_order en) boxes PO W) as H. cbv zeta in H. set (prs := scan_process _ _) in *. destruct H as (_ & _ & C20).
  apply quiet_pairs. intros a c Hac. destruct (proj1 (C20 a c) (or_introl Hac)) as (NE & ba & bb & p & A & A' & _).
  assert (La : a < length (concat ls)) by (rewrite <- L; eapply nth_lt; eauto). assert (Lc : c < length (concat ls)) by (rewrite <- L; eapply nth_lt; eauto).
  destruct (nth_some _ _ La) as (i & Hi). destruct (nth_some _ _ Lc) as (j & Hj). exists i, j. split; auto. split; auto.
  assert (Ii : In i (concat ls)) by (eapply nth_error_In; eauto). assert (Ij : In j (concat ls)) by (eapply nth_error_In; eauto).
  assert (IJ : i <> j). { intros ->. apply NE. eapply NoDup_nth_error; [apply (ex_nodup _ _ _ _ X)|exact La|congruence]. }
  destruct (SIDE i Ii) as (k & v & w & S1 & V & Wk & G & _). destruct (SIDE j Ij) as (k' & v' & w' & S2 & V' & Wk' & G' & _).
  apply (quiet_sides en (verts s1) ls i j v (v_pt w) v' (v_pt w')); auto.
  intros p' O1 O2. apply (pl_apart _ _ _ PL i k j k' v w v' w' p'); auto; unfold on_contour; apply in_concat; auto.
Qed.

(** *** Drawings *)
Lemma drawn_blank {T} {N : Num T} {O : OrdNum T} ps (s : clipper T) : drawable_paths ps -> add_all clipper0 ps = Ok s -> blank s.
Proof.
  intros D E. destruct (add_all_built ps clipper0 [] [] D (built_nil _)) as (s' & cs & E' & B). rewrite E in E'. injection E' as <-. destruct B as ((G & _) & _). rewrite G. repeat split.
Qed.
Lemma uses_drawn {T} {N : Num T} {O : OrdNum T} en n ps (s : clipper T) js ls : drawable_paths ps -> add_all clipper0 ps = Ok s -> minima_valid s -> quiet en s ->
  Forall2 (fun j l => exists s', process en n s (fst j) (snd j) = Ok (s', l)) js ls -> uses en n s js = Ok (totals [] ls).
Proof. intros D E V Q F. apply uses_lemma; auto. eapply drawn_blank; eauto. Qed.
Lemma polygons_minima ps (s : clipper R) : drawable_paths ps -> add_all clipper0 ps = Ok s -> minima_valid s.
Proof.
  intros D E m Hm. destruct (drawn_minima ps s D E) as [A B]. destruct (nth_some _ _ (B m Hm)) as (x & X). destruct (A x (nth_error_In _ _ X)) as (v & V).
  exists x, v. split; auto. split; auto. split; exact I.
Qed.
Lemma uses_polygons en n ps (s : clipper R) js ls : lawful en -> Forall polygon (all_outlines ps) -> generic (all_sides ps) -> add_all clipper0 ps = Ok s ->
  Forall2 (fun j l => exists s', process en n s (fst j) (snd j) = Ok (s', l)) js ls -> uses en n s js = Ok (totals [] ls).
Proof.
  intros [PO AI] POL GE ADD F. assert (D : drawable_paths ps) by (eapply Forall_impl; [|exact POL]; intros o; apply polygon_drawing).
  apply (uses_drawn en n ps s); auto; [eapply polygons_minima; eauto|now apply (polygons_quiet en ps)].
Qed.
Lemma uses_results en ps (s : clipper R) : lawful en -> Forall polygon (all_outlines ps) -> Forall above_end (all_outlines ps) -> generic (all_sides ps) -> add_all clipper0 ps = Ok s ->
  exists k, forall n js, k <= n -> Forall (fun j => exists d, consistent d ps (fst j) (snd j)) js ->
    exists ls, uses en n s js = Ok (totals [] ls) /\ Forall2 (fun j l => only_lines l /\ forall x z, ClipSpec.inside (V2 x z) l = result ps (fst j) (snd j) x z) js ls.
Proof.
  intros LW POL AE GE ADD. destruct LW as [PO AI] eqn:LE. destruct (polygons_out en ps s PO AI POL AE GE ADD) as (k & K). exists k. intros n js L F.
  assert (X : exists ls, Forall2 (fun j l => (exists s', process en n s (fst j) (snd j) = Ok (s', l)) /\ (only_lines l /\ forall x z, ClipSpec.inside (V2 x z) l = result ps (fst j) (snd j) x z)) js ls).
  { induction F as [|[op fill] js (d & CO) F (ls & IH)]; [exists []; constructor|]. cbn [fst snd] in CO. destruct (K n op fill d CO) as (A & _ & B). destruct (A L) as (s' & cs & H).
    exists (cs :: ls). constructor; auto. cbn [fst snd]. split; [eauto|]. split; [now apply (B s' cs)|]. eapply (polygons_even en ps s); eauto. }
  destruct X as (ls & X). exists ls. split.
  - apply (uses_polygons en n ps s); auto. clear - X. induction X as [|j l js ls (A & _) X IH]; constructor; auto.
  - clear - X. induction X as [|j l js ls (_ & A) X IH]; constructor; auto.
Qed.
(** Twice the same *)
Lemma uses_twice en n ps (s s' : clipper R) op fill l : lawful en -> Forall polygon (all_outlines ps) -> generic (all_sides ps) -> add_all clipper0 ps = Ok s ->
  process en n s op fill = Ok (s', l) -> uses en n s [(op, fill); (op, fill)] = Ok [l; l ++ l] /\ forall x z, ClipSpec.inside (V2 x z) (l ++ l) = false.
Proof.
  intros LW POL GE ADD H. split.
  - apply (uses_polygons en n ps s _ [l; l]); auto. constructor; [cbn; eauto|]. constructor; [cbn; eauto|constructor].
  - intros x z. rewrite inside_odd, lines_app, OutPath.winding_app. set (w := winding _ _ _). rewrite Z.odd_add. now destruct (Z.odd w).
Qed.
