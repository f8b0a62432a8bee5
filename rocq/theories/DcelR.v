(** Exact arithmetic: finite coordinates. *)
From Coq Require Import ZArith Bool List Reals Lra Lia Sorted Permutation.
From Verif Require Import Outcome Num Order Rmath RTac RectSpec RectProofs ScanLine ScanProofs VState VLemmas SortProofs MarkProofs LineSpec LineR BreakLines.
From Verif Require Import Dcel DcelSpec DcelBase DcelBreak DcelFace DcelLink DcelSplit DcelUnique DcelProcess.
Import ListNotations.
Local Open Scope out.

Lemma vec_ltb_total (a b : vec2 R) : vec_ltb a b = false -> vec_ltb b a = false -> a = b.
Proof.
  unfold vec_ltb. rops. intros H1 H2.
  destruct (Rltb (vx a) (vx b)) eqn:E1; [discriminate|]. destruct (Rltb (vx b) (vx a)) eqn:E2; [discriminate|].
  apply Rltb_false in E1, E2. assert (X : vx a = vx b) by lra.
  replace (Reqb (vx a) (vx b)) with true in H1 by (symmetry; now apply Reqb_true).
  replace (Reqb (vx b) (vx a)) with true in H2 by (symmetry; now apply Reqb_true).
  apply Rltb_false in H1, H2. destruct a, b; cbn in *. f_equal; lra.
Qed.
Lemma pset_find_at (d : dcel R) x l i : pset_find d x l = Some i -> coord d i = x.
Proof.
  induction l as [|j r IH]; cbn; [discriminate|]. destruct (vec_ltb (coord d j) x) eqn:E1; auto.
  destruct (vec_ltb x (coord d j)) eqn:E2; [discriminate|]. intros E; injection E as ->. now apply vec_ltb_total.
Qed.
Lemma find_coord (d d' : dcel R) x y i : find_or_add_point d x y = (d', i) -> coord d' i = V2 x y.
Proof.
  unfold find_or_add_point. destruct (pset_find d (V2 x y) (d_pset d)) as [j|] eqn:E; intros H; injection H as <- <-.
  - eapply pset_find_at; eauto.
  - unfold coord; cbn. now rewrite nth_snoc_last.
Qed.
Lemma grow_coord {T} {N : Num T} (d d' : dcel T) i : points_grow d d' -> i < length (d_points d) -> coord d' i = coord d i.
Proof.
  intros (l & E) L. unfold coord. pose proof (f_equal (fun l => nth_error l i) E) as K. cbn in K.
  rewrite nth_error_app1 in K by (now rewrite map_length). rewrite !nth_error_map in K.
  destruct (nth_error (d_points d') i), (nth_error (d_points d) i); cbn in K; congruence.
Qed.
Lemma grow_fin (d d' : dcel R) : points_grow d d' -> Forall (fun p => fin (p_at p)) (d_points d') -> Forall (fun p => fin (p_at p)) (d_points d).
Proof.
  intros (l & E) F. rewrite <- Forall_map with (f := p_at) (P := fin) in F |- *. rewrite E in F. now apply Forall_app in F as (F & _).
Qed.

(** Finite points, half edges of non-zero length. *)
Definition proper (d : dcel R) : Prop :=
  Forall (fun p => fin (p_at p)) (d_points d) /\ forall e h, live d e h -> coord d (h_start h) <> coord d (h_end h).

Lemma find_fin (d d' : dcel R) x y i : fin (V2 x y) -> Forall (fun p => fin (p_at p)) (d_points d) ->
  find_or_add_point d x y = (d', i) -> Forall (fun p => fin (p_at p)) (d_points d').
Proof.
  intros F H. unfold find_or_add_point. destruct (pset_find d (V2 x y) (d_pset d)); intros E; injection E as <- <-; auto.
  cbn. apply Forall_app; split; auto.
Qed.
Lemma add_line_proper (d d' : dcel R) x1 y1 x2 y2 : wf d -> proper d -> fin (V2 x1 y1) -> fin (V2 x2 y2) ->
  add_line d x1 y1 x2 y2 = Ok d' -> proper d'.
Proof.
  intros W (P1 & P2) F1 F2. unfold add_line. destruct (n_eqb x1 x2 && n_eqb y1 y2) eqn:EQ; [intros E; injection E as <-; split; auto|].
  destruct (find_or_add_point d x1 y1) as [d3 a] eqn:E1. destruct (find_or_add_point d3 x2 y2) as [d4 b] eqn:E2.
  destruct (find_or_add_wf _ _ _ _ _ W E1) as (W3 & A1 & A2 & A3 & A4 & A5 & A6 & _).
  destruct (find_or_add_wf _ _ _ _ _ W3 E2) as (W4 & B1 & B2 & B3 & B4 & B5 & B6 & _).
  pose proof (find_grow _ _ _ _ _ E1) as G1. pose proof (find_grow _ _ _ _ _ E2) as G2.
  pose proof (points_grow_len _ _ G2) as GL2.
  pose proof (find_coord _ _ _ _ _ E1) as C1. pose proof (find_coord _ _ _ _ _ E2) as C2.
  assert (P3 := find_fin _ _ _ _ _ F1 P1 E1). assert (P4 := find_fin _ _ _ _ _ F2 P3 E2).
  intros R. apply bind_ok in R as ((d5 & e) & R & Q). injection Q as <-.
  destruct (new_line_run d4 a b W4) as (x & R' & W5 & H1 & H2 & _ & _ & _ & H3 & H4); [lia|auto|]. rewrite R' in R. injection R as <- _.
  split.
  - rewrite <- Forall_map with (f := p_at) (P := fin). rewrite H4. now rewrite Forall_map.
  - intros i h L. rewrite !(coord_map d4 x H4). apply (live_snoc d4 x _ H1) in L as [L|(-> & ->)].
    + unfold live in L. rewrite B2, A2 in L. pose proof W as ((_ & _ & R3) & _). destruct (R3 i h L) as (Ls & Le).
      pose proof (points_grow_trans _ _ _ G1 G2) as G. rewrite !(grow_coord d d4) by auto. now apply (P2 i).
    + cbn. rewrite (grow_coord d3 d4) by auto. rewrite C1, C2. intros K. injection K as K1 K2. cbn in EQ.
      rewrite (proj2 (Reqb_true x1 x2)), (proj2 (Reqb_true y1 y2)) in EQ by auto. discriminate.
Qed.
Lemma calls_proper l : forall d d' : dcel R, wf d -> proper d -> Forall dcall_fin l -> dcalls_run d l = Ok d' -> proper d'.
Proof.
  induction l as [|c r IH]; intros d d' W HP HF H; cbn in H; [injection H as <-; auto|]. inversion HF; subst.
  apply bind_ok in H as (d1 & H1 & H).
  assert (S : wf d1 /\ proper d1).
  { destruct c; cbn in H1; [injection H1 as <-; auto|].
    destruct (add_line_run d x1 y1 x2 y2 W) as (d1' & R & W1 & _). rewrite R in H1. injection H1 as <-. split; auto.
    match goal with K : dcall_fin _ |- _ => destruct K as (F1 & F2) end. apply (add_line_proper d _ x1 y1 x2 y2); auto. }
  destruct S. eapply IH; eauto.
Qed.
Lemma proper0 : proper dcel0.
Proof. split; [constructor|]. intros [|e] h E; discriminate. Qed.

Lemma coord_run {T} {N : Num T} (d : dcel T) i : i < length (d_points d) -> exists p, point_at_ d i = Ok p /\ p_at p = coord d i.
Proof. intros H. destruct (point_run d i H) as (p & E & R). exists p. split; auto. unfold coord. now rewrite E. Qed.

Lemma half_boxes_R (d : dcel R) l : wf d -> proper d -> (forall e, In e l -> exists h, live d e h) ->
  exists bs, half_boxes d l = Ok bs /\ length bs = length l /\ Forall rect_wf bs /\
    forall k e h, nth_error l k = Some e -> live d e h ->
      exists b, nth_error bs k = Some b /\ forall t, (0 <= t <= 1)%R -> inbox b (pt (coord d (h_start h)) (coord d (h_end h)) t).
Proof.
  intros ((R1 & R2 & R3) & _) (P1 & P2). induction l as [|e r IH]; intros HL; cbn [half_boxes].
  - exists []. csplit; auto. intros [|k] ? ? ?; discriminate.
  - destruct (HL e (or_introl eq_refl)) as (h & L). unfold half_box. rewrite (proj2 (half_at_ok d e h) L). cbn [bind].
    destruct (R3 e h L) as (Ls & Le).
    destruct (coord_run d _ Ls) as (p & Ep & Cp). destruct (coord_run d _ Le) as (q & Eq & Cq). rewrite Ep, Eq. cbn [bind].
    destruct IH as (bs & E & LN & W & IB); [intros; apply HL; now right|]. rewrite E. cbn [bind].
    assert (FA : forall i, i < length (d_points d) -> finite_point (coord d i)).
    { intros i Hi. apply fin_finite. destruct (point_run d i Hi) as (x & Ex & _). unfold coord. rewrite Ex. rewrite Forall_forall in P1.
      apply P1. eapply nth_error_In; eauto. }
    rewrite Cp, Cq. assert (FF : Forall finite_point [coord d (h_start h); coord d (h_end h)]) by (constructor; [auto|constructor; [auto|constructor]]).
    destruct (C06_lemma [coord d (h_start h); coord d (h_end h)]) as (W1 & IN & _); [discriminate|now apply Forall_forall|].
    eexists. split; [reflexivity|]. csplit; [cbn; lia|constructor; auto|].
    intros [|k] e' h' K L'; [|apply (IB k e' h'); auto]. cbn [nth_error] in K. injection K as <-.
    rewrite (live_inj _ _ _ _ L' L). eexists. split; [reflexivity|]. intros t Ht.
    pose proof (IN (coord d (h_start h)) (or_introl eq_refl)) as I1.
    pose proof (IN (coord d (h_end h)) (or_intror (or_introl eq_refl))) as I2. revert I1 I2.
    generalize (rect_from [coord d (h_start h); coord d (h_end h)]) as b. intros b.
    unfold inbox, nle. cbn [n_leb R_num]. unfold pt. cbn [vx vy]. rewrite !Rleb_true.
    intros (A1 & A2 & A3 & A4) (B1 & B2 & B3 & B4).
    assert (K : forall lo hi a b, (lo <= a <= hi -> lo <= b <= hi -> lo <= a + t * (b - a) <= hi)%R).
    { intros lo hi a c Ha Hc. replace (a + t * (c - a))%R with ((1 - t) * a + t * c)%R by ring. split.
      - replace lo with ((1 - t) * lo + t * lo)%R by ring. apply Rplus_le_compat; apply Rmult_le_compat_l; lra.
      - replace hi with ((1 - t) * hi + t * hi)%R by ring. apply Rplus_le_compat; apply Rmult_le_compat_l; lra. }
    pose proof (K _ _ _ _ (conj A1 A2) (conj B1 B2)). pose proof (K _ _ _ _ (conj A3 A4) (conj B3 B4)). lra.
Qed.

(** Intersecting never fails. *)
Lemma sbb_coord {T} {N : Num T} (d d' : dcel T) i : same_but_breaks d d' -> coord d' i = coord d i.
Proof. intros (A & _). unfold coord. now rewrite A. Qed.
Lemma sbb_proper (d d' : dcel R) : same_but_breaks d d' -> proper d -> proper d'.
Proof.
  intros S (P1 & P2). pose proof S as (A1 & A2 & A3 & A4 & A5 & A6 & A7 & A8 & A9). split; [now rewrite A1|].
  intros e h' L. destruct (A8 e h' L) as (h & L0 & E). rewrite E. cbn. rewrite !(sbb_coord d d') by auto. eauto.
Qed.
Lemma half_intersect_total (d : dcel R) l r : wf d -> proper d -> (exists h, live d l h) -> (exists h, live d r h) ->
  exists d', half_intersect d l r = Ok d'.
Proof.
  intros ((R1 & R2 & R3) & _) (P1 & P2) (hl & Ll) (hr & Lr). unfold half_intersect.
  rewrite (proj2 (half_at_ok d l hl) Ll), (proj2 (half_at_ok d r hr) Lr). cbn [bind].
  destruct (R3 l hl Ll) as (S1 & E1). destruct (R3 r hr Lr) as (S2 & E2).
  destruct (coord_run d _ S1) as (p0 & -> & C0). destruct (coord_run d _ E1) as (p1 & -> & C1).
  destruct (coord_run d _ S2) as (p2 & -> & C2). destruct (coord_run d _ E2) as (p3 & -> & C3). cbn [bind].
  rewrite C0, C1, C2, C3.
  assert (FA : forall i, i < length (d_points d) -> fin (coord d i)).
  { intros i Hi. destruct (point_run d i Hi) as (x & Ex & _). unfold coord. rewrite Ex. rewrite Forall_forall in P1.
    apply P1. eapply nth_error_In; eauto. }
  assert (OK : ends_ok (coord d (h_start hl)) (coord d (h_end hl)) (coord d (h_start hr)) (coord d (h_end hr))).
  { unfold ends_ok. csplit; eauto; apply FA; auto. }
  destruct (C17_lemma _ _ _ _ OK) as (res & -> & LN). cbn [bind].
  assert (BR : forall c x e p, (exists h, live x e h) -> exists x', add_break_if c x e p = Ok x' /\
    forall i, (exists h, live x i h) -> exists h, live x' i h).
  { intros c x e p (h & L). destruct c; cbn; [|eauto]. unfold add_break_point. rewrite (hmod_run x e _ h L).
    eexists. split; [reflexivity|]. intros i (y & Ly). destruct (Nat.eqb e i) eqn:Q.
    - eexists. apply live_hmod. rewrite Q. eauto.
    - exists y. apply live_hmod. now rewrite Q. }
  destruct res as [|i [|j [|k res]]]; eauto.
  - destruct (BR true d r (ip i) (ex_intro _ _ Lr)) as (x & Q & K). cbn in Q. rewrite Q. cbn [bind].
    destruct (BR true x l (ip i) (K l (ex_intro _ _ Ll))) as (y & Q' & _). cbn in Q'. eauto.
  - destruct (BR (in_01 (it0 i)) d l (ip i) (ex_intro _ _ Ll)) as (x & -> & K). cbn [bind].
    destruct (BR (in_01 (it1 i)) x r (ip i) (K _ (ex_intro _ _ Lr))) as (y & -> & K2). cbn [bind].
    destruct (BR (in_01 (it0 j)) y l (ip j)) as (z & -> & K3); [eauto|]. cbn [bind].
    destruct (BR (in_01 (it1 j)) z r (ip j)) as (z' & -> & _); eauto.
Qed.
Lemma intersect_all_total pairs ids : forall d : dcel R, wf d -> proper d -> (forall e, In e ids -> exists h, live d e h) ->
  (forall a b, In (a, b) pairs -> a < length ids /\ b < length ids) -> exists d', intersect_all d ids pairs = Ok d'.
Proof.
  induction pairs as [|[a b] r IH]; intros d W P HL HB; cbn; [eauto|].
  destruct (HB a b (or_introl eq_refl)) as (La & Lb). destruct (nth_some _ _ La) as (i & A). destruct (nth_some _ _ Lb) as (j & B).
  rewrite (proj2 (at_ok _ _ _) A), (proj2 (at_ok _ _ _) B). cbn [bind].
  destruct (half_intersect_total d i j W P) as (d1 & R); [apply HL; eapply nth_error_In; eauto..|]. rewrite R. cbn [bind].
  apply half_intersect_sbb in R. apply IH.
  - eapply sbb_wf; eauto.
  - eapply sbb_proper; eauto.
  - intros e He. destruct (HL e He) as (h & L). destruct R as (_ & _ & _ & _ & _ & _ & _ & _ & A9). eauto.
  - intros; apply HB; now right.
Qed.
Lemma process_break_total en (d : dcel R) : (forall l, Permutation (de_order en l) l) -> wf d -> proper d ->
  exists d', process_break en d = Ok d'.
Proof.
  intros PO W P. unfold process_break. destruct (by_addr_live en d W) as (B1 & B2).
  destruct (half_boxes_R d (by_addr en (d_edges d)) W P B2) as (bs & E & LN & WB & _). rewrite E. cbn [bind].
  pose proof (C20_lemma (de_order en) bs PO WB) as H. cbv zeta in H. set (prs := scan_process _ _) in *. destruct H as (_ & _ & C20).
  destruct (intersect_all_total prs (by_addr en (d_edges d)) d W P B2) as (d1 & R).
  { intros a b Hab. destruct (proj1 (C20 a b) (or_introl Hab)) as (_ & ba & bb & p & A & B & _). rewrite <- LN. split; eapply nth_lt; eauto. }
  rewrite R. cbn [bind]. apply intersect_all_sbb in R. pose proof (sbb_wf _ _ R W) as W1. destruct (by_addr_live en d1 W1) as (B3 & B4).
  destruct (break_halves_run _ d1 W1 B3 B4) as (d2 & R2 & _). eauto.
Qed.
