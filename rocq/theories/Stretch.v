(** Moving the coordinates of axis-parallel polygons moves the output. *)
From Coq Require Import ZArith Bool List Reals Lra Lia Sorted Permutation.
From Verif Require Import Outcome Num Order Rmath Segment Path PathSpec RTac ScanLine VState VPath VBreak VAel VOut VMain VLemmas VRepeat VBuild VFresh
  RingSpec BreakSpec VBroken LineSpec BreakStatements BreakLines BreakDrawn ClimbNone EquiSpec EquiMap EquiLoad EquiBreak EquiRun StretchSpec.
Import ListNotations.
Local Open Scope out.

(** *** The maps *)
Lemma stretch_ltb f : stretch f -> forall a b, Rltb (f a) (f b) = Rltb a b.
Proof.
  intros (S & _) a b. destruct (Rltb a b) eqn:E.
  - apply Rltb_true. apply Rltb_true in E. auto.
  - apply Rltb_false. apply Rltb_false in E. destruct (Req_dec a b) as [->|N]; [lra|]. pose proof (S b a ltac:(lra)). lra.
Qed.
Lemma stretch_inj f : stretch f -> forall a b, f a = f b -> a = b.
Proof. intros (S & _) a b E. destruct (Rtotal_order a b) as [L|[L|L]]; auto; [pose proof (S a b L)|pose proof (S b a L)]; lra. Qed.
Lemma stretch_eqb f : stretch f -> forall a b, Reqb (f a) (f b) = Reqb a b.
Proof.
  intros S a b. destruct (Reqb a b) eqn:E.
  - apply Reqb_true in E. subst. now apply Reqb_true.
  - apply Reqb_false in E. apply Reqb_false. intros K. apply E. eapply stretch_inj; eauto.
Qed.
Lemma stretch_le f : stretch f -> forall a b, (a <= b)%R -> (f a <= f b)%R.
Proof. intros (S & _) a b [L| ->]; [|lra]. pose proof (S a b L). lra. Qed.
Lemma axis_R (a t : vec2 R) : axis (N1 := R_num) a t <-> vx a = vx t \/ vy a = vy t.
Proof. unfold axis. rops. rewrite !Reqb_true. tauto. Qed.
Lemma chord_R (a t : vec2 R) y : vx a = vx t \/ vy a = vy t -> chord_x a t y = vx a.
Proof.
  unfold chord_x. rops. intros [H|H]; rewrite H; unfold Rdiv.
  - rewrite (Rminus_diag_eq (vx t)) by auto. lra.
  - rewrite (Rminus_diag_eq (vy t)) by auto. rewrite Rinv_0. lra.
Qed.
Lemma stretch_maps fx fy : stretch fx -> stretch fy -> maps (N1 := R_num) (N2 := R_num) fx fy.
Proof.
  intros X Y. constructor; [constructor| | | | | |]; intros; rops; try apply (stretch_ltb _ X); try apply (stretch_eqb _ X); try apply (stretch_ltb _ Y); try apply (stretch_eqb _ Y);
    try apply X; try apply Y.
  - now rewrite chord_R by now apply axis_R.
  - rewrite chord_R; auto. apply axis_R in H. cbn. destruct H as [->| ->]; auto.
Qed.

(** *** Breaking keeps edges parallel to the axes *)
Definition on (d : bool * R) (p : vec2 R) : Prop := if fst d then vx p = snd d else vy p = snd d.
Lemma on_axis d p q : on d p -> on d q -> axis (N1 := R_num) p q.
Proof. unfold on. intros A B. apply axis_R. destruct (fst d); [left|right]; congruence. Qed.
Notation plains s := (Forall (plain (N1 := R_num)) (verts s)).
Implicit Types s : clipper R.
Lemma plains_at s : plains s <-> forall i v, nth_error (verts s) i = Some v -> plain (N1 := R_num) v.
Proof.
  rewrite Forall_forall. split; intros H.
  - intros i v V. apply H. eapply nth_error_In; eauto.
  - intros v V. apply In_nth_error in V as (i & V). eauto.
Qed.
(** Where linking [c] to [m] changes something *)
Lemma set_segment_at s c m t s' : set_segment s (Some c) m (SLine t) = Ok s' ->
  exists vc vm, nth_error (verts s) c = Some vc /\ nth_error (verts s) m = Some vm /\ forall i v, nth_error (verts s') i = Some v ->
    exists w, nth_error (verts s) i = Some w /\ v_pt v = (if Nat.eqb m i then t else v_pt w) /\
      v_seg v = (if Nat.eqb c i then Some (SLine t) else v_seg w) /\ v_next v = (if Nat.eqb c i then Some m else v_next w).
Proof.
  intros H. assert (C : exists vc vm, nth_error (verts s) c = Some vc /\ nth_error (verts s) m = Some vm).
  { unfold set_segment in H. cbn [deref of_opt bind] in H. unfold vmod in H. apply bind_ok in H as (s1 & E & H). apply bind_ok in E as (vc & C & E).
    injection E as <-. apply bind_ok in H as (vm & M & _). apply at_ok in C, M. cbn [verts w_verts] in M. rewrite nth_upd in M.
    exists vc. destruct (Nat.eqb c m) eqn:Q; [|eauto]. apply Nat.eqb_eq in Q. subst. eauto. }
  destruct C as (vc & vm & C & M). exists vc, vm. csplit; auto. rewrite (set_segment_run _ _ _ _ _ _ C M) in H. injection H as <-.
  intros i v V. cbn [verts w_verts] in V. rewrite !nth_upd in V. destruct (nth_error (verts s) i) as [w|] eqn:W.
  - exists w. split; auto. destruct (Nat.eqb m i), (Nat.eqb c i); cbn in V; injection V as <-; auto.
  - destruct (Nat.eqb m i), (Nat.eqb c i); discriminate.
Qed.
Lemma set_segment_len s c m t s' : set_segment s (Some c) m (SLine t) = Ok s' -> length (verts s') = length (verts s).
Proof.
  unfold set_segment. cbn [deref of_opt bind]. unfold vmod. intros H. apply bind_ok in H as (s1 & E & H). apply bind_ok in E as (vc & C & E).
  injection E as <-. apply bind_ok in H as (vm & M & H). injection H as <-. cbn [verts w_verts]. now rewrite !length_upd.
Qed.
Lemma exists_at {A} (l : list A) i : i < length l -> exists v, nth_error l i = Some v.
Proof. intros H. apply nth_error_Some in H. destruct (nth_error l i); [eauto|contradiction]. Qed.

(** [c] is linked to new vertices at points on one line. *)
Lemma chain_at d Ps : Forall (on d) Ps -> forall s c s' n, chain s c (map (fun p => SLine p) Ps) = Ok (s', n) ->
  c < length (verts s) -> plains s -> (forall v, nth_error (verts s) c = Some v -> on d (v_pt v)) ->
  plains s' /\ length (verts s') = length (verts s) + length Ps /\ n = (match Ps with [] => c | _ => pred (length (verts s')) end) /\
  (forall v, nth_error (verts s') n = Some v -> on d (v_pt v)) /\
  (forall i v, i < length (verts s) -> nth_error (verts s') i = Some v -> exists w, nth_error (verts s) i = Some w /\ v_pt v = v_pt w /\ (i <> c -> v_seg v = v_seg w /\ v_next v = v_next w)) /\
  match Ps with
  | [] => s' = s
  | p :: _ => exists v w, nth_error (verts s') c = Some v /\ v_seg v = Some (SLine p) /\ v_next v = Some (length (verts s)) /\
      nth_error (verts s') (length (verts s)) = Some w /\ v_pt w = p
  end.
Proof.
  induction 1 as [|p Ps OP OPs IH]; intros s c s' n H LC PL OC; cbn [map chain] in H.
  - injection H as <- <-. csplit; auto. intros i v L V. eauto.
  - cbn [new_vertex] in H. apply bind_ok in H as (s1 & E & H).
    pose proof (set_segment_len _ _ _ _ _ E) as LE. cbn [verts w_verts] in LE. rewrite app_length in LE. cbn [length] in LE.
    destruct (set_segment_at _ _ _ _ _ E) as (vc & vm & C & M & AT). cbn [verts w_verts] in C, M, AT.
    rewrite nth_error_app2, Nat.sub_diag in M by lia. injection M as <-.
    assert (PL1 : plains s1).
    { apply plains_at. intros i v V. destruct (AT i v V) as (w & W & P & S & _). unfold plain. rewrite S.
      destruct (Nat.eqb c i) eqn:Q1.
      - apply Nat.eqb_eq in Q1. subst i. destruct (Nat.eqb (length (verts s)) c) eqn:Q2; [rewrite P; apply axis_R; auto|].
        rewrite C in W. injection W as <-. rewrite nth_error_app1 in C by (apply Nat.eqb_neq in Q2; apply nth_lt in C; rewrite app_length in C; cbn in C; lia).
        rewrite P. eapply on_axis; eauto.
      - destruct (Nat.eqb (length (verts s)) i) eqn:Q2.
        + apply Nat.eqb_eq in Q2. subst i. rewrite nth_error_app2, Nat.sub_diag in W by lia. injection W as <-. exact I.
        + rewrite nth_error_app1 in W by (apply Nat.eqb_neq in Q2; apply nth_lt in W; rewrite app_length in W; cbn in W; lia).
          pose proof (proj1 (plains_at s) PL i w W) as Q. unfold plain in Q. now rewrite P. }
    destruct (IH s1 (length (verts s)) s' n H ltac:(lia) PL1) as (I1 & I2 & I3 & I4 & I5 & I6).
    { intros v V. destruct (AT _ v V) as (w & W & P & _). rewrite Nat.eqb_refl in P. now rewrite P. }
    csplit; auto.
    + rewrite I2, LE. cbn [length]. lia.
    + rewrite I3. destruct Ps; [rewrite I2; cbn [length]; lia|reflexivity].
    + intros i v L V. destruct (I5 i v ltac:(lia) V) as (w & W & P & S). destruct (AT i w W) as (u & U & P1 & S1 & N1).
      rewrite nth_error_app1 in U by auto. exists u. split; auto. replace (Nat.eqb (length (verts s)) i) with false in P1 by (symmetry; apply Nat.eqb_neq; lia).
      split; [congruence|]. intros NE. replace (Nat.eqb c i) with false in S1, N1 by (symmetry; apply Nat.eqb_neq; auto).
      destruct S as (S & S'); [lia|]. split; congruence.
    + destruct (exists_at (verts s') c ltac:(lia)) as (v & V). destruct (exists_at (verts s') (length (verts s)) ltac:(lia)) as (w & W).
      destruct (I5 c v ltac:(lia) V) as (v1 & V1 & P1 & S1). destruct (I5 (length (verts s)) w ltac:(lia) W) as (w1 & W1 & P2 & S2).
      destruct (AT _ _ V1) as (u & U & P3 & S3 & N3). destruct (AT _ _ W1) as (u' & U' & P4 & S4 & N4). rewrite Nat.eqb_refl in S3, N3, P4.
      destruct S1 as (S1 & S1'); [lia|]. exists v, w. csplit; auto; congruence.
Qed.
(** The edges of [ids] with the line of each *)
Definition tracks (ids : list nat) (D : nat -> bool * R) s : Prop :=
  forall i, In i ids -> exists v t n w, nth_error (verts s) i = Some v /\ v_seg v = Some (SLine t) /\ on (D i) (v_pt v) /\ on (D i) t /\
    v_next v = Some n /\ nth_error (verts s) n = Some w /\ v_pt w = t.
Lemma relink_at ids D s st Ps s' : tracks ids D s -> plains s -> In st ids -> Forall (on (D st)) Ps ->
  relink s st (map (fun p => SLine p) Ps) (fun p => SLine p) = Ok s' -> tracks ids D s' /\ plains s'.
Proof.
  intros TR PL IN OP H. destruct (TR st IN) as (v & t & n & w & V & S & O1 & O2 & NX & W & PW).
  unfold relink in H. rewrite (proj2 (at_ok _ _ _) V) in H. cbn [bind] in H. rewrite NX in H. cbn [deref of_opt bind] in H.
  apply bind_ok in H as ((s1 & c) & CH & H). apply bind_ok in H as (ve & E & H). apply at_ok in E. apply bind_ok in H as (s2 & SS & H).
  pose proof (nth_lt _ _ _ V) as LV. pose proof (nth_lt _ _ _ W) as LW.
  destruct (chain_at (D st) Ps OP s st s1 c CH LV PL) as (I1 & I2 & I3 & I4 & I5 & I6).
  { intros v' V'. rewrite V in V'. now injection V' as <-. }
  destruct (I5 n ve LW E) as (w' & W' & PE & _). rewrite W in W'. injection W' as <-.
  pose proof (set_segment_len _ _ _ _ _ SS) as L2. destruct (set_segment_at _ _ _ _ _ SS) as (vc & vm & C & M & AT).
  rewrite E in M. injection M as <-. unfold vmod in H. apply bind_ok in H as (z & Z & H). injection H as <-. apply at_ok in Z.
  assert (AT' : forall i x, nth_error (verts (w_verts s2 (upd (verts s2) n (fun v => set_vmax (v_max ve) (set_vmin (v_min ve) v))))) i = Some x ->
    exists y, nth_error (verts s1) i = Some y /\ v_pt x = v_pt y /\
      v_seg x = (if Nat.eqb c i then Some (SLine t) else v_seg y) /\ v_next x = (if Nat.eqb c i then Some n else v_next y)).
  { intros i x X. cbn [verts w_verts] in X. rewrite nth_upd in X. 
    assert (exists x', nth_error (verts s2) i = Some x' /\ v_pt x = v_pt x' /\ v_seg x = v_seg x' /\ v_next x = v_next x') as (x' & X' & Q1 & Q2 & Q3).
    { destruct (Nat.eqb n i); [|eauto 6]. destruct (nth_error (verts s2) i) as [x'|]; [|discriminate]. cbn in X. injection X as <-. exists x'. auto. }
    destruct (AT i x' X') as (y & Y & P & S' & N'). exists y. rewrite Q1, Q2, Q3. rewrite PE, PW in *. csplit; auto.
    rewrite P. destruct (Nat.eqb n i) eqn:Q; auto. apply Nat.eqb_eq in Q. subst i. rewrite E in Y. injection Y as <-. congruence. }
  set (s' := w_verts s2 _) in *. clear AT. assert (LL : length (verts s') = length (verts s1)) by (unfold s'; cbn [verts w_verts]; rewrite length_upd; auto).
  clearbody s'.
  assert (CC : c = st \/ length (verts s) <= c) by (rewrite I3; destruct Ps; [auto|right; cbn [length] in I2; lia]).
  split.
  - intros i Hi. destruct (TR i Hi) as (v0 & t0 & n0 & w0 & V0 & S0 & O3 & O4 & N0 & W0 & PW0).
    pose proof (nth_lt _ _ _ V0) as LV0. pose proof (nth_lt _ _ _ W0) as LW0.
    destruct (exists_at (verts s') i ltac:(lia)) as (x & X). destruct (AT' i x X) as (y & Y & P1 & S1 & N1).
    destruct (I5 i y LV0 Y) as (y' & Y' & P2 & S2). rewrite V0 in Y'. injection Y' as <-.
    destruct (Nat.eq_dec i st) as [->|NE].
    + rewrite V in V0. injection V0 as <-. rewrite S in S0. injection S0 as <-. destruct Ps as [|p Ps].
      * subst c s1. rewrite Nat.eqb_refl in S1, N1. destruct (exists_at (verts s') n ltac:(lia)) as (z' & Z'). destruct (AT' _ _ Z') as (u & U & P3 & _).
        rewrite W in U. injection U as <-. exists x, t, n, z'. csplit; auto; congruence.
      * destruct I6 as (a & b & A & SA & NA & B & PB). rewrite Y in A. injection A as <-. cbn [length] in I2.
        replace (Nat.eqb c st) with false in S1, N1 by (symmetry; apply Nat.eqb_neq; lia).
        destruct (exists_at (verts s') (length (verts s)) ltac:(lia)) as (z' & Z'). destruct (AT' _ _ Z') as (u & U & P3 & _).
        rewrite B in U. injection U as <-. inversion OP; subst. exists x, (v_pt b), (length (verts s)), z'. csplit; auto; congruence.
    + destruct (S2 NE) as (S3 & N3). replace (Nat.eqb c i) with false in S1, N1 by (symmetry; apply Nat.eqb_neq; destruct CC; lia).
      destruct (exists_at (verts s') n0 ltac:(lia)) as (z' & Z'). destruct (AT' _ _ Z') as (u & U & P3 & _). destruct (I5 _ u LW0 U) as (u' & U' & P4 & _).
      rewrite W0 in U'. injection U' as <-. exists x, t0, n0, z'. csplit; auto; congruence.
  - apply plains_at. intros i x X. destruct (AT' i x X) as (y & Y & P1 & S1 & _). unfold plain. rewrite S1, P1. destruct (Nat.eqb c i) eqn:Q.
    + apply Nat.eqb_eq in Q. subst i. apply (on_axis (D st)); auto.
    + apply (proj1 (plains_at s1) I1 i y Y).
Qed.
Lemma break_all_at ids D fuel : forall s bs s', tracks ids D s -> plains s -> Forall (fun b => In (br_vert b) ids /\ on (D (br_vert b)) (br_pt b)) bs ->
  break_all fuel s bs = Ok s' -> plains s'.
Proof.
  induction fuel; intros s bs s' TR PL FB H; (destruct bs as [|b bs]; cbn [break_all] in H; [injection H as <-; auto|]); [discriminate|].
  assert (TK : forall l, Forall (fun b => In (br_vert b) ids /\ on (D (br_vert b)) (br_pt b)) l ->
    Forall (on (D (br_vert b))) (map br_pt (fst (take_run (br_vert b) l))) /\ Forall (fun b => In (br_vert b) ids /\ on (D (br_vert b)) (br_pt b)) (snd (take_run (br_vert b) l))).
  { clear. induction 1 as [|x l (X1 & X2) L IH]; cbn [take_run]; [split; constructor|]. destruct (Nat.eqb _ _) eqn:Q.
    - apply Nat.eqb_eq in Q. destruct (take_run (br_vert b) l) as (u & w). cbn [fst snd map] in *. split; [constructor; [congruence|]|]; tauto.
    - cbn. auto. }
  specialize (TK _ FB). destruct (take_run (br_vert b) (b :: bs)) as (r1 & r2). cbn [fst snd] in TK. destruct TK as (K1 & K2).
  inversion FB as [|? ? (B1 & B2) FB']; subst. apply bind_ok in H as (s1 & E & H).
  unfold break_vertex in E. destruct (TR _ B1) as (v & t & n & w & V & S & _). rewrite (proj2 (at_ok _ _ _) V) in E. cbn [bind] in E. rewrite S in E. cbn [of_opt bind] in E.
  replace (map (fun b => SLine (br_pt b)) r1) with (map (fun p => SLine p) (map br_pt r1)) in E by (rewrite map_map; auto).
  destruct (relink_at ids D s _ _ s1 TR PL B1 K1 E) as (TR1 & PL1). exact (IHfuel s1 r2 s' TR1 PL1 K2 H).
Qed.

(** *** The line of an edge *)
Definition line_of (vs : list (vertex R)) (i : nat) : bool * R :=
  match nth_error vs i with
  | Some v => match v_seg v with Some (SLine t) => if Reqb (vx (v_pt v)) (vx t) then (true, vx t) else (false, vy t) | _ => (true, 0%R) end
  | None => (true, 0%R)
  end.
Lemma line_on vs ids i p q t : axial vs ids -> In i ids -> edge_at vs i p q -> on (line_of vs i) (pt p q t).
Proof.
  intros AX Hi E. pose proof (AX i p q Hi E) as A. destruct E as (v & V & <- & S). unfold line_of. rewrite V, S.
  unfold on, pt. destruct (Reqb _ _) eqn:Q; rbool; cbn [fst snd vx vy].
  - rewrite Q. lra.
  - destruct A as [|A]; [contradiction|]. rewrite A. lra.
Qed.
Lemma pt_0 p q : pt p q 0 = p.
Proof. unfold pt. destruct p; cbn. f_equal; lra. Qed.
Lemma pt_1 p q : pt p q 1 = q.
Proof. unfold pt. destruct q; cbn. f_equal; lra. Qed.

Lemma moves_zero (s : clipper R) : Forall (fun c => match c with MoveTo a _ => a = V2 0%R 0%R | _ => True end) (build_output s).
Proof.
  assert (W : forall l p, Forall (fun c : call (T := R) => match c with MoveTo a _ => a = V2 0%R 0%R | _ => True end) (fst (write_path p l))).
  { induction l as [|g l IH]; intros p; cbn [write_path]; [constructor|]. specialize (IH (seg_target g)). destruct (write_path (seg_target g) l). cbn in *.
    constructor; auto. destruct g; exact I. }
  unfold build_output. induction (polys s) as [|o os IH]; cbn [flat_map]; [constructor|]. apply Forall_app. split; auto.
  unfold write_poly. destruct (o_complete o); [|constructor].
  assert (K : Forall (fun c : call (T := R) => match c with MoveTo a _ => a = V2 0%R 0%R | _ => True end)
    (let '(c1, p) := write_path (o_origin o) (o_up o) in let '(c2, _) := write_path p (rev (o_down o)) in MoveTo (V2 (n_ofZ 0) (n_ofZ 0)) (o_origin o) :: c1 ++ c2)).
  { pose proof (W (o_up o) (o_origin o)) as W1. destruct (write_path (o_origin o) (o_up o)) as (c1 & p). pose proof (W (rev (o_down o)) p) as W2.
    destruct (write_path p (rev (o_down o))) as (c2 & p'). cbn [fst] in *. constructor; [reflexivity|]. apply Forall_app. auto. }
  destruct (o_up o), (o_down o); auto.
Qed.

Lemma ring_from_moved (fx fy : R -> R) n (vs : list (vertex R)) st : forall c, ring_from n (map (fvert fx fy) vs) st c = ring_from n vs st c.
Proof.
  induction n as [|n IH]; intros c; cbn [ring_from]; auto. unfold at_. rewrite nth_error_map. destruct (nth_error vs c) as [v|]; cbn [option_map of_opt bind]; auto.
  cbn [fvert v_next]. destruct (v_next v) as [m|]; cbn [deref of_opt bind]; auto. destruct (Nat.eqb m st); auto. now rewrite IH.
Qed.
Lemma all_rings_moved (fx fy : R -> R) (vs : list (vertex R)) sts : all_rings (map (fvert fx fy) vs) sts = all_rings vs sts.
Proof. induction sts as [|st sts IH]; cbn [all_rings]; auto. now rewrite map_length, ring_from_moved, IH. Qed.

Section Stretched.
  Variables fx fy : R -> R.
  Hypotheses (X : stretch fx) (Y : stretch fy).

  Lemma moved_fin p : fin p -> fin (moved fx fy p).
  Proof.
    intros ((A & B) & C & D). unfold fin, moved. cbn [vx vy].
    apply (stretch_le _ X) in A, B. apply (stretch_le _ Y) in C, D. destruct X as (_ & X1 & X2), Y as (_ & Y1 & Y2).
    rewrite X1 in B. rewrite X2 in A. rewrite Y1 in D. rewrite Y2 in C. auto.
  Qed.
  Lemma moved_polygon o : polygon o -> polygon (moved_outline fx fy o).
  Proof.
    intros (A & B). split; [now apply moved_fin|]. cbn [moved_outline snd]. induction B as [|c l C B IH]; cbn; constructor; auto.
    destruct c; try contradiction. now apply moved_fin.
  Qed.
  Lemma moved_all ps : all_outlines (moved_paths fx fy ps) = map (moved_outline fx fy) (all_outlines ps).
  Proof. unfold all_outlines, moved_paths. induction ps as [|x ps IH]; cbn; auto. now rewrite IH, map_app, concat_map. Qed.
  Lemma moved_fall ps : moved_paths fx fy ps = fall fx fy ps.
  Proof. reflexivity. Qed.

  Lemma stretched_run en fuel ps op fill s s2 :
    (forall l, Permutation (en_order en l) l) -> (forall i j, en_addr en i = en_addr en j -> i = j) ->
    Forall polygon (all_outlines ps) ->
    add_all clipper0 ps = Ok s -> add_all clipper0 (moved_paths fx fy ps) = Ok s2 ->
    right_angled s -> well_met s -> well_met s2 ->
    same_run fx fy (process en fuel s op fill) (process en fuel s2 op fill).
  Proof.
    intros PO AI PG LO LO2 (AX & UN) SP SP2. pose proof (stretch_maps fx fy X Y) as F.
    assert (D : drawable_paths ps) by (eapply Forall_impl; [|exact PG]; intros o; apply polygon_drawing).
    destruct (drawn_rings ps D) as (s' & ls & E & RG & ST & H). rewrite LO in E. injection E as <-.
    pose proof (drawn_straight ps s ls RG H PG) as STR. destruct (drawn_fresh ps s D LO) as (ES & _).
    destruct (add_all_cm fx fy [] F ps clipper0) as (K1 & K2); [constructor| |].
    { clear - PG. induction ps as [|(ty & os) ps IH]; constructor; unfold all_outlines in *; cbn [flat_map snd] in *; apply Forall_app in PG as (P1 & P2); auto.
      clear - P1. induction os as [|o os IH]; constructor; cbn [concat] in *; apply Forall_app in P1 as (P1 & P2); auto.
      clear - P1. unfold lined. eapply Forall_impl; [|exact P1]. intros o1 (_ & Q). eapply Forall_impl; [|exact Q]. intros c. destruct c; cbn; tauto. }
    change (cm fx fy [] clipper0) with (@clipper0 R) in K1. rewrite LO in K1, K2. cbn [omap bind okp] in K1, K2. rewrite <- moved_fall, LO2 in K1. injection K1 as ->.
    assert (SUB : forall i, In i (concat ls) -> In i (everything s)).
    { intros i Hi. destruct (STR i Hi) as (v & q & V & _). apply in_seq. apply nth_lt in V. lia. }
    assert (AX' : axial (verts s) (concat ls)) by (intros i p q Hi; apply AX; auto).
    assert (UN' : unaligned (verts s) (concat ls)) by (intros i j p q u r Hi Hj; apply UN; auto).
    assert (BRK : forall i P, broken (verts s) (concat ls) i P -> broken (verts s) (everything s) i P).
    { intros i P (p & q & j & u & r & A & B & C). exists p, q, j, u, r. auto. }
    assert (SP' : spread (verts s) (concat ls)) by (intros i P p q t B; apply SP; auto).
    destruct (find_breaks_axis en s ls PO RG ST STR AX' UN' SP') as (b0 & FB & EX & IN).
    pose proof (tidy_listing en s ls b0 AI STR AX' EX IN) as LI.
    destruct (C23_process_lemma en (w_op s op fill) ls b0 RG ST FB) as (s1 & _ & PI & _).
    pose proof PI as BA. unfold process_intersect in BA. change (verts (w_op s op fill)) with (verts s) in BA. change (starts (w_op s op fill)) with (starts s) in BA.
    rewrite FB in BA. cbn [bind] in BA.
    assert (PL : plains s).
    { apply plains_at. intros i v V. unfold plain. unfold lins in K2. rewrite Forall_forall in K2. pose proof (K2 v (nth_error_In _ _ V)) as L. unfold lin in L.
      destruct (v_seg v) as [[]|] eqn:S; auto. apply axis_R. apply (AX i).
      - apply in_seq. apply nth_lt in V. lia. - exists v. auto. }
    assert (PL1 : plains s1).
    { eapply (break_all_at (concat ls) (line_of (verts s))); [| | |exact BA]; auto.
      - intros i Hi. destruct (STR i Hi) as (v & q & V & S & _). destruct (rings_in _ _ _ RG Hi) as (l & gs & _ & _ & _ & _ & Hl & Hil & RL & _).
        destruct (ring_link _ _ _ _ RL Hil) as (j & g & _ & _ & va & vb & A & B & NX & _ & SG & PT). rewrite V in A. injection A as <-.
        rewrite S in SG. injection SG as <-. assert (EA : edge_at (verts s) i (v_pt v) q) by (exists v; auto).
        exists v, q, j, vb. csplit; auto; [rewrite <- (pt_0 (v_pt v) q)|rewrite <- (pt_1 (v_pt v) q)]; eapply line_on; eauto.
      - pose proof (found_in _ _ _ _ RG ST FB) as FI. rewrite Forall_forall in *. intros b Hb. apply tidy_in in Hb. split; auto.
        destruct (EX b Hb) as (_ & v & g & V & G & PB). destruct (STR _ (FI b Hb)) as (v' & q & V' & G' & _). rewrite V in V'. injection V' as <-. rewrite G in G'. injection G' as ->.
        rewrite PB, <- pt_seg_at. eapply line_on; eauto. exists v. auto. }
    assert (IV : inv s1).
    { split; auto. apply break_all_same in BA as ((SA & _) & _). unfold store in SA. cbn in SA. injection SA as _ SA _. rewrite SA, ES. constructor. }
    set (t2 := cm fx fy [] s) in *.
    assert (PG2 : Forall polygon (all_outlines (moved_paths fx fy ps))).
    { rewrite moved_all. apply Forall_forall. intros o Ho. apply in_map_iff in Ho as (o1 & <- & Ho). apply moved_polygon. rewrite Forall_forall in PG. auto. }
    assert (D2 : drawable_paths (moved_paths fx fy ps)) by (eapply Forall_impl; [|exact PG2]; intros o; apply polygon_drawing).
    destruct (drawn_rings _ D2) as (s' & ls2 & E & RG2 & ST2 & H2). rewrite LO2 in E. injection E as <-.
    pose proof (drawn_straight _ t2 ls2 RG2 H2 PG2) as STR2.
    assert (AR : forall (z : clipper R) l, rings (verts z) l -> starts z = map (hd 0) l -> all_rings (verts z) (starts z) = Ok (concat l)).
    { intros z l (R1 & _) S1. rewrite S1. apply all_rings_ok. eapply Forall_impl; [|exact R1]. intros l' (gs & H' & _). eauto. }
    assert (IDS : concat ls2 = concat ls).
    { pose proof (AR t2 ls2 RG2 ST2) as A2. pose proof (AR s ls RG ST) as A1. unfold t2 in A2. cbn [verts cm starts] in A2. rewrite all_rings_moved, A1 in A2. now injection A2. }
    destruct (process_image fx fy F en fuel s op fill ls2 (tidy_breaks en b0) s1) as (B & PR); auto; rewrite ?IDS; auto.
    - intros i p q Hi Ei. unfold t2 in Ei. cbn [verts cm] in Ei. apply edge_at_image in Ei as (p' & q' & -> & -> & Ei). cbn. destruct (AX' _ _ _ Hi Ei) as [->| ->]; auto.
    - intros i j p q u r Hi Hj NE Ei Ej. cbn [verts cm] in Ei, Ej. apply edge_at_image in Ei as (p' & q' & -> & -> & Ei). apply edge_at_image in Ej as (u' & r' & -> & -> & Ej).
      destruct (UN' i j p' q' u' r' Hi Hj NE Ei Ej) as (U1 & U2). cbn [fp vx vy].
      split; intros (Q1 & Q2 & Q3); [apply U1; apply (stretch_inj _ X) in Q1, Q2, Q3|apply U2; apply (stretch_inj _ Y) in Q1, Q2, Q3]; auto.
    - intros i P p q t BR. apply SP2. destruct BR as (p' & q' & j & u & r & A & C & C'). exists p', q', j, u, r.
      assert (EV : everything t2 = everything s) by (unfold everything, t2; cbn [verts cm]; now rewrite map_length). rewrite EV. auto.
    - fold t2 in PR. rewrite PR. unfold process. rewrite PI. cbn [bind]. change (same_run fx fy (finish fuel s1) (omap (fun x => (cm fx fy B (fst x), map (fcall fx fy) (snd x))) (finish fuel s1))).
      assert (FZ : okp (fun x => Forall (fun c => match c with MoveTo a _ => a = V2 0%R 0%R | _ => True end) (snd x)) (finish fuel s1)).
      { unfold finish. destruct (reset s1) as [s3| | |]; cbn; auto. destruct (pop_scanline s3 _) as ([z|] & s4); cbn; auto.
        destruct (sweep fuel fuel s4 z); cbn; auto. apply moves_zero. }
      destruct (finish fuel s1) as [(s3 & l)| | |]; cbn in *; auto. clear - FZ. induction FZ as [|c l C FZ IH]; cbn; auto. rewrite IH. f_equal.
      destruct c; cbn; auto. now rewrite C.
  Qed.
End Stretched.
