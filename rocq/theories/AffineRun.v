(** Runs on polygons that are moved and scaled. *)
From Coq Require Import ZArith Bool List Reals Lra Lia Permutation.
From Verif Require Import Outcome Num Order Rmath Segment Path PathSpec RTac ScanLine VState VPath VBreak VAel VOut VMain VLemmas VRepeat VBuild VFresh
  RingSpec BreakSpec VBroken LineSpec LineR BreakStatements BreakLines BreakDrawn ClimbSpec ClimbNone BoxSpec EquiSpec EquiMap EquiLoad EquiBreak StretchSpec Stretch
  AffineSpec AffineBreak AffineFirst.
Import ListNotations.
Local Open Scope out.

(** *** The sentinels *)
(** Which number below all edges a pass over the active edges starts with does not matter. *)
Lemma top_loop_first n s y x x' c :
  (forall i e x0, c = Some i -> nth_error (edges s) i = Some e -> comes_at s e y = Ok x0 -> n_eqb x0 x = false /\ n_eqb x0 x' = false) ->
  top_loop (T := R) n s y x c = top_loop n s y x' c.
Proof.
  intros H. destruct c as [i|]; [|now destruct n]. destruct n as [|n]; cbn [top_loop]; auto. unfold at_ at 1 3.
  destruct (nth_error (edges s) i) as [e|] eqn:E; cbn [of_opt bind]; auto. specialize (H i e). unfold comes_at in H.
  destruct (n_eqb (vy (e_top e)) y) eqn:EY.
  - destruct (H _ eq_refl E eq_refl) as (-> & ->). reflexivity.
  - unfold update_x, emod, at_. rewrite E. cbn [of_opt bind]. destruct (edge_x_at s e y) as [x0| | |] eqn:X; cbn [bind]; auto.
    destruct (H _ eq_refl E eq_refl) as (H1 & H2). cbn [edges w_edges].
    rewrite (nth_upd_same _ _ _ _ E). cbn [of_opt bind]. cbn [e_bound set_ex e_x e_next].
    destruct (match e_bound e with Some b => _ | None => _ end) as [s1| | |]; cbn [bind]; auto. rewrite H1, H2. reflexivity.
Qed.
Lemma drop_eq_same y l : (forall x, In x l -> n_eqb (T := R) x y = false) -> drop_eq y l = l.
Proof. destruct l as [|x l]; cbn; auto. intros H. rewrite (H x); auto. Qed.

Section Run.
  Variables a b c d : R.
  Hypotheses (A : (0 < a)%R) (C : (0 < c)%R).
  Let fx := affine a b.
  Let fy := affine c d.
  Lemma aff_cmaps : cmaps fx fy.
  Proof. constructor; intros u v; rops; unfold fx, fy; [apply aff_ltb|apply aff_eqb|apply aff_ltb|apply aff_eqb]; auto. Qed.
  Definition always (p q : vec2 R) : Prop := True.
  Definition level (y z : R) : Prop := z = fy y.
  Lemma aff_chords : chords fx fy always level.
  Proof.
    constructor; unfold level.
    - reflexivity.
    - intros u v. rops. unfold fy, affine. field.
    - intros p q y z _ ->. unfold chord_x, fp. cbn [vx vy]. rops. unfold fx, fy, affine.
      destruct (Req_dec (vy q) (vy p)) as [->|N].
      + unfold Rdiv. rewrite !Rminus_eq_0, Rinv_0. ring.
      + field. split; [lra|]. intros H. apply N. apply (Rmult_eq_reg_l c); lra.
  Qed.
  Definition inside (p : vec2 R) : Prop := (- R_huge < vx p /\ - R_huge < vy p /\ - R_huge < fx (vx p) /\ - R_huge < fy (vy p))%R.
  Lemma inside_convex p q t : inside p -> inside q -> (0 <= t <= 1)%R -> inside (pt p q t).
  Proof.
    intros (P1 & P2 & P3 & P4) (Q1 & Q2 & Q3 & Q4) T.
    assert (K : forall k u v, (k < u -> k < v -> k < (1 - t) * u + t * v)%R) by (intros k u v H1 H2; destruct (Rle_dec u v); nra).
    unfold inside, pt, fx, fy, affine in *. cbn [vx vy]. repeat match goal with |- _ /\ _ => split end.
    - specialize (K _ _ _ P1 Q1). lra.
    - specialize (K _ _ _ P2 Q2). lra.
    - specialize (K _ _ _ P3 Q3). lra.
    - specialize (K _ _ _ P4 Q4). lra.
  Qed.
  Lemma inside_x p : inside p -> n_eqb (fx (vx p)) (n_neg n_huge) = false /\ n_eqb (fx (vx p)) (fx (n_neg n_huge)) = false.
  Proof. intros (P1 & P2 & P3 & P4). rops. split; [apply Reqb_false; lra|]. unfold fx. rewrite aff_eqb by auto. apply Reqb_false. lra. Qed.
  Lemma inside_y p : inside p -> n_eqb (fy (vy p)) (n_neg n_huge) = false /\ n_eqb (fy (vy p)) (fy (n_neg n_huge)) = false.
  Proof. intros (P1 & P2 & P3 & P4). rops. split; [apply Reqb_false; lra|]. unfold fy. rewrite aff_eqb by auto. apply Reqb_false. lra. Qed.

  Variable B : list (break_info R).
  Notation cm := (cm fx fy B).
  Notation inv := (ginv always).
  Notation ev := (eqv cm inv).
  Implicit Types s : clipper R.
  Lemma comes_at_cm s e y : inv s -> topped (verts s) e -> comes_at (cm s) (fedge fx fy e) (fy y) = omap fx (comes_at s e y).
  Proof.
    intros I TP. unfold comes_at. cbn [fedge e_top]. unfold fp. cbn [vx vy]. rewrite (fy_eq _ _ aff_cmaps). destruct (n_eqb (vy (e_top e)) y); auto.
    apply (edge_x_at_cm fx fy B always level aff_chords s e y (fy y)); auto. reflexivity.
  Qed.
  Definition first_in s y : Prop := forall i e x, ael s = Some i -> nth_error (edges s) i = Some e -> comes_at s e y = Ok x -> exists p, inside p /\ vx p = x.
  Lemma move_top s y : inv s -> first_in s y -> ev (do_top_of_scanbeam (cm s) (fy y)) (do_top_of_scanbeam s y).
  Proof.
    intros I H. unfold do_top_of_scanbeam. cbv zeta. change (w_changes (cm s) []) with (cm (w_changes s [])). rewrite len_edges.
    rewrite (top_loop_first _ _ _ _ (fx (n_neg n_huge))).
    - apply (top_loop_cm fx fy B aff_cmaps always level aff_chords). exact I.
    - intros i e x0 Hi He Hx. cbn [EquiMap.cm ael edges w_changes] in Hi, He. rewrite nth_error_map in He.
      destruct (nth_error (edges s) i) as [e1|] eqn:E1; [|discriminate]. injection He as <-.
      assert (TP : topped (verts s) e1) by (destruct I as (_ & I); rewrite Forall_forall in I; apply I; eapply nth_error_In; eauto).
      change (comes_at (cm s) (fedge fx fy e1) (fy y) = Ok x0) in Hx. rewrite comes_at_cm in Hx by auto.
      destruct (comes_at s e1 y) as [x1| | |] eqn:X1; try discriminate. injection Hx as <-. destruct (H i e1 x1 Hi E1 X1) as (p & P & <-). now apply inside_x.
  Qed.
  Lemma move_beam n s y : inv s -> first_in s y -> ev (beam n (cm s) (fy y)) (beam n s y).
  Proof.
    intros I H. unfold beam. eapply eqv_bind; [apply move_top; auto|]. intros s1 I1. eapply eqv_bind; [apply (close_output_cm fx fy B aff_cmaps always); exact I1|].
    intros s2 I2. apply (resort_ael_cm fx fy B aff_cmaps always level aff_chords). exact I2.
  Qed.

  Variable en : env.
  Variable ps : list (path_type * list (list (outline (T := R)))).
  Variable s0 : clipper R.
  Variables (op : clip_type) (fill : fill_rule) (n : nat).
  Hypothesis PO : forall l, Permutation (en_order en l) l.
  Hypothesis AI : forall i j, en_addr en i = en_addr en j -> i = j.
  Hypothesis PG : Forall polygon (all_outlines ps).
  Hypothesis LO : add_all clipper0 ps = Ok s0.
  Hypothesis CO : forall o p, In o (all_outlines ps) -> In p (fst o :: map endpoint (snd o)) -> inside p.
  Hypothesis LI : forall s', process_intersect en s0 = Ok s' -> lins s'.

  Lemma move_sweep fuel : forall s y ys, visits en n s0 op fill (y :: ys) s -> inv s -> ev (sweep n fuel (cm s) (fy y)) (sweep n fuel s y).
  Proof.
    induction fuel as [|fuel IH]; intros s y ys VI I; cbn [sweep]; [apply eqv_fuel|].
    destruct (scan_at_cm fx fy B aff_cmaps always level aff_chords n s y I) as (E & K). rewrite E. destruct (scan_at n s y) as [s1| | |] eqn:SA; cbn [omap bind okp] in *; try (split; [reflexivity|exact Logic.I]).
    rewrite pop_scanline_cm by apply aff_cmaps. pose proof (pop_scanline_inv always s1 y K) as J. destruct (pop_scanline s1 y) as ([z|] & s2) eqn:PS; cbn [fst snd option_map] in *; [|now apply eqv_ok].
    assert (FI : first_in s2 z).
    { intros i e x Hi He Hx. eapply (first_inside inside inside_convex en ps s0 PO AI PG LO CO op fill n y ys s s1 z s2 i e x); eauto.
      intros p (_ & P & _). intros Z. rewrite Z in P. lra. }
    destruct (move_beam n s2 z J FI) as (E2 & K2). rewrite E2. destruct (beam n s2 z) as [s3| | |] eqn:BM; cbn [omap bind okp] in *; try (split; [reflexivity|exact Logic.I]).
    eapply IH; eauto. eapply visits_next; eauto.
  Qed.
  Lemma move_finish s1 : process_intersect en (w_op s0 op fill) = Ok s1 -> inv s1 ->
    eqv (fun x => (cm (fst x), map (fcall fx fy) (snd x))) (fun _ => True) (finish n (cm s1)) (finish n s1).
  Proof.
    intros PI I. unfold finish. destruct (reset_cm fx fy B aff_cmaps always s1 I) as (E & K). rewrite E. destruct (reset s1) as [s2| | |] eqn:RS; cbn [omap bind okp] in *; try (split; [reflexivity|exact Logic.I]).
    assert (Z : forall z, In z (map fy (scans s2)) -> n_eqb z (n_neg n_huge) = false /\ n_eqb z (fy (n_neg n_huge)) = false).
    { intros z Hz. apply in_map_iff in Hz as (w & <- & Hw). destruct (scans_inside inside inside_convex en ps s0 PO AI PG LO CO op fill s1 s2 w PI RS Hw) as (p & P & <-). now apply inside_y. }
    assert (P0 : pop_scanline (cm s2) (n_neg n_huge) = pop_scanline (cm s2) (fy (n_neg n_huge))).
    { unfold pop_scanline. cbn [EquiMap.cm scans]. rewrite !drop_eq_same by (intros z Hz; apply Z; auto). reflexivity. }
    rewrite P0, pop_scanline_cm by apply aff_cmaps. pose proof (pop_scanline_inv always s2 (n_neg n_huge) K) as J.
    destruct (pop_scanline s2 (n_neg n_huge)) as ([z|] & s3) eqn:PS; cbn [fst snd option_map] in *; [|now apply eqv_ok].
    eapply eqv_bind; [eapply move_sweep; [eapply visits_first; eauto|exact J]|]. intros s4 I4. apply eqv_ok; auto. cbn [fst snd]. now rewrite build_output_cm.
  Qed.
End Run.

Lemma in_range_polygon o (f g : R -> R) : polygon o -> in_range (moved_outline f g o) -> polygon (moved_outline f g o).
Proof.
  assert (MF : forall r, moderate r -> (- R_huge <= r <= R_huge)%R) by (unfold moderate; intros; lra).
  intros (P1 & P2) IR. unfold in_range in IR. inversion IR as [|x l H1 H2]; subst. split.
  - destruct H1 as (X & Y). exact (conj (MF _ X) (MF _ Y)).
  - clear H1 IR. cbn [moved_outline snd] in *. induction P2 as [|k l K P2 IH]; cbn [map] in *; constructor; inversion H2; subst; auto.
    destruct k; cbn in *; try contradiction. match goal with H : _ /\ _ |- _ => destruct H as (X & Y) end. exact (conj (MF _ X) (MF _ Y)).
Qed.
Lemma affine_run en fuel ps op fill a b c d s s2 :
  (forall l, Permutation (en_order en l) l) -> (forall i j, en_addr en i = en_addr en j -> i = j) ->
  (0 < a)%R -> (0 < c)%R -> Forall polygon (all_outlines ps) ->
  Forall in_range (all_outlines ps) -> Forall in_range (all_outlines (moved_paths (affine a b) (affine c d) ps)) ->
  add_all clipper0 ps = Ok s -> add_all clipper0 (moved_paths (affine a b) (affine c d) ps) = Ok s2 ->
  same_run (affine a b) (affine c d) (process en fuel s op fill) (process en fuel s2 op fill).
Proof.
  intros PO AI A C PG IR1 IR2 LO LO2. pose proof (aff_cmaps a b c d A C) as F. set (fx := affine a b) in *. set (fy := affine c d) in *.
  assert (D : drawable_paths ps) by (eapply Forall_impl; [|exact PG]; intros o; apply polygon_drawing).
  destruct (drawn_rings ps D) as (s' & ls & E & RG & ST & H). rewrite LO in E. injection E as <-.
  pose proof (drawn_straight ps s ls RG H PG) as STR. destruct (drawn_fresh ps s D LO) as (ES & _).
  destruct (add_all_cm fx fy [] F ps clipper0) as (K1 & K2); [constructor| |].
  { clear - PG. induction ps as [|(ty & os) ps IH]; constructor; unfold all_outlines in *; cbn [flat_map snd] in *; apply Forall_app in PG as (P1 & P2); auto.
    clear - P1. induction os as [|o os IH]; constructor; cbn [concat] in *; apply Forall_app in P1 as (P1 & P2); auto.
    clear - P1. unfold lined. eapply Forall_impl; [|exact P1]. intros o1 (_ & Q). eapply Forall_impl; [|exact Q]. intros k. destruct k; cbn; tauto. }
  change (cm fx fy [] clipper0) with (@clipper0 R) in K1. rewrite LO in K1, K2. cbn [omap bind okp] in K1, K2. rewrite <- moved_fall, LO2 in K1. injection K1 as ->.
  set (t2 := cm fx fy [] s) in *.
  assert (PG2 : Forall polygon (all_outlines (moved_paths fx fy ps))).
  { rewrite moved_all in *. rewrite Forall_forall in *. intros o Ho. pose proof (IR2 o Ho) as I2. apply in_map_iff in Ho as (o1 & <- & Ho). apply in_range_polygon; auto. }
  assert (D2 : drawable_paths (moved_paths fx fy ps)) by (eapply Forall_impl; [|exact PG2]; intros o; apply polygon_drawing).
  destruct (drawn_rings _ D2) as (s' & ls2 & E & RG2 & ST2 & H2). rewrite LO2 in E. injection E as <-.
  pose proof (drawn_straight _ t2 ls2 RG2 H2 PG2) as STR2.
  assert (AR : forall (z : clipper R) l, rings (verts z) l -> starts z = map (hd 0) l -> all_rings (verts z) (starts z) = Ok (concat l)).
  { intros z l (R1 & _) S1. rewrite S1. apply all_rings_ok. eapply Forall_impl; [|exact R1]. intros l' (gs & H' & _). eauto. }
  pose proof (AR s ls RG ST) as A1. pose proof (AR t2 ls2 RG2 ST2) as A2.
  assert (IDS : concat ls2 = concat ls).
  { pose proof A2 as A2'. unfold t2 in A2'. cbn [verts cm starts] in A2'. rewrite all_rings_moved, A1 in A2'. now injection A2'. }
  assert (STR2' : straight (map (fvert fx fy) (verts s)) ls) by (intros i Hi; apply STR2; now rewrite IDS). rewrite IDS in A2.
  destruct (find_breaks_lines en s ls PO RG ST STR) as (b0 & FB & EX & _).
  pose proof (moved_find a b c d A C en PO (verts s) ls STR STR2' (starts s) A1 A2) as FB2. rewrite FB in FB2. cbn [omap bind] in FB2.
  destruct (C23_process_lemma en (w_op s op fill) ls b0 RG ST FB) as (s1 & _ & PI & _).
  pose proof PI as BA. unfold process_intersect in BA. change (verts (w_op s op fill)) with (verts s) in BA. change (starts (w_op s op fill)) with (starts s) in BA.
  rewrite FB in BA. cbn [bind] in BA. cbv zeta in BA.
  set (bs := tidy_breaks en b0) in *. set (B := map (moved_break a b c d) bs).
  destruct (break_all_cm fx fy B (length bs) (w_breaks (w_op s op fill) bs) bs B) as (Q1 & Q2); [exact K2| |].
  { unfold B. clear. induction bs as [|k l IH]; constructor; auto. split; reflexivity. }
  rewrite BA in Q1, Q2. cbn [omap bind okp] in Q1, Q2.
  assert (PI2 : process_intersect en (w_op t2 op fill) = Ok (cm fx fy B s1)).
  { unfold process_intersect. change (verts (w_op t2 op fill)) with (map (fvert fx fy) (verts s)). change (starts (w_op t2 op fill)) with (starts s).
    unfold fx, fy. rewrite FB2. cbn [bind]. cbv zeta. rewrite moved_tidy by auto. fold bs. fold B. unfold B at 1. rewrite map_length. exact Q1. }
  assert (IV : ginv always s1).
  { split.
    - eapply Forall_impl; [|exact Q2]. intros v. unfold lin, gplain, always. destruct (v_seg v) as [[]|]; tauto.
    - apply break_all_same in BA as ((SA & _) & _). unfold store in SA. cbn in SA. injection SA as _ SA _. rewrite SA, ES. constructor. }
  assert (LI : forall s', process_intersect en s = Ok s' -> lins s').
  { intros s' P. apply (process_intersect_op op fill) in P. rewrite PI in P. injection P as ->. exact Q2. }
  assert (CO : forall o p, In o (all_outlines ps) -> In p (fst o :: map endpoint (snd o)) -> inside a b c d p).
  { intros o p Ho Hp. rewrite moved_all in IR2. rewrite Forall_forall in IR1, IR2. pose proof (IR1 o Ho) as I1. pose proof (IR2 _ (in_map (moved_outline fx fy) _ _ Ho)) as I2.
    unfold in_range in I1, I2. rewrite Forall_forall in I1, I2. destruct (I1 p Hp) as (X1 & Y1). destruct (I2 (moved fx fy p)) as (X2 & Y2).
    - cbn [moved_outline fst snd]. rewrite map_map. destruct Hp as [<-|Hp]; [now left|right]. apply in_map_iff in Hp as (k & <- & Hk). apply in_map_iff. exists k. split; auto. now destruct k.
    - unfold inside, moderate in *. cbn [moved vx vy] in *. unfold fx, fy in *. repeat split; lra. }
  destruct (move_finish a b c d A C B en ps s op fill fuel PO AI PG LO CO LI s1 PI IV) as (FN & _). fold fx fy in FN.
  unfold process. rewrite PI2, PI. cbn [bind]. change (same_run fx fy (finish fuel s1) (finish fuel (cm fx fy B s1))). rewrite FN.
  assert (FZ : okp (fun x => Forall (fun k => match k with MoveTo p _ => p = V2 0%R 0%R | _ => True end) (snd x)) (finish fuel s1)).
  { unfold finish. destruct (reset s1) as [s3| | |]; cbn; auto. destruct (pop_scanline s3 _) as ([z|] & s4); cbn; auto.
    destruct (sweep fuel fuel s4 z); cbn; auto. apply moves_zero. }
  destruct (finish fuel s1) as [(s3 & l)| | |]; cbn in *; auto. clear - FZ. induction FZ as [|k l K FZ IH]; cbn; auto. rewrite IH. f_equal.
  destruct k; cbn; auto. now rewrite K.
Qed.
