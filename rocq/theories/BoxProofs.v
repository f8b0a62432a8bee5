(** Clipping two rectangles of any real coordinates. *)
From Coq Require Import ZArith Bool List Reals Lra Lia Sorted Permutation.
From Verif Require Import Outcome Num Order Rmath Segment Path PathSpec RTac ScanLine VState VPath VBreak VAel VOut VMain VLemmas
  RingSpec ClipSpec BreakSpec VBuild VAdd VBroken LineSpec LineR BreakStatements BreakLines BreakDrawn EquiSpec EquiMap EquiLoad EquiBreak EquiRun
  EndCases BoxSpec BoxZ BoxCheck BoxMap BoxTab RenRun Layout LayoutLines.
Import ListNotations.

(** *** The table *)
Lemma outline_big {T} k (r : rect T) : exists m, m < 4 /\ box_outline k r = box_outline m r.
Proof.
  destruct k as [|[|[|[|k]]]]; [exists 0|exists 1|exists 2|exists 3|exists 0]; split; auto.
  unfold box_outline, box_corners. cbn [skipn firstn]. rewrite skipn_nil, firstn_nil. reflexivity.
Qed.
Lemma pairs_all fs k k' : k < 4 -> k' < 4 -> pairs_ok fs k k' = true.
Proof.
  intros K K'. assert (If : In fs [true; false]) by (destruct fs; cbn; auto). assert (I4 : In k [0; 1; 2; 3]) by (cbn; lia). assert (I4' : In k' [0; 1; 2; 3]) by (cbn; lia).
  pose proof boxes_from as H. rewrite forallb_forall in H. specialize (H fs If). cbv beta in H. rewrite forallb_forall in H. specialize (H k I4). cbv beta in H.
  rewrite forallb_forall in H. exact (H k' I4').
Qed.
Lemma box_fact fs k k' a c a' c' b e b' e' : In (a, c, a', c') places -> In (b, e, b', e') places ->
  let S := Rect (V2 a b) (V2 c e) in let C := Rect (V2 a' b') (V2 c' e') in exists s ids, pair_fact fs k k' S C s ids.
Proof.
  intros X Y S C. destruct (outline_big k S) as (m & M & E). destruct (outline_big k' C) as (m' & M' & E').
  pose proof (pairs_all fs m m' M M') as H. unfold pairs_ok in H. rewrite forallb_forall in H. specialize (H _ X). cbv beta iota in H.
  rewrite forallb_forall in H. specialize (H _ Y). cbv beta iota in H. apply pair_ok_true in H as (s & ids & H). exists s, ids.
  destruct H. constructor; auto. unfold box_paths in *. now rewrite E, E'.
Qed.

(** *** Images *)
Section Img.
  Variables fx fy : Z -> R.
  Hypothesis X : good fx.
  Hypothesis Y : good fy.
  Let F := good_maps fx fy X Y.
  Notation fp := (fp fx fy).
  Definition frect (r : rect Z) : rect R := Rect (fp (rmin r)) (fp (rmax r)).

  Lemma outline_image k r : box_outline k (frect r) = fout fx fy (box_outline k r).
  Proof.
    unfold box_outline, box_corners. destruct k as [|[|[|[|k]]]]; try reflexivity. cbn [skipn firstn]. rewrite !skipn_nil, !firstn_nil. reflexivity.
  Qed.
  Lemma paths_image fs k k' S C : box_paths fs k k' (frect S) (frect C) = fall fx fy (box_paths fs k k' S C).
  Proof. unfold box_paths. rewrite !outline_image. destruct fs; reflexivity. Qed.
  Lemma outline_lined {T} k (r : rect T) : Forall line_call (snd (box_outline k r)).
  Proof. destruct (outline_big k r) as (m & M & ->). destruct m as [|[|[|[|m]]]]; try lia; repeat constructor. Qed.
  Lemma paths_lined {T} fs k k' (S C : rect T) : Forall (fun x => Forall lined (snd x)) (box_paths fs k k' S C).
  Proof. unfold box_paths. destruct fs; repeat constructor; apply outline_lined. Qed.

  Lemma ring_from_image n vs st : forall c, ring_from n (map (fvert fx fy) vs) st c = ring_from n vs st c.
  Proof.
    induction n as [|n IH]; intros c; cbn [ring_from]; auto. unfold at_. rewrite nth_error_map. destruct (nth_error vs c) as [v|]; cbn [option_map of_opt bind]; auto.
    cbn [fvert v_next]. destruct (v_next v); cbn [deref of_opt bind]; auto. destruct (Nat.eqb n0 st); auto. now rewrite IH.
  Qed.
  Lemma all_rings_image vs sts : all_rings (map (fvert fx fy) vs) sts = all_rings vs sts.
  Proof. induction sts as [|st sts IH]; cbn [all_rings]; auto. now rewrite map_length, ring_from_image, IH. Qed.

  Lemma in_box_image p r : in_box (fp p) (frect r) = in_box p r.
  Proof. unfold in_box, x0, x1, y0, y1. cbn [frect rmin rmax EquiMap.fp vx vy]. rops. now rewrite !(g_ltb _ X), !(g_leb _ X), !(g_ltb _ Y), !(g_leb _ Y). Qed.
  Lemma covers_image fill r p : covers fill (frect r) (fp p) = covers fill r p.
  Proof. unfold covers. now rewrite in_box_image. Qed.
  Lemma right_image op fill S C : right_on op fill (frect S) (frect C) = right_on op fill S C.
  Proof.
    unfold right_on, clean, bites_top, bites_bottom, x_overlap, y_overlap, like, x_overlap, x0, x1, y0, y1. cbn [frect rmin rmax EquiMap.fp vx vy].
    rops. now rewrite !(g_ltb _ X), !(g_ltb _ Y).
  Qed.

  (** *** Inside *)
  Lemma crosses_vertical (p a b : vec2 R) : vx a = vx b ->
    ClipSpec.crosses p a b = ((Rleb (vy a) (vy p) && Rltb (vy p) (vy b)) || (Rleb (vy b) (vy p) && Rltb (vy p) (vy a))) && Rltb (vx a) (vx p).
  Proof.
    intros E. unfold ClipSpec.crosses. rewrite <- E. rops. rewrite (Rminus_diag_eq (vx a) (vx a)) by auto. 
    destruct (Rleb (vy a) (vy p)) eqn:A, (Rltb (vy p) (vy b)) eqn:B, (Rleb (vy b) (vy p)) eqn:C, (Rltb (vy p) (vy a)) eqn:D, (Rltb (vx a) (vx p)) eqn:G;
      rbool; cbn [andb orb]; rewrite ?orb_false_r; try lra; auto; try (apply Rltb_true; nra); apply Rltb_false; nra.
  Qed.
  Lemma crosses_vertical_Z (p a b : vec2 Z) : vx a = vx b ->
    ClipSpec.crosses p a b = ((Z.leb (vy a) (vy p) && Z.ltb (vy p) (vy b)) || (Z.leb (vy b) (vy p) && Z.ltb (vy p) (vy a))) && Z.ltb (vx a) (vx p).
  Proof.
    intros E. unfold ClipSpec.crosses. rewrite <- E. cbn [n_leb n_ltb n_sub n_mul n_ofZ Z_num]. 
    destruct (Z.leb_spec (vy a) (vy p)), (Z.ltb_spec (vy p) (vy b)), (Z.leb_spec (vy b) (vy p)), (Z.ltb_spec (vy p) (vy a)), (Z.ltb_spec (vx a) (vx p));
      cbn [andb orb]; try lia; auto; rewrite ?orb_false_r; try (apply Z.ltb_lt; nia); try (apply Z.ltb_ge; nia).
  Qed.
  Lemma crosses_horizontal {T} {N : Num T} (p a b : vec2 T) : vy a = vy b -> (forall x y, n_leb x y = true -> n_ltb y x = true -> False) -> ClipSpec.crosses p a b = false.
  Proof.
    intros E H. unfold ClipSpec.crosses. rewrite <- E. destruct (n_leb (vy a) (vy p)) eqn:A; [|reflexivity]. destruct (n_ltb (vy p) (vy a)) eqn:B; [|reflexivity].
    exfalso. eauto.
  Qed.
  Lemma crosses_image p a b : vx a = vx b \/ vy a = vy b -> ClipSpec.crosses (fp p) (fp a) (fp b) = ClipSpec.crosses p a b.
  Proof.
    intros [E|E].
    - rewrite crosses_vertical by (cbn; now rewrite E). rewrite crosses_vertical_Z by auto. cbn [EquiMap.fp vx vy].
      now rewrite !(g_ltb _ X), !(g_ltb _ Y), !(g_leb _ Y).
    - rewrite !crosses_horizontal; auto.
      + intros x y A B. cbn in A, B. apply Z.leb_le in A. apply Z.ltb_lt in B. lia.
      + cbn. now rewrite E.
      + intros x y. rops. rewrite Rleb_true, Rltb_true. lra.
  Qed.
  Lemma level_axis a b : level (LineTo a b) = true -> vx a = vx b \/ vy a = vy b.
  Proof. cbn. now rewrite orb_true_iff, !Z.eqb_eq. Qed.
  Lemma inside_image p l : forallb level l = true -> inside (fp p) (map (fcall fx fy) l) = inside p l.
  Proof.
    unfold inside. intros H. f_equal. induction l as [|c l IH]; cbn [map filter]; auto. cbn [forallb] in H. apply andb_true_iff in H as (H & K).
    destruct c as [a b|a b|]; cbn [fcall]; auto. rewrite (crosses_image p a b) by now apply level_axis. destruct (ClipSpec.crosses p a b); cbn [length]; auto.
  Qed.

  (** *** Contours *)
  Lemma connected_image l : forall p, connected p l -> connected (fp p) (map (fcall fx fy) l).
  Proof.
    induction l as [|c l IH]; cbn; auto. intros p (A & B & C). destruct c; try discriminate; cbn in *; subst; auto.
  Qed.
  Lemma contours_image l cs : contours l cs -> contours (map (fcall fx fy) l) (map (map (fcall fx fy)) cs).
  Proof.
    intros (-> & H). split; [apply concat_map|]. apply Forall_map. eapply Forall_impl; [|exact H]. intros [|[a b|a b|] r]; cbn; auto.
    intros (A & B). split; [destruct r; [congruence|discriminate]|]. now apply connected_image.
  Qed.
  Lemma last_map {A B} (g : A -> B) l d e : l <> [] -> last (map g l) d = g (last l e).
  Proof. induction l as [|x l IH]; [congruence|]. intros _. destruct l as [|y l]; auto. exact (IH ltac:(discriminate)). Qed.
  Lemma call_to_image c : call_to (fcall fx fy c) = fp (call_to c).
  Proof. destruct c; reflexivity. Qed.
  Lemma fp_inj p q : fp p = fp q -> p = q.
  Proof. destruct p, q. cbn. intros E. injection E as E1 E2. apply (g_inj _ X) in E1. apply (g_inj _ Y) in E2. congruence. Qed.
  Lemma closed_image l : closed (map (fcall fx fy) l) <-> closedb l = true.
  Proof.
    destruct l as [|[a b|a b|] r]; cbn; try (split; [contradiction|discriminate]). rewrite andb_true_iff, some_true. split; intros (A & B).
    - assert (NE : r <> []) by (destruct r; [now cbn in A|discriminate]). split; auto. rewrite (last_map _ r _ (MoveTo b b)) in B by auto.
      rewrite call_to_image in B. apply fp_inj in B. rewrite B. apply zeqb_refl.
    - split; [destruct r; [congruence|discriminate]|]. rewrite (last_map _ r _ (MoveTo b b)) by auto. rewrite call_to_image. f_equal. now apply zeqb_true.
  Qed.
  Lemma all_closed_image cs : Forall closed (map (map (fcall fx fy)) cs) <-> forallb closedb cs = true.
  Proof.
    rewrite Forall_map, Forall_forall, forallb_forall. split; intros H x Hx; specialize (H x Hx); now apply closed_image.
  Qed.
  Lemma upright_image l : upright (map (fcall fx fy) l) <-> forallb level l = true.
  Proof.
    unfold upright. rewrite Forall_map, Forall_forall, forallb_forall. split; intros H c Hc; specialize (H c Hc); destruct c as [a b|a b|]; cbn in *; auto; try contradiction; try discriminate.
    - rewrite orb_true_iff, !Z.eqb_eq. destruct H as [H|H]; [left; now apply (g_inj _ X)|right; now apply (g_inj _ Y)].
    - rewrite orb_true_iff, !Z.eqb_eq in H. destruct H as [->| ->]; auto.
  Qed.
End Img.

(** *** Distances *)
Lemma side_clear (f : Z -> R) a c a' c' u v w : clear_of (f a) (f c) (f a') -> clear_of (f a) (f c) (f c') -> (f a < f c)%R ->
  side a c a' c' u v w = true -> (Rabs (f w - f u) > Rabs (f v - f u) / 1000000 /\ Rabs (f w - f v) > Rabs (f v - f u) / 1000000)%R.
Proof.
  unfold side, clear_of. intros (A1 & A2) (B1 & B2) L H. rewrite !andb_true_iff, !orb_true_iff, !andb_true_iff, !Z.eqb_eq in H.
  destruct H as ([(-> & ->)|(-> & ->)] & [->| ->]).
  - rewrite (Rabs_right (f c - f a)) by lra. auto.
  - rewrite (Rabs_right (f c - f a)) by lra. auto.
  - rewrite (Rabs_left (f a - f c)) by lra. replace (- (f a - f c))%R with (f c - f a)%R by lra. auto.
  - rewrite (Rabs_left (f a - f c)) by lra. replace (- (f a - f c))%R with (f c - f a)%R by lra. auto.
Qed.
Lemma sides_clear (f : Z -> R) a c a' c' u v w : clear_axis (f a) (f c) (f a') (f c') -> (f a < f c)%R -> (f a' < f c')%R ->
  sides a c a' c' u v w = true -> (Rabs (f w - f u) > Rabs (f v - f u) / 1000000 /\ Rabs (f w - f v) > Rabs (f v - f u) / 1000000)%R.
Proof.
  intros (A & B & C & D) L L' H. unfold sides in H. apply orb_true_iff in H as [H|H]; [exact (side_clear f a c a' c' u v w A B L H)|].
  exact (side_clear f a' c' a c u v w C D L' H).
Qed.
Lemma inside_well (u v w t : R) : (u < w < v \/ v < w < u)%R -> w = (u + t * (v - u))%R -> (Rabs (w - u) > Rabs (v - u) / 1000000)%R ->
  (Rabs (w - v) > Rabs (v - u) / 1000000)%R -> well_inside t.
Proof.
  intros B E A1 A2. unfold well_inside. destruct B as [B|B].
  - rewrite (Rabs_right (w - u)), (Rabs_right (v - u)) in A1 by lra. rewrite (Rabs_left (w - v)), (Rabs_right (v - u)) in A2 by lra. split; nra.
  - rewrite (Rabs_left (w - u)), (Rabs_left (v - u)) in A1 by lra. rewrite (Rabs_right (w - v)), (Rabs_left (v - u)) in A2 by lra. split; nra.
Qed.
Lemma clear_distinct a c a' c' : (a < c)%R -> (a' < c')%R -> clear_axis a c a' c' -> a <> a' /\ a <> c' /\ c <> a' /\ c <> c'.
Proof.
  intros L L' ((A & A2) & (B & B2) & _). repeat split; intros ->; [rewrite Rminus_diag_eq in A|rewrite Rminus_diag_eq in B|rewrite Rminus_diag_eq in A2|rewrite Rminus_diag_eq in B2];
    auto; rewrite Rabs_R0 in *; lra.
Qed.

Lemma box_polygons fs k k' (S C : rect R) : a_box S -> a_box C -> Forall polygon (all_outlines (box_paths fs k k' S C)).
Proof.
  assert (O : forall k r, a_box r -> polygon (box_outline k r)).
  { intros m r (_ & A & B & C0 & D). unfold moderate in *. destruct (outline_big m r) as (n & N & ->).
    assert (FN : forall x y, (x = x0 r \/ x = x1 r) -> (y = y0 r \/ y = y1 r) -> fin (V2 x y)) by (intros x y [->| ->] [->| ->]; unfold fin; cbn [vx vy]; lra).
    destruct n as [|[|[|[|n]]]]; try lia; (split; [|repeat (apply Forall_cons; [|]); try apply Forall_nil]); apply FN; auto. }
  intros HS HC. unfold box_paths. destruct fs; cbn [all_outlines flat_map snd concat app]; repeat (apply Forall_cons; [apply O; auto|]); apply Forall_nil.
Qed.
(** *** One pair, one point *)
Definition box_answer (op : clip_type) (fill : fill_rule) (S C : rect R) (p : vec2 R) (o : outcome (clipper R * list (call (T := R)))) : Prop :=
  if right_on op fill S C
  then exists s l cs, o = Ok (s, l) /\ upright l /\ contours l cs /\ Forall closed cs /\ inside p l = bool_op op (covers fill S p) (covers fill C p)
  else (exists w, o = UB w) \/ exists s l cs, o = Ok (s, l) /\ contours l cs /\ ~ (upright l /\ Forall closed cs).

(** with the vertices in the order of their numbers *)
Lemma box_point_at en (S C : rect R) fs k k' op fill p : (forall l, Permutation (en_order en l) l) -> en_addr en = Z.of_nat ->
  general S C -> moderate (vx p) -> moderate (vy p) ->
  exists s, add_all clipper0 (box_paths fs k k' S C) = Ok s /\ box_answer op fill S C p (process en fuel0 s op fill).
Proof.
  intros PO AE (BS & BC & CX & CY) Px Py. assert (AI : forall i j, en_addr en i = en_addr en j -> i = j) by (rewrite AE; lia). pose proof (box_polygons fs k k' S C BS BC) as PG.
  destruct BS as ((Lx & Ly) & Ma & Mc & Mb & Me), BC as ((Lx' & Ly') & Ma' & Mc' & Mb' & Me').
  destruct (clear_distinct _ _ _ _ Lx Lx' CX) as (D1 & D2 & D3 & D4). destruct (clear_distinct _ _ _ _ Ly Ly' CY) as (D5 & D6 & D7 & D8).
  destruct (place_axis _ _ _ _ (vx p) Lx Lx' D1 D2 D3 D4 Ma Mc Ma' Mc' Px) as (fx & a & c & a' & c' & zx & IX & GX & Ea & Ec & Ea' & Ec' & Izx & Ezx).
  destruct (place_axis _ _ _ _ (vy p) Ly Ly' D5 D6 D7 D8 Mb Me Mb' Me' Py) as (fy & b & e & b' & e' & zy & IY & GY & Eb & Ee & Eb' & Ee' & Izy & Ezy).
  destruct (box_fact fs k k' _ _ _ _ _ _ _ _ IX IY) as (s & ids & [LO AR PL UN RI SI SK RU]).
  set (Sz := Rect (V2 a b) (V2 c e)) in *. set (Cz := Rect (V2 a' b') (V2 c' e')) in *.
  assert (ES : S = frect fx fy Sz).
  { unfold frect, fp, Sz. cbn [rmin rmax vx vy]. rewrite Ea, Eb, Ec, Ee. unfold x0, x1, y0, y1. destruct S as [[] []]; reflexivity. }
  assert (EC : C = frect fx fy Cz).
  { unfold frect, fp, Cz. cbn [rmin rmax vx vy]. rewrite Ea', Eb', Ec', Ee'. unfold x0, x1, y0, y1. destruct C as [[] []]; reflexivity. }
  assert (EP : p = fp fx fy (V2 zx zy)) by (unfold fp; cbn [vx vy]; rewrite Ezx, Ezy; destruct p; reflexivity).
  pose proof (good_maps fx fy GX GY) as F.
  destruct (add_all_cm fx fy [] F (box_paths fs k k' Sz Cz) clipper0) as (K1 & K2); [constructor|apply paths_lined|].
  change (cm fx fy [] clipper0) with (@clipper0 R) in K1. rewrite LO in K1, K2. rewrite <- paths_image, <- ES, <- EC in K1. cbn in K1, K2.
  exists (cm fx fy [] s). split; auto.
  destruct (drawn_rings _ (polygon_drawing _ PG)) as (s2 & ls & E2 & RG & SS & HL). rewrite K1 in E2. injection E2 as <-.
  assert (ST : straight (verts (cm fx fy [] s)) ls) by (eapply drawn_straight; eauto).
  assert (IDS : concat ls = ids).
  { assert (AR2 : all_rings (verts (cm fx fy [] s)) (starts (cm fx fy [] s)) = Ok (concat ls)).
    { rewrite SS. apply all_rings_ok. destruct RG as [RG _]. eapply Forall_impl; [|exact RG]. intros l (gs & H & _). eauto. }
    cbn [verts cm starts] in AR2. rewrite all_rings_image, AR in AR2. now injection AR2. }
  set (ks := filter (fun i => some (hits (verts s) ids i)) ids) in *.
  assert (LI : listing (en_addr en) (verts s) ids (map place (cut_at (verts s) ids ks))).
  { rewrite AE. apply cut_listing; auto. intros i. unfold ks. rewrite filter_In, some_true. reflexivity. }
  pose proof (listing_image fx fy F _ _ _ _ LI) as LJ.
  destruct (RU op fill) as (s1 & BA & IV & AN).
  destruct (process_image fx fy F en fuel0 s op fill ls (cut_at (verts s) ids ks) s1) as (B & PR); auto; rewrite ?IDS; auto.
  - (* axial *) intros i u v Hi Ei. cbn [verts cm] in Ei. apply edge_at_image in Ei as (u' & v' & -> & -> & w & W & <- & G). rewrite Forall_forall in PL.
    pose proof (PL w (nth_error_In _ _ W)) as Q. unfold plain in Q. rewrite G in Q. cbn [fp vx vy]. destruct Q as [Q|Q]; cbn in Q; apply Z.eqb_eq in Q; rewrite Q; auto.
  - (* unaligned *) intros i j u v y z Hi Hj NE Ei Ej. cbn [verts cm] in Ei, Ej. apply edge_at_image in Ei as (u' & v' & -> & -> & Ei). apply edge_at_image in Ej as (y' & z' & -> & -> & Ej).
    destruct (UN i j u' v' y' z' Hi Hj NE Ei Ej) as (U1 & U2). cbn [fp vx vy].
    split; intros (Q1 & Q2 & Q3); [apply U1; apply (g_inj _ GX) in Q1, Q2, Q3|apply U2; apply (g_inj _ GY) in Q1, Q2, Q3]; auto.
  - (* spread *) intros i P u v t BR Ei EPt. cbn [verts cm] in BR, Ei. apply edge_at_image in Ei as (u' & v' & -> & -> & Ei).
    pose proof BR as (u1 & v1 & j & y & z & _ & _ & _ & Ei' & _ & M).
    apply (proj2 LJ) in BR. apply in_map_iff in BR as (iP & EQ & BR). apply in_map_iff in BR as (bk & <- & BR). unfold fplace in EQ. cbn [fst snd place] in EQ.
    injection EQ as EQ1 EQ2. assert (BZ : broken (verts s) ids (br_vert bk) (br_pt bk)) by (apply (proj2 LI); apply in_map_iff; exists bk; auto).
    rewrite EQ1 in BZ. pose proof (SI i u' v' (br_pt bk) Ei BZ) as H.
    destruct (edge_at_fun _ _ _ _ _ _ Ei' (proj2 (edge_at_image fx fy _ _ _ _) (ex_intro _ u' (ex_intro _ v' (conj eq_refl (conj eq_refl Ei)))))) as (-> & ->).
    clear Ei'. unfold meet in M. rops. rewrite !Reqb_true, !sbetween_R in M. cbn [fp vx vy] in M.
    assert (ZX : vx P = fx (vx (br_pt bk))) by (rewrite <- EQ2; reflexivity). assert (ZY : vy P = fy (vy (br_pt bk))) by (rewrite <- EQ2; reflexivity).
    assert (TX : vx P = (fx (vx u') + t * (fx (vx v') - fx (vx u')))%R) by (rewrite EPt; unfold pt; cbn; lra).
    assert (TY : vy P = (fy (vy u') + t * (fy (vy v') - fy (vy u')))%R) by (rewrite EPt; unfold pt; cbn; lra).
    clear EPt EQ2. destruct (vx u' =? vx v')%Z eqn:EV.
    + destruct H as (H & NE). destruct M as [(_ & _ & EM & SB & _)|(EH & _)]; [|apply (g_inj _ GY) in EH; contradiction].
      rewrite EM in ZY, TY. cbn [vy] in ZY, TY. unfold Sz, Cz, y0, y1 in H. cbn [rmin rmax vx vy] in H.
      destruct (fun A1 A2 A3 => sides_clear fy b e b' e' _ _ _ A1 A2 A3 H) as (C1 & C2); [rewrite Eb, Ee, Eb', Ee'; auto|rewrite Eb, Ee; auto|rewrite Eb', Ee'; auto|].
      rewrite <- ZY in C1, C2. eapply inside_well; eauto.
    + apply Z.eqb_neq in EV. destruct M as [(EH & _)|(_ & _ & EM & SB & _)]; [apply (g_inj _ GX) in EH; contradiction|].
      rewrite EM in ZX, TX. cbn [vx] in ZX, TX. unfold Sz, Cz, x0, x1 in H. cbn [rmin rmax vx vy] in H.
      destruct (fun A1 A2 A3 => sides_clear fx a c a' c' _ _ _ A1 A2 A3 H) as (C1 & C2); [rewrite Ea, Ec, Ea', Ec'; auto|rewrite Ea, Ec; auto|rewrite Ea', Ec'; auto|].
      rewrite <- ZX in C1, C2. eapply inside_well; eauto.
  - (* the answer *)
    rewrite PR. unfold box_answer. rewrite ES, EC, right_image by auto. destruct (finish fuel0 s1) as [(s3 & l)|w| |]; cbn [omap bind answer_ok fst snd] in AN |- *.
    + apply andb_true_iff in AN as (A1 & A2). pose proof (contours_image fx fy l _ (split_contours l A1)) as CN. destruct (right_on op fill Sz Cz).
      * rewrite !andb_true_iff in A2. destruct A2 as ((A2 & A3) & A4). exists (cm fx fy B s3), (map (fcall fx fy) l), (map (map (fcall fx fy)) (split_moves l)).
        split; auto. split; [now apply upright_image|]. split; auto. split; [now apply all_closed_image|].
        rewrite EP, inside_image, !covers_image by auto. rewrite forallb_forall in A4. specialize (A4 zx Izx). rewrite forallb_forall in A4. specialize (A4 zy Izy).
        unfold right_at in A4. now apply eqb_prop in A4.
      * right. exists (cm fx fy B s3), (map (fcall fx fy) l), (map (map (fcall fx fy)) (split_moves l)). split; auto. split; auto. intros (U & CL).
        apply upright_image in U; auto. apply all_closed_image in CL; auto. rewrite U, CL in A2. discriminate.
    + destruct (right_on op fill Sz Cz); [discriminate|]. left. eauto.
    + discriminate.
    + discriminate.
Qed.

Lemma answer_calls op fill S C p o o' : omap snd o = omap snd o' -> box_answer op fill S C p o -> box_answer op fill S C p o'.
Proof.
  unfold box_answer. intros E. destruct (right_on op fill S C).
  - intros (s & l & cs & -> & H). destruct o' as [(s' & l')| | |]; try discriminate. injection E as <-. exists s', l, cs. auto.
  - intros [(w & ->)|(s & l & cs & -> & H)]; destruct o' as [(s' & l')| | |]; try discriminate; injection E as <-; [left; eauto|right; exists s', l, cs; auto].
Qed.
Lemma box_point en (S C : rect R) fs k k' op fill p : (forall l, Permutation (en_order en l) l) -> (forall i j, en_addr en i = en_addr en j -> i = j) ->
  general S C -> moderate (vx p) -> moderate (vy p) ->
  exists s, add_all clipper0 (box_paths fs k k' S C) = Ok s /\ box_answer op fill S C p (process en fuel0 s op fill).
Proof.
  intros PO AI G Px Py. destruct (box_point_at (Env (en_order en) Z.of_nat (en_fuel en)) S C fs k k' op fill p PO eq_refl G Px Py) as (s & E & A).
  exists s. split; auto. revert A. apply answer_calls. destruct G as (BS & BC & _). pose proof (box_polygons fs k k' S C BS BC) as PG.
  refine (drawn_layout (fun t _ => I) (Env (en_order en) Z.of_nat (en_fuel en)) en fuel0 (box_paths fs k k' S C) s op fill (polygon_drawing _ PG) E eq_refl eq_refl _ AI). cbn. intros i j. apply Nat2Z.inj.
Qed.

(** *** Every point *)
Lemma origin_moderate : moderate 0.
Proof. unfold moderate. pose proof R_huge_big. lra. Qed.
Lemma boxes_right en fuel (S C : rect R) fs k k' op fill : (forall l, Permutation (en_order en l) l) -> (forall i j, en_addr en i = en_addr en j -> i = j) ->
  general S C -> 60 <= fuel -> right_on op fill S C = true ->
  exists s s' l cs, add_all clipper0 (box_paths fs k k' S C) = Ok s /\ process en fuel s op fill = Ok (s', l) /\
    contours l cs /\ Forall closed cs /\ upright l /\
    forall p, moderate (vx p) -> moderate (vy p) -> inside p l = bool_op op (covers fill S p) (covers fill C p).
Proof.
  intros PO AI G L RO.
  assert (H : forall p, moderate (vx p) -> moderate (vy p) -> exists s, add_all clipper0 (box_paths fs k k' S C) = Ok s /\
    exists s' l cs, process en fuel s op fill = Ok (s', l) /\ upright l /\ contours l cs /\ Forall closed cs /\ inside p l = bool_op op (covers fill S p) (covers fill C p)).
  { intros p X Y. destruct (box_point en S C fs k k' op fill p PO AI G X Y) as (s & LO & A). exists s. split; auto. unfold box_answer in A. rewrite RO in A.
    destruct A as (s' & l & cs & A & B). exists s', l, cs. split; auto. apply (process_answer _ _ en fuel0 fuel); auto. discriminate. }
  destruct (H (V2 0 0)%R origin_moderate origin_moderate) as (s & LO & s' & l & cs & PR & U & CN & CL & _).
  exists s, s', l, cs. repeat (split; [assumption|]). intros p X Y. destruct (H p X Y) as (s2 & LO2 & s2' & l2 & cs2 & PR2 & _ & _ & _ & IN).
  rewrite LO in LO2. injection LO2 as <-. rewrite PR in PR2. injection PR2 as <- <-. exact IN.
Qed.
Lemma boxes_wrong en fuel (S C : rect R) fs k k' op fill : (forall l, Permutation (en_order en l) l) -> (forall i j, en_addr en i = en_addr en j -> i = j) ->
  general S C -> 60 <= fuel -> right_on op fill S C = false ->
  exists s, add_all clipper0 (box_paths fs k k' S C) = Ok s /\
    ((exists w, process en fuel s op fill = UB w) \/
     exists s' l cs, process en fuel s op fill = Ok (s', l) /\ contours l cs /\ ~ (upright l /\ Forall closed cs)).
Proof.
  intros PO AI G L RO. destruct (box_point en S C fs k k' op fill (V2 0 0)%R PO AI G origin_moderate origin_moderate) as (s & LO & A). exists s. split; auto.
  unfold box_answer in A. rewrite RO in A. destruct A as [(w & A)|(s' & l & cs & A & B)].
  - left. exists w. apply (process_answer _ _ en fuel0 fuel); auto. discriminate.
  - right. exists s', l, cs. split; auto. apply (process_answer _ _ en fuel0 fuel); auto. discriminate.
Qed.
Lemma boxes_end en fuel (S C : rect R) fs k k' op fill : (forall l, Permutation (en_order en l) l) -> (forall i j, en_addr en i = en_addr en j -> i = j) ->
  general S C -> 60 <= fuel -> exists s, add_all clipper0 (box_paths fs k k' S C) = Ok s /\ process en fuel s op fill <> NoFuel.
Proof.
  intros PO AI G L. destruct (right_on op fill S C) eqn:RO.
  - destruct (boxes_right en fuel S C fs k k' op fill PO AI G L RO) as (s & s' & l & cs & LO & PR & _). exists s. split; auto. congruence.
  - destruct (boxes_wrong en fuel S C fs k k' op fill PO AI G L RO) as (s & LO & [(w & PR)|(s' & l & cs & PR & _)]); exists s; split; auto; congruence.
Qed.
