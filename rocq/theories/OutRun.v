(** A whole run: what is drawn has the winding numbers of the result. *)
From Coq Require Import ZArith Bool List Reals Lra Lia Permutation Sorted.
From Verif Require Import Outcome Num Order OrdTac Rmath RTac Segment Path PathSpec ScanLine VState VPath VBreak VAel VOut VMain VLemmas VFrame RingSpec BezierSpec BreakSpec LineSpec ClimbSpec ClipSpec VOutProofs AelSpec VAelProofs VEdges VAelRun VRun VClimb SortProofs
  WindSpec VWind VKept VPairs
  MarkProofs VRing VBuild VAdd MarkSpec VCut VBroken TraceR LineR RingStatements BreakStatements BreakLines BreakDrawn ClimbRing ClimbBroken ClimbPoly ClimbNone
  SpanRing SpanTop SpanStep SpanRun SpanMark SpanPoly SpanEnd PlaneSpec PlaneGeo PlaneSort PlaneTop PlaneRun PlaneCount PlaneScan PlaneWind PlanePoly PlaneInput
  OutSpec OutPath OutAlt OutList OutClose OutMatch OutLink OutTop OutClear OutBeam OutGrow OutPar OutScan OutStep VSolid VSafe VSafeRun SafeSpec VSafeEnd ClimbFuel SpanSpec.
Import ListNotations.
Local Open Scope Z_scope.
Local Open Scope out.

(** Breaking the contours leaves the bounds alone. *)
Section Quiet.
  Context {T : Type} {N : Num T}.
  Implicit Types s : clipper T.
  Lemma set_segment_bs s p m g s' : set_segment s p m g = Ok s' -> bounds s' = bounds s.
  Proof. unfold set_segment. intros H. dmatch; auto. Qed.
  Lemma chain_bs gs : forall s c s' n, VBreak.chain s c gs = Ok (s', n) -> bounds s' = bounds s.
  Proof.
    induction gs; intros s c s' n H; simpl in H; binvs; auto.
    apply IHgs in H. use (@set_segment_bs). cbn in *. congruence.
  Qed.
  Lemma relink_bs s st gs l s' : relink s st gs l = Ok s' -> bounds s' = bounds s.
  Proof. unfold relink. intros H. binvs. mods. use (@chain_bs). use (@set_segment_bs). cbn. congruence. Qed.
  Lemma break_vertex_bs s st bs s' : break_vertex s st bs = Ok s' -> bounds s' = bounds s.
  Proof. unfold break_vertex. intros H. binvs. destruct x0; binvs; auto; now apply relink_bs in H. Qed.
  Lemma break_all_bs fuel : forall s l s', break_all fuel s l = Ok s' -> bounds s' = bounds s.
  Proof.
    induction fuel; intros s l s' H; simpl in H; (destruct l; [binvs; auto|]); [discriminate|].
    destruct (take_run (br_vert b) (b :: l)) as [r1 r2].
    binvs. use (@break_vertex_bs). apply IHfuel in H. congruence.
  Qed.
  Lemma process_intersect_bs en s s' : process_intersect en s = Ok s' -> bounds s' = bounds s.
  Proof. unfold process_intersect. intros H. binvs. now apply break_all_bs in H. Qed.
  Lemma push_minima_bs l : forall s s', push_minima s l = Ok s' -> bounds s' = bounds s.
  Proof. induction l; intros s s' H; simpl in H; binvs; auto. apply IHl in H. auto. Qed.
End Quiet.

(** *** What is written *)
Lemma write_path_lines gs : forall p, Forall straight gs -> lines_of (fst (write_path p gs)) = trail p gs /\ snd (write_path p gs) = goes p gs /\ only_lines (fst (write_path p gs)).
Proof.
  induction gs as [|g gs IH]; intros p F; [cbn; csplit; auto; constructor|]. apply Forall_cons_iff in F as [(q & ->) F]. destruct (IH q F) as (A & B & C).
  cbn [write_path seg_target]. destruct (write_path q gs) as [cs r] eqn:E. cbn [fst snd] in *. csplit; [|exact B|].
  - unfold lines_of in *. cbn [flat_map app trail seg_target]. now rewrite A.
  - constructor; [exact I|exact C].
Qed.
Lemma lines_app a b : lines_of (a ++ b) = lines_of a ++ lines_of b.
Proof. unfold lines_of. apply flat_map_app. Qed.
Lemma poly_lines bs pos o q : poly_fits bs pos [] o q -> only_lines (write_poly q) /\ (write_poly q = [] \/ closed (write_poly q)) /\ forall x z, winding (lines_of (write_poly q)) x z = pw pos x z q.
Proof.
  intros (S1 & S2 & C). unfold write_poly, pw. destruct (o_complete q) eqn:K.
  2: { destruct C as (u & d & bu & bd & _ & _ & [] & _). }
  assert (G : let '(c1, p) := write_path (o_origin q) (o_up q) in let '(c2, _) := write_path p (rev (o_down q)) in
    only_lines (c1 ++ c2) /\ lines_of (c1 ++ c2) = trail (o_origin q) (o_up q ++ rev (o_down q)) /\ length (c1 ++ c2) = length (o_up q ++ rev (o_down q)) /\
    (forall d, c1 ++ c2 <> [] -> call_to (last (c1 ++ c2) d) = o_origin q)).
  { destruct (write_path_lines (o_up q) (o_origin q) S1) as (A1 & B1 & C1). destruct (write_path (o_origin q) (o_up q)) as [c1 p] eqn:E1. cbn [fst snd] in *. subst p.
    assert (S2' : Forall straight (rev (o_down q))) by now apply Forall_rev.
    destruct (write_path_lines (rev (o_down q)) (goes (o_origin q) (o_up q)) S2') as (A2 & B2 & C2). destruct (write_path (goes (o_origin q) (o_up q)) (rev (o_down q))) as [c2 p] eqn:E2. cbn [fst snd] in *.
    assert (LA : lines_of (c1 ++ c2) = trail (o_origin q) (o_up q ++ rev (o_down q))) by now rewrite lines_app, trail_app, A1, A2.
    assert (ON : only_lines (c1 ++ c2)) by (apply Forall_app; auto).
    pose proof (write_path_connected _ _ _ _ E1) as (_ & L1 & _). pose proof (write_path_connected _ _ _ _ E2) as (_ & L2 & _).
    csplit; auto.
    - rewrite !app_length. lia.
    - assert (LT : forall (gs : list (seg R)) p cs r, write_path p gs = (cs, r) -> forall d, cs <> [] -> call_to (last cs d) = r).
      { clear. induction gs as [|g gs IH]; intros p cs r H d NE; cbn in H; [injection H as <- <-; contradiction|].
        destruct (write_path (seg_target g) gs) as [cs' r'] eqn:E. injection H as <- <-. destruct cs' as [|c cs'].
        - destruct gs; cbn in E; [injection E as <-; destruct g; reflexivity|]. destruct (write_path _ _); discriminate.
        - cbn [last]. apply (IH _ _ _ E d). discriminate. }
      intros d NE. rewrite goes_app in C. destruct c2 as [|c c2].
      + rewrite app_nil_r in *. rewrite (LT _ _ _ _ E1 d NE). destruct (rev (o_down q)); [exact C|discriminate L2].
      + assert (NE2 : c :: c2 <> []) by discriminate. replace (last (c1 ++ c :: c2) d) with (last (c :: c2) d); [rewrite (LT _ _ _ _ E2 d NE2); congruence|].
        clear. revert c c2 d. induction c1 as [|a c1 IH]; intros c c2 d; auto. cbn [app]. rewrite (IH c c2 d). destruct c1; reflexivity. }
  destruct (write_path (o_origin q) (o_up q)) as [c1 p] eqn:E1. destruct (write_path p (rev (o_down q))) as [c2 r] eqn:E2. destruct G as (G1 & G2 & G3 & G4).
  assert (FULL : c1 ++ c2 <> [] -> only_lines (MoveTo (V2 (n_ofZ 0) (n_ofZ 0)) (o_origin q) :: c1 ++ c2) /\
    (MoveTo (V2 (n_ofZ 0) (n_ofZ 0)) (o_origin q) :: c1 ++ c2 = [] \/ closed (MoveTo (V2 (n_ofZ 0) (n_ofZ 0)) (o_origin q) :: c1 ++ c2)) /\
    forall x z, winding (lines_of (MoveTo (V2 (n_ofZ 0) (n_ofZ 0)) (o_origin q) :: c1 ++ c2)) x z = winding (trail (o_origin q) (o_up q ++ rev (o_down q))) x z).
  { intros NE. csplit.
    - constructor; [exact I|exact G1].
    - right. split; auto.
    - intros x z. unfold lines_of in *. cbn [flat_map app]. now rewrite G2. }
  destruct (o_up q) as [|g u] eqn:U; [destruct (o_down q) as [|g d] eqn:D|].
  - csplit; [constructor|now left|reflexivity].
  - rewrite E1, E2. apply FULL. intros N. rewrite N in G3. cbn in G3. rewrite app_length in G3. cbn in G3. lia.
  - rewrite E1, E2. apply FULL. intros N. rewrite N in G3. discriminate.
Qed.
Lemma build_lines (s : clipper R) pos : paths (polys s) (bounds s) pos [] -> only_lines (build_output s) /\ (exists cs, ClipSpec.contours (build_output s) cs /\ Forall closed cs) /\
  forall x z, winding (lines_of (build_output s)) x z = tw (polys s) pos x z.
Proof.
  intros [A _]. unfold build_output, tw. assert (F : Forall (fun q => exists o, poly_fits (bounds s) pos [] o q) (polys s)).
  { apply Forall_forall. intros q Hq. apply In_nth_error in Hq as [o Ho]. exists o. auto. }
  clear A. induction F as [|q l (o & Q) F (IH1 & (cs & [IH2 IH2'] & IH3) & IH4)]; cbn [flat_map].
  - csplit; [constructor|exists []; split; [split; [reflexivity|constructor]|constructor]|reflexivity].
  - destruct (poly_lines _ _ _ _ Q) as (P1 & P2 & P3). csplit.
    + apply Forall_app; auto.
    + destruct (write_poly_contour q) as [E|E].
      * exists cs. rewrite E. split; auto. split; auto.
      * exists (write_poly q :: cs). destruct P2 as [K|K]; [rewrite K in E; contradiction|]. split; [split|]; auto. cbn. congruence.
    + intros x z. rewrite lines_app, winding_app, P3, IH4, zsum_cons. reflexivity.
Qed.

Section ORun.
  Variable vs : list (vertex R).
  Notation Y := (height vs).
  Variables P M : nat -> Prop.
  Hypothesis MK : marked vs P M.
  Hypothesis V : vs_valid vs.
  Hypothesis PL : plane vs P M.
  Implicit Types s : clipper R.
  Implicit Types es : list (edge R).
  Variable lms : list lmin.
  Variable ms : list nat.
  Notation lv := (lv lms).
  Hypothesis ms_some : forall m, In m ms -> exists x, nth_error lms m = Some x.
  Hypothesis ms_nodup : NoDup (map lv ms).
  Hypothesis ms_M : forall i, M i <-> In i (map lv ms).
  Hypothesis ms_sorted : StronglySorted (fun a b => nle (Y (lv a)) (Y (lv b))) ms.
  Variable ty : nat -> path_type.
  Hypothesis ty_side : forall j k, P j -> side vs true j k -> ty j = ty k.
  Hypothesis ty_min : forall m x, nth_error lms m = Some x -> lm_type x = ty (lm_vert x).
  Notation ready := (ready vs P lms ms).
  Notation ended := (ended vs P lms ms).
  Notation stand := (stand vs P lms ty).
  Variable B : list nat.
  Hypothesis B_nodup : NoDup B.
  Hypothesis B_P : forall i, In i B <-> P i.
  Variable op : clip_type.
  Variable fill : fill_rule.
  Variable d : Z.
  Hypothesis OW : one_way vs ty B op fill d.
  Notation wof := (wof vs ty B).
  Notation res := (res vs ty B op fill d).
  Notation inv := (inv vs P lms ms ty B op fill d).

  Lemma in_fill_0 : in_fill fill 0 = false.
  Proof. destruct fill; reflexivity. Qed.
  Lemma res_0 x z : (forall t, wof t x z = 0) -> res x z = 0.
  Proof. intros H. unfold OutStep.res, OutStep.rb. rewrite !H, in_fill_0. destruct op; reflexivity. Qed.
  Lemma wof_0 t x z : (forall i, P i -> (z < Y i)%R) \/ (forall i, P i -> (Y i <= z)%R) -> wof t x z = 0.
  Proof.
    intros H. unfold OutStep.wof. apply zsum_0. intros i Hi. destruct (ptype_eqb (ty i) t); auto. apply B_P in Hi. rename Hi into Pi.
    destruct (mk_side _ _ _ MK true i Pi) as (k & Pk & S). destruct (vpass_side vs x z i k S) as (v & w & Ev & Ew & ->).
    assert (K : (z < vy (v_pt v) /\ z < vy (v_pt w))%R \/ (vy (v_pt v) <= z /\ vy (v_pt w) <= z)%R).
    { rewrite <- (height_some' vs i v Ev), <- (height_some' vs k w Ew). destruct H as [H|H]; [left|right]; split; auto. }
    unfold passes. destruct K as [[K1 K2]|[K1 K2]].
    - rewrite (proj2 (Rleb_false (vy (v_pt v)) z)), (proj2 (Rleb_false (vy (v_pt w)) z)) by lra. reflexivity.
    - rewrite (proj2 (Rltb_false z (vy (v_pt w)))), (proj2 (Rltb_false z (vy (v_pt v)))) by lra. now rewrite !andb_false_r.
  Qed.
  (** The first scan line *)
  Lemma first_line n y s s1 s2 : ready y s -> cur s = 0%nat -> edges s = [] -> bounds s = [] -> polys s = [] -> ael s = None -> obl s = None -> cop s = op -> cfill s = fill ->
    insert_local_minima_to_ael s y = Ok s1 -> recalc_windcnt s1 = Ok s2 -> (exists be, collect (length (edges s2)) (w_changes s2 []) (ael s2) [] = Ok be) ->
    runs (2 * length vs <= n)%nat (fun s' => exists l k pos bl, inv y s' l k pos bl) (update_output_bound n s2 y).
  Proof.
    intros RD C0 E0 B0 P0 A0 O0 IO IFi HI HR HC. set (pos := fun _ : nat => V2 0%R 0%R).
    assert (ST : stand y s []).
    { constructor; [|intros i []|constructor|intros i e []]. red. rewrite A0. csplit; auto; constructor. }
    assert (AR : arrive vs P lms ms ty y s [] pos [] (fun _ => 0%R) (fun _ => 0) d).
    { constructor; auto; try (intros; contradiction); try (red; intros; contradiction).
      - constructor; [split; [rewrite O0; reflexivity|split; constructor]|constructor| |constructor|intros c x []|]; rewrite ?E0, ?B0, ?P0.
        + intros o q H. destruct o; discriminate.
        + intros b [].
        + intros i b. unfold ebof, beof. split; intros H; [destruct i|destruct b]; discriminate.
        + intros i c H. unfold ebof in H. destruct i; discriminate.
      - exact I.
      - constructor.
      - cbn. lia.
      - intros x. unfold OutPar.inside, left_sum. rewrite E0. cbn [map fold_right zsum]. unfold zsum. cbn. rewrite IFi, !in_fill_0. destruct (cop s); reflexivity.
      - intros i c H. unfold ebof in H. rewrite E0 in H. destruct i; discriminate. }
    assert (OP2 : cop s2 = op /\ cfill s2 = fill).
    { clear - HI HR IO IFi. apply insert_local_minima_frame in HI as (HI & _). apply recalc_windcnt_frame in HR as (HR & _). unfold VFrame.fin in *. split; congruence. }
    eapply runs_weak; [apply (scan_settled vs P M MK V PL lms ms ms_some ms_nodup ms_M ms_sorted ty ty_side ty_min n y s [] pos [] _ _ d s1 s2 AR (proj1 OW) HI HR)| |auto]; auto.
    { intros EN2 l2 k2 S2 A2 K2. eapply (ow_alt vs P M MK V lms ms ms_some ms_nodup ms_M ms_sorted ty ty_side B B_nodup B_P op fill d OW); eauto; apply OP2. }
    intros s' HU (EN & l & k & pos' & bl & SE & TW). pose proof (update_output_bound_frame _ _ _ _ HU) as (FR & _).
    pose proof SE as [SD' AC' KP' O' HD' ST' _ CS' PAR']. destruct OP2 as [OP2 FI2].
    exists l, k, pos', bl. constructor; auto; try (clear - FR OP2 FI2; unfold VFrame.fin in *; congruence).
    - intros x z Hz. rewrite TW, P0, res_0.
      + unfold tw. cbn [zsum map fold_right]. rewrite (zsum_0 (OutStep.ep (edges s') x z) k); [reflexivity|]. intros i Hi. unfold OutStep.ep. destruct (nth_error (edges s') i) as [f|] eqn:F; auto.
        destruct (CS' i f (kept_in _ _ _ KP' i Hi) F) as [([] & _)|Q]. unfold epass. now rewrite (proj2 (Rleb_false (vy (e_bot f)) z)) by lra.
      + intros t. apply wof_0. left. intros i Pi. destruct RD as [Vy _ _ _ _ _ (ds & rs & D1 & D2 & D3 & D4)]. rewrite C0 in D2. destruct ds; [|discriminate].
        assert (NB : n_leb y (Y i) = true).
        { apply (nothing_below vs P M MK (fun _ => true) y); auto; try discriminate.
          intros m Mm _. apply ms_M, in_map_iff in Mm as (j & <- & Hj). rewrite D1 in Hj. now apply D4. }
        rops. rbool. lra.
    - intros x z _. rewrite TW, P0. reflexivity.
  Qed.
End ORun.

Section OEnd.
  Variable en : env.
  Variable s0 s1 : clipper R.
  Variables (op : clip_type) (fill : fill_rule).
  Variable ls : list (list nat).
  Hypothesis HP : process_intersect en (w_op s0 op fill) = Ok s1.
  Hypothesis HE : edges s1 = [].
  Hypothesis HQ : scans s1 = [].
  Hypothesis HB : bounds s1 = [].
  Hypothesis HL : polys s1 = [].
  Hypothesis X : extremal (verts s1) (lmins s1) (minima s1) ls.
  Hypothesis NH : forall i, In i (map lm_vert (lmins s1)) -> n_eqb (height (verts s1) i) (n_neg n_huge) = false.
  Let MS := sort_by (min_ltb s1) (minima s1).
  Let MK := extremal_marked _ _ _ _ X.
  Let P := on_contour ls.
  Let M := is_lowest (verts s1) ls.
  Hypothesis PL : plane (verts s1) P M.
  Variable ty : nat -> path_type.
  Hypothesis ty_side : forall j k, P j -> side (verts s1) true j k -> ty j = ty k.
  Hypothesis ty_min : forall m x, nth_error (lmins s1) m = Some x -> lm_type x = ty (lm_vert x).
  Let V : vs_valid (verts s1). Proof. intros v _. exact I. Qed.
  Hypothesis HO : cop s1 = op /\ cfill s1 = fill.
  Let B := concat ls.
  Let B_P i : In i B <-> P i. Proof. unfold B, P, on_contour. rewrite in_concat. tauto. Qed.
  Variable d : Z.
  Hypothesis OW : one_way (verts s1) ty B op fill d.
  Variable C : nat -> Prop.
  Hypothesis HC : forall i, C i -> whole_at (verts s1) C i.
  Hypothesis HS : solid (verts s1) C s1.
  Notation inv := (inv (verts s1) P (lmins s1) MS ty B op fill d).
  Notation res := (res (verts s1) ty B op fill d).
  Variable n : nat.
  Notation enough := (2 * length (verts s1) <= n)%nat.
  Notation visits := (visits en n s0 op fill).

  Lemma collects s y s6 s7 : solid (verts s1) C s -> has_list s -> insert_local_minima_to_ael s y = Ok s6 -> recalc_windcnt s6 = Ok s7 ->
    exists be, collect (length (edges s7)) (w_changes s7 []) (ael s7) [] = Ok be.
  Proof.
    intros S [l HA] HI HR. destruct (insert_minima_ok _ _ _ _ _ HA HI) as (l6 & x & _ & A6 & _).
    pose proof (insert_local_post (verts s1) C HC never s y S) as K. rewrite HI in K. destruct K as [S6 _].
    pose proof (recalc_windcnt_post (verts s1) C never s6 l6 S6 A6) as K. rewrite HR in K. destruct K as [S7 _].
    assert (A7 : active s7 l6) by (eapply active_count; [eapply recalc_windcnt_ec; eauto| |exact A6]; apply recalc_windcnt_frame in HR; tauto).
    pose proof (changes_post (verts s1) C s7 [] S7) as [S7' _].
    pose proof (collect_post (verts s1) C HC never (length (edges s7)) (w_changes s7 []) (ael s7) [] S7' (so_ael _ _ _ S7) (Forall_nil _)) as K.
    assert (F : collect (length (edges s7)) (w_changes s7 []) (ael s7) [] <> NoFuel).
    { rewrite (proj1 A7). apply (collect_fuel _ (w_changes s7 []) [] l6); [exact A7|exact (active_length _ _ A7)]. }
    destruct (collect _ _ _ _) as [be|k| |]; [eauto|destruct K|now elim F|destruct K].
  Qed.
  Lemma visits_solid ys s : visits ys s -> solid (verts s1) C s /\ has_list s.
  Proof.
    induction 1 as [t1 t2 t3 y P1 P2 P3|y ys s t1 t2 t3 y' H [IH IL] P1 P2 P3].
    - rewrite HP in P1. injection P1 as <-. pose proof (reset_post (verts s1) C HC never s1 HS) as K. rewrite P2 in K.
      split; [eapply pop_solid; eauto|eapply pop_scanline_list; eauto; eapply reset_list; eauto].
    - pose proof (scan_at_list _ _ _ _ IL P1) as L1. pose proof (pop_scanline_list _ _ _ _ L1 P2) as L2. split; [|eapply beam_list; eauto].
      assert (S1 : solid (verts s1) C t1).
      { unfold scan_at in P1. apply bind_ok in P1 as (s6 & F6 & P1). apply bind_ok in P1 as (s7 & F7 & F8). destruct IL as [l HA].
        destruct (insert_minima_ok _ _ _ _ _ HA F6) as (l6 & x & _ & A6 & _).
        pose proof (insert_local_post (verts s1) C HC never s y IH) as K. rewrite F6 in K. destruct K as [S6 _].
        pose proof (recalc_windcnt_post (verts s1) C never s6 l6 S6 A6) as K. rewrite F7 in K. destruct K as [S7 _].
        pose proof (update_output_bound_post (verts s1) C HC links (or_introl eq_refl) (or_intror eq_refl) n s7 y S7) as K. rewrite F8 in K. apply K. }
      pose proof (pop_solid _ _ _ _ _ _ S1 P2) as S2. unfold beam in P3. apply bind_ok in P3 as (t4 & F4 & P3). apply bind_ok in P3 as (t5 & F5 & F6).
      pose proof (do_top_post (verts s1) C HC never t2 y' S2) as K. rewrite F4 in K. destruct K as [S4 _].
      pose proof (close_output_post (verts s1) C null eq_refl n t4 y' S4) as K. rewrite F5 in K. destruct K as [S5 _].
      pose proof (resort_ael_post (verts s1) C HC never t5 S5) as K. rewrite F6 in K. apply K.
  Qed.
  Lemma reset_bare s2 : reset s1 = Ok s2 -> bounds s2 = [] /\ polys s2 = [] /\ obl s2 = None /\ cop s2 = op /\ cfill s2 = fill.
  Proof.
    intros HR. unfold reset in HR. cbn zeta in HR. apply bind_ok in HR as (s & F & HR). injection HR as <-. cbn. pose proof (push_minima_in _ _ _ F) as (A & _). pose proof (push_minima_bs _ _ _ F) as B1. pose proof (push_minima_quiet _ _ _ F) as (B2 & _).
    unfold VFrame.fin in A. cbn in *. injection A as _ _ _ _ _ C1 C2. destruct HO. csplit; auto; congruence.
  Qed.
  (** What every scan line finds *)
  Lemma visits_awaits ys s : visits ys s -> forall y yr, ys = y :: yr -> forall s6 s7, insert_local_minima_to_ael s y = Ok s6 -> recalc_windcnt s6 = Ok s7 ->
    runs enough (fun s' => exists l k pos bl, inv y s' l k pos bl) (update_output_bound n s7 y).
  Proof.
    intros H. assert (H' := H). induction H as [t1 t2 t3 y P1 P2 P3|y ys s t1 t2 t3 y' H IH P1 P2 P3]; intros y0 yr Q s6 s7 HI HR; injection Q as <- <-; destruct (visits_solid _ _ H') as [S L].
    - assert (RD : ready (verts s1) P (lmins s1) MS y t3) by (eapply (visits_ready en s0 s1 op fill ls HP HE HQ V X NH n y []); eauto).
      rewrite HP in P1. injection P1 as <-.
      destruct (reset_in s1 t2 P2 HQ) as (A1 & A2 & A3 & A4 & A5 & A6 & _). pose proof (pop_scanline_frame _ _ _ _ P3) as (F1 & F2 & F3 & F4 & F5 & _).
      destruct (reset_bare t2 P2) as (K1 & K2 & K3 & K4 & K5).
      eapply (first_line (verts s1) P M MK V PL (lmins s1) MS (MS_some s1 ls X) (MS_nodup s1 ls X) (MS_M s1 ls X) (MS_sorted s1 ls V X) ty ty_side ty_min B (ex_nodup _ _ _ _ X) B_P op fill d OW); [exact RD| | | | | | | | |exact HI|exact HR|eapply collects; eauto];
        unfold fout, VFrame.fin in *; congruence.
    - unfold scan_at in P1. apply bind_ok in P1 as (r6 & G6 & P1). apply bind_ok in P1 as (r7 & G7 & G8). pose proof (IH H y ys eq_refl r6 r7 G6 G7) as K. rewrite G8 in K. destruct K as (l & k & pos & bl & IV).
      eapply (step (verts s1) P M MK V PL (lmins s1) MS (MS_some s1 ls X) (MS_nodup s1 ls X) (MS_M s1 ls X) (MS_sorted s1 ls V X) ty ty_side ty_min B (ex_nodup _ _ _ _ X) B_P op fill d OW); eauto.
      eapply collects; eauto.
  Qed.
  Lemma visits_inv y ys s t : visits (y :: ys) s -> scan_at n s y = Ok t -> exists l k pos bl, inv y t l k pos bl.
  Proof.
    intros H P1. unfold scan_at in P1. apply bind_ok in P1 as (r6 & G6 & P1). apply bind_ok in P1 as (r7 & G7 & G8). pose proof (visits_awaits _ _ H y ys eq_refl r6 r7 G6 G7) as K. now rewrite G8 in K.
  Qed.
  Lemma visits_close y ys s t y' t2 t3 : visits (y :: ys) s -> scan_at n s y = Ok t -> pop_scanline t y = (Some y', t2) -> do_top_of_scanbeam t2 y' = Ok t3 ->
    runs enough (fun _ => True) (close_output n t3 y').
  Proof.
    intros H P1 P2 P3. destruct (visits_inv _ _ _ _ H P1) as (l & k & pos & bl & IV).
    eapply runs_weak; [eapply (close_safe (verts s1) P M MK V PL (lmins s1) MS (MS_some s1 ls X) (MS_nodup s1 ls X) (MS_M s1 ls X) (MS_sorted s1 ls V X) ty ty_side B (ex_nodup _ _ _ _ X) B_P op fill d OW); eauto|auto|auto].
  Qed.
  Lemma never_fails k : ~ output_fails en n s0 op fill k.
  Proof.
    intros (y & ys & s & H & [[_ (s6 & s7 & G6 & G7 & G8)]|[_ (t & y' & t2 & t3 & P1 & P2 & P3 & P4)]]).
    - pose proof (visits_awaits _ _ H y ys eq_refl s6 s7 G6 G7) as K. now rewrite G8 in K.
    - pose proof (visits_close _ _ _ _ _ _ _ H P1 P2 P3) as K. now rewrite P4 in K.
  Qed.
  Lemma never_stuck : enough -> ~ stuck en n s0 op fill.
  Proof.
    intros E (y & ys & s & H & [(s6 & s7 & more & G6 & G7 & G8 & _)|(t & y' & t2 & t3 & P1 & P2 & P3 & P4)]).
    - pose proof (visits_awaits _ _ H y ys eq_refl s6 s7 G6 G7) as K. rewrite G8 in K. contradiction.
    - pose proof (visits_close _ _ _ _ _ _ _ H P1 P2 P3) as K. rewrite P4 in K. contradiction.
  Qed.
  Lemma sweep_out : forall fuel y ys s s', visits (y :: ys) s -> sweep n fuel s y = Ok s' ->
    exists pos, paths (polys s') (bounds s') pos [] /\ forall x z, tw (polys s') pos x z = res x z.
  Proof.
    induction fuel as [|fuel IH]; intros y ys s s' VI H; [discriminate|]. cbn [sweep] in H. apply bind_ok in H as (t1 & HSc & H). destruct (visits_inv _ _ _ _ VI HSc) as (l & k & pos & bl & IV).
    destruct (pop_scanline t1 y) as [[y'|] s2] eqn:HPo.
    - apply bind_ok in H as (s5 & HB' & H). eapply (IH y' (y :: ys)); [econstructor; eauto|exact H].
    - injection H as <-. pose proof IV as [EN SD AC KP O HD IO IFi DN TP]. destruct (last_line (verts s1) P M MK V (lmins s1) MS (MS_some s1 ls X) (MS_nodup s1 ls X) (MS_M s1 ls X) (MS_sorted s1 ls V X) y t1 s2 EN HPo) as [SC TOP].
      assert (L0 : l = []).
      { destruct EN as [_ _ _ _ _ (l0 & HA & EX & TQ) _]. rewrite (active_fun _ _ _ HA (sd_active _ _ _ _ _ _ _ SD)) in *. destruct l as [|i l]; auto. exfalso.
        specialize (TQ i (or_introl eq_refl)). rewrite SC in TQ. contradiction. }
      subst l. inversion KP; subst k. inversion HD; subst bl. pose proof (pop_scanline_frame _ _ _ _ HPo) as (_ & F2 & _).
      assert (PB : polys s2 = polys t1 /\ bounds s2 = bounds t1) by (unfold fout in F2; split; congruence). destruct PB as [-> ->].
      exists pos. split; [exact (os_paths _ _ _ _ O)|]. intros x z. destruct (Rlt_le_dec z y) as [L|L].
      + rewrite <- (DN x z L). unfold zsum. cbn. lia.
      + rewrite (TP x z L), res_0; auto. intros t. apply (wof_0 (verts s1) P M MK ty B B_P). right. intros i Pi. specialize (TOP i Pi). lra.
  Qed.
  Lemma process_out s' cs : process en n s0 op fill = Ok (s', cs) ->
    only_lines cs /\ (exists ks, ClipSpec.contours cs ks /\ Forall closed ks) /\ forall x z, winding (lines_of cs) x z = res x z.
  Proof.
    intros H. unfold process in H. rewrite HP in H. cbn [bind] in H. apply bind_ok in H as (s2 & HR & H).
    destruct (pop_scanline s2 (n_neg n_huge)) as [[y|] s3] eqn:HPo.
    - apply bind_ok in H as (s4 & HSw & H). injection H as <- <-.
      destruct (sweep_out n y [] s3 s4) as (pos & PA & TW); [econstructor; eauto|exact HSw|].
      destruct (build_lines s4 pos PA) as (L1 & L2 & L3). csplit; auto. intros x z. now rewrite L3.
    - injection H as <- <-. csplit; [constructor|exists []; split; [split; [reflexivity|constructor]|constructor]|]. intros x z. unfold lines_of. cbn [flat_map]. rewrite winding_nil. symmetry. apply res_0; auto.
      intros t. apply (wof_0 (verts s1) P M MK ty B B_P). left. intros i Pi. exfalso.
      destruct (reset_in s1 s2 HR HQ) as (A1 & A2 & A3 & A4 & A5 & A6 & A7 & A8).
      assert (SC : scans s2 = []).
      { unfold pop_scanline in HPo. destruct (scans s2) as [|z0 q] eqn:E; auto. exfalso. destruct (A8 z0) as [A9 _]. destruct A9 as (m & Hm & ->); [now left|].
        cbn [drop_eq] in HPo. rewrite NH in HPo; [discriminate|]. eapply Permutation_in; [apply (lv_perm s1 ls X)|]. apply in_map. now rewrite A3 in Hm. }
      assert (NB : n_leb (height (verts s1) i + 1)%R (height (verts s1) i) = true).
      { apply (nothing_below (verts s1) P M MK (fun _ => true) (height (verts s1) i + 1)%R); auto; try exact I; try discriminate.
        intros m Mm _. apply (MS_M s1 ls X), in_map_iff in Mm as (j & <- & Hj). exfalso. assert (K : In (height (verts s1) (SpanRun.lv (lmins s1) j)) (scans s2)) by (apply A8; exists j; rewrite A3; auto). rewrite SC in K. contradiction. }
      rops. rbool. lra.
  Qed.
End OEnd.

(** *** Polygons *)
Lemma polygons_out en ps (s : clipper R) : (forall l, Permutation (en_order en l) l) -> (forall i j, en_addr en i = en_addr en j -> i = j) ->
  Forall polygon (all_outlines ps) -> Forall above_end (all_outlines ps) -> generic (all_sides ps) -> add_all clipper0 ps = Ok s ->
  exists k, forall n op fill d, consistent d ps op fill ->
    ((k <= n)%nat -> exists s' cs, process en n s op fill = Ok (s', cs)) /\
    (forall u, process en n s op fill <> UB u) /\
    forall s' cs, process en n s op fill = Ok (s', cs) ->
      only_lines cs /\ (exists ks, ClipSpec.contours cs ks /\ Forall closed ks) /\
      forall x z, winding (lines_of cs) x z = if result ps op fill x z then d else 0.
Proof.
  intros PO AI POL AE GE ADD.
  destruct (poly_broken en ps s PO AI POL ADD) as (cs & news & s' & B & RG & PI & E1 & E2 & E3 & OLD & X & NEW & CH).
  assert (D : drawable_paths ps) by (eapply Forall_impl; [|exact POL]; intros o; apply polygon_drawing).
  destruct (drawn_fresh ps s D ADD) as (F1 & F2 & F3).
  assert (F4 : bounds s = []).
  { destruct (add_all_built ps clipper0 [] [] D (built_nil _)) as (s'' & cs'' & E' & B''). rewrite ADD in E'. injection E' as <-. destruct B'' as ((G & _) & _). rewrite G. reflexivity. }
  assert (SO : exists C : nat -> Prop, (forall i, C i -> whole_at (verts s') C i) /\ forall op fill, solid (verts s') C (w_op s' op fill)).
  { assert (PI' := PI). unfold process_intersect in PI'. apply bind_ok in PI' as (bs & FB & _). destruct (drawn_solid en ps s bs D ADD FB) as (C & s1' & PI1 & HC & SO). rewrite PI in PI1. injection PI1 as <-. eauto. }
  destruct SO as (C & HC & SO).
  destruct (polygons_end en ps s PO AI POL ADD) as (s1' & PI1 & BS). rewrite PI in PI1. injection PI1 as <-.
  exists (2 * length (verts s'))%nat. intros n op fill d CO.
  assert (WI : forall t x z, OutStep.wof (verts s') (ptype_of cs news) (concat (map (with_new news) (map c_verts cs))) t x z = winding (typed_sides ps t) x z).
  { intros t x z. unfold OutStep.wof. eapply (input_winding ps s s' cs news); eauto. }
  assert (OW : one_way (verts s') (ptype_of cs news) (concat (map (with_new news) (map c_verts cs))) op fill d).
  { destruct CO as [C1 C2]. split; auto. intros x x' z L1 L2. rewrite !WI in L1, L2. specialize (C2 x x' z L1 L2). unfold OutStep.rb. rewrite !WI. exact C2. }
  assert (NH : forall i, In i (map lm_vert (lmins s')) -> n_eqb (height (verts s') i) (n_neg n_huge) = false).
  { rewrite E3. intros i Hi. destruct (low_old s _ cs i B Hi) as (c & Hc & Hic).
    destruct B as (_ & IT & OK & _). rewrite Forall_forall in OK. destruct (OK c Hc) as (f & r & EV & NE & R' & _). rewrite <- EV in R'.
    destruct (ring_target _ _ _ _ R' Hic) as (v & g & Hv & Hg & Ev).
    assert (K : In (c_type c, c_segs c) (filter (fun it => accepted (snd it)) (flat_map (fun x => items (fst x) (concat (snd x))) ps))).
    { cbn [app] in IT. rewrite <- IT. exact (in_map (fun c => (c_type c, c_segs c)) cs c Hc). }
    apply filter_In in K as [K AC]. destruct (items_outline _ _ K) as (o & Ho & EQ). cbn [snd] in EQ. rewrite EQ in Hg.
    rewrite Forall_forall in POL, AE. apply (outline_targets o g (POL o Ho)) in Hg. specialize (AE o Ho). unfold above_end in AE. rewrite Forall_forall in AE.
    apply AE in Hg. destruct (OLD i v Hv) as (w & W & PW). rewrite (height_some _ _ _ W), PW, Ev. exact Hg. }
  set (s1 := w_op s' op fill). set (ls := map (with_new news) (map c_verts cs)) in *.
  assert (G1 : process_intersect en (w_op s op fill) = Ok s1) by (apply process_intersect_op; exact PI).
  assert (G2 : edges s1 = []) by (cbn; congruence). assert (G3 : scans s1 = []) by (cbn; congruence).
  assert (G4 : bounds s1 = []) by (cbn; rewrite (process_intersect_bs _ _ _ PI); exact F4).
  assert (G5 : polys s1 = []) by (cbn; destruct (process_intersect_quiet _ _ _ PI) as (-> & _); exact F3).
  assert (PL : plane (verts s1) (on_contour ls) (is_lowest (verts s1) ls)) by (eapply (input_plane ps s s' cs news); eauto).
  assert (T1 : forall j k, on_contour ls j -> side (verts s1) true j k -> ptype_of cs news j = ptype_of cs news k) by (intros j k Pj S; eapply (ptype_side ps s s' cs news); eauto).
  assert (T2 : forall m x, nth_error (lmins s1) m = Some x -> lm_type x = ptype_of cs news (lm_vert x)) by (intros m x0 K; eapply (ptype_min ps s s' cs news); eauto).
  assert (HO : cop s1 = op /\ cfill s1 = fill) by (split; reflexivity).
  split; [|split].
  - intros L. destruct (process en n s op fill) as [[s9 out]|u| |] eqn:H; [eauto| | |]; exfalso.
    + eapply (never_fails en s s1 op fill ls G1 G2 G3 G4 G5 X NH PL _ T1 T2 HO d OW C HC (SO op fill) n u). eapply safe_polygons; eauto.
    + assert (ST : stuck en n s op fill) by (apply (BS op fill n); [lia|exact H]). revert ST.
      eapply (never_stuck en s s1 op fill ls G1 G2 G3 G4 G5 X NH PL _ T1 T2 HO d OW C HC (SO op fill) n L).
    + destruct (safe_lemma en n ps s op fill) as [K _]; auto. intros l' x Hx. eapply Permutation_in; [apply PO|exact Hx].
  - intros u H. eapply (never_fails en s s1 op fill ls G1 G2 G3 G4 G5 X NH PL _ T1 T2 HO d OW C HC (SO op fill) n u). eapply safe_polygons; eauto.
  - intros s9 out H. destruct (process_out en s s1 op fill ls G1 G2 G3 G4 G5 X NH PL _ T1 T2 HO d OW C HC (SO op fill) n s9 out H) as (A1 & A2 & A3).
    csplit; auto. intros x z. rewrite A3. unfold OutStep.res, OutStep.rb, result. cbn [verts w_op s1]. now rewrite !WI.
Qed.
