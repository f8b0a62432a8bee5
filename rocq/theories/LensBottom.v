(** The lowest point of a contour with a single minimum, and the whole sweep. *)
From Coq Require Import ZArith Bool List Lia.
From Verif Require Import Outcome Num Order Rmath Segment VState VPath VBreak VAel VOut VMain VLemmas RingSpec BreakSpec LensSpec EquiMap Lens.
Import ListNotations.
Local Open Scope out.

Section Bottom.
  Context {T : Type} {N : Num T} {O : OrdNum T}.
  Variable vs : list (vertex T).
  Hypothesis VY : forall v, In v vs -> nvalid (vy (v_pt v)).
  Hypothesis VX : forall v, In v vs -> nvalid (vx (v_pt v)).
  Variables (pt : path_type) (b : nat) (sts : list nat) (brs : list (break_info T)) (op : clip_type) (fill : fill_rule).
  Notation height := (height vs).
  Variables (vb vl vr : vertex T) (l r : nat).
  Hypothesis (HB : nth_error vs b = Some vb) (HL : nth_error vs l = Some vl) (HR : nth_error vs r = Some vr).
  Hypothesis (PB : v_prev vb = Some l) (NB : v_next vb = Some r).
  Hypothesis (UL : n_ltb (height b) (height l) = true) (UR : n_ltb (height b) (height r) = true).
  Let xb := vx (v_pt vb).
  Let pb := v_pt vb.
  Lemma Vxb : nvalid xb. Proof. apply VX. eapply nth_error_In; eauto. Qed.
  Lemma EX : n_eqb xb xb = true. Proof. apply eq_refl_v, Vxb. Qed.
  Lemma EY : n_eqb (vy pb) (vy pb) = true. Proof. apply eq_refl_v. apply VY. eapply nth_error_In; eauto. Qed.
  Lemma flat_l : n_eqb (vy pb) (vy (v_pt vl)) = false.
  Proof. rewrite (height_at vs b vb HB), (height_at vs l vl HL) in UL. refine (proj1 (lt_neq _ _ _ _ UL)); apply VY; eapply nth_error_In; eauto. Qed.
  Lemma flat_r : n_eqb (vy pb) (vy (v_pt vr)) = false.
  Proof. rewrite (height_at vs b vb HB), (height_at vs r vr HR) in UR. refine (proj1 (lt_neq _ _ _ _ UR)); apply VY; eapply nth_error_In; eauto. Qed.

  Definition es2 (c c2 d d2 : Z) (pl nl pr nr bl br : option nat) : list (edge T) :=
    [Edge pb (v_pt vl) xb 1 c c2 pl nl bl l 0; Edge pb (v_pt vr) xb (-1) d d2 pr nr br r 0].
  Definition mk k q es a bs o ch ps : clipper T := Clipper vs [Lmin b pt] [0] k sts brs q es a bs o ch ps op fill.
  (** The x of both edges halfway up to the lower of the two tops *)
  Definition mid : T := n_div (n_add (n_min (vy pb) (vy pb)) (n_min (vy (v_pt vl)) (vy (v_pt vr)))) (n_ofZ 2).
  Hypothesis OPEN : exists gl gr x x', v_seg vl = Some gl /\ v_seg vb = Some gr /\ v_prev vr = Some b /\
    seg_curr_x gl (v_pt vl) mid = Ok x /\ seg_curr_x gr pb mid = Ok x' /\ n_ltb x x' = true /\ n_eqb x x' = false.

  Lemma start1 : start_edge (mk 1 [] [] None [] None [] []) 0 pb l 1 =
    Ok (mk 1 [] [Edge pb (v_pt vl) xb 1 0 0 None None None l 0] None [] None [xb] []).
  Proof.
    unfold start_edge, at_ at 1. cbn [verts mk]. rewrite HL. cbn [of_opt bind].
    set (s := push_change _ _). assert (SK : forall k, skip_horz k s 0 = Ok s).
    { intros k. subst s. destruct k; cbn; unfold is_horz; cbn; now rewrite flat_l. }
    cbn [length edges w_edges mk]. rewrite SK. reflexivity.
  Qed.
  Lemma start2 : start_edge (mk 1 [] [Edge pb (v_pt vl) xb 1 0 0 None None None l 0] None [] None [xb] []) 0 pb r (-1) =
    Ok (mk 1 [] (es2 0 0 0 0 None None None None None None) None [] None [xb; xb] []).
  Proof.
    unfold start_edge, at_ at 1. cbn [verts mk]. rewrite HR. cbn [of_opt bind].
    set (s := push_change _ _). assert (SK : forall k, skip_horz k s 1 = Ok s).
    { intros k. subst s. destruct k; cbn; unfold is_horz; cbn; now rewrite flat_r. }
    cbn [length edges w_edges mk]. rewrite SK. reflexivity.
  Qed.
  Definition s3 := mk 1 [] (es2 0 0 0 0 None None None None None None) (Some 0) [] None [xb; xb] [].
  Lemma order : valid_order s3 (Edge pb (v_pt vl) xb 1 0 0 None None None l 0) (Edge pb (v_pt vr) xb (-1) 0 0 None None None r 0) = Ok true.
  Proof.
    destruct OPEN as (gl & gr & x & x' & G1 & G2 & P & X1 & X2 & LT & NE).
    unfold valid_order. cbn [e_x e_bot e_top]. rewrite EX. cbn [negb]. fold mid.
    unfold edge_x_at at 1. unfold get_seg at 1. unfold at_ at 1. cbn [verts s3 mk e_vtop]. rewrite HL. cbn [of_opt bind].
    change (edge_up (Edge pb (v_pt vl) xb 1 0 0 None None None l 0)) with false. cbn match. cbn [bind fst snd e_top]. rewrite G1. cbn [of_opt bind]. rewrite X1. cbn [bind].
    unfold edge_x_at at 1. unfold get_seg at 1. unfold at_ at 1. cbn [verts s3 mk e_vtop]. rewrite HR. cbn [of_opt bind].
    change (edge_up (Edge pb (v_pt vr) xb (-1) 0 0 None None None r 0)) with true. cbn match. rewrite P. cbn [deref of_opt bind].
    unfold at_ at 1. rewrite HB. cbn [of_opt bind fst snd]. rewrite G2. cbn [of_opt bind]. fold pb. rewrite X2. cbn [bind]. rewrite NE, LT. reflexivity.
  Qed.
  Definition q0 : list T := insert_by n_ltb (height r) [height l].
  Lemma insert_bottom : insert_minimum (mk 1 [] [] None [] None [] []) 0 =
    Ok (mk 1 q0 (es2 0 0 0 0 None (Some 1) (Some 0) None None None) (Some 0) [] None [xb; xb] []).
  Proof.
    unfold insert_minimum. change (at_ (lmins (mk 1 [] [] None [] None [] [])) 0) with (Ok (Lmin b pt)). cbn [bind lm_vert].
    change (verts (mk 1 [] [] None [] None [] [])) with vs. unfold at_ at 1. rewrite HB. cbn [of_opt bind].
    rewrite PB, NB. cbn [deref of_opt bind]. fold pb. rewrite start1. cbn [bind]. rewrite start2. cbn [bind].
    change (length (edges (mk 1 [] [] None [] None [] []))) with 0.
    change (length (edges (mk 1 [] [Edge pb (v_pt vl) xb 1 0 0 None None None l 0] None [] None [xb] []))) with 1.
    change (insert_into_ael (mk 1 [] (es2 0 0 0 0 None None None None None None) None [] None [xb; xb] []) 0) with (Ok s3). cbn [bind].
    change (at_ (edges s3) 0) with (Ok (Edge pb (v_pt vl) xb 1 0 0 None None None l 0)). cbn [bind e_prev insert_into_ael_left].
    unfold insert_into_ael. change (ael s3) with (Some 0). cbn match.
    change (at_ (edges s3) 0) with (Ok (Edge pb (v_pt vl) xb 1 0 0 None None None l 0)). cbn [bind].
    change (at_ (edges s3) 1) with (Ok (Edge pb (v_pt vr) xb (-1) 0 0 None None None r 0)). cbn [bind].
    rewrite order. cbn [bind].
    change (insert_after s3 0 1) with (Ok (mk 1 [] (es2 0 0 0 0 None (Some 1) (Some 0) None None None) (Some 0) [] None [xb; xb] [])). cbn [bind].
    unfold q0. rewrite (height_at vs r vr HR), (height_at vs l vl HL). reflexivity.
  Qed.

  (** *** Winding counts *)
  Definition cr : Z := own_cnt fill 1 1 (-1).
  Lemma recalc_bottom : recalc_windcnt (mk 1 q0 (es2 0 0 0 0 None (Some 1) (Some 0) None None None) (Some 0) [] None [xb; xb] []) =
    Ok (mk 1 q0 (es2 1 0 cr 0 None (Some 1) (Some 0) None None None) (Some 0) [] None [xb] []).
  Proof.
    unfold recalc_windcnt. assert (TI : tidy_changes [xb; xb] = [xb]).
    { unfold tidy_changes, sort_by. cbn. rewrite nlt_irrefl. cbn. now rewrite EX. }
    change (changes (mk 1 q0 (es2 0 0 0 0 None (Some 1) (Some 0) None None None) (Some 0) [] None [xb; xb] [])) with [xb; xb]. rewrite TI.
    set (s4 := w_changes _ _). change (changes s4) with [xb]. change (ael s4) with (Some 0). cbn [recalc_all].
    change (length (edges s4)) with 2. cbn [recalc_at].
    change (at_ (edges s4) 0) with (Ok (Edge pb (v_pt vl) xb 1 0 0 None (Some 1) None l 0)). cbn [bind e_x]. rewrite nlt_irrefl. cbn [e_bound bind].
    change (emod s4 0 (set_ebound None)) with (Ok s4). cbn [bind].
    assert (C0 : calc_windcnt s4 0 = Ok (mk 1 q0 (es2 1 0 0 0 None (Some 1) (Some 0) None None None) (Some 0) [] None [xb] [])) by reflexivity.
    rewrite C0. cbn [bind]. set (s5 := mk _ _ (es2 1 0 0 0 _ _ _ _ _ _) _ _ _ _ _).
    change (at_ (edges s5) 0) with (Ok (Edge pb (v_pt vl) xb 1 1 0 None (Some 1) None l 0)). cbn [bind e_next].
    change (at_ (edges s5) 1) with (Ok (Edge pb (v_pt vr) xb (-1) 0 0 (Some 0) None None r 0)). cbn [bind e_x]. rewrite nlt_irrefl. cbn [e_bound bind].
    change (emod s5 1 (set_ebound None)) with (Ok s5). cbn [bind].
    assert (C1 : calc_windcnt s5 1 = Ok (mk 1 q0 (es2 1 0 cr 0 None (Some 1) (Some 0) None None None) (Some 0) [] None [xb] [])).
    { unfold cr. subst s5. unfold calc_windcnt. cbn. destruct pt; cbn; reflexivity. }
    rewrite C1. reflexivity.
  Qed.

  (** *** Output *)
  Hypothesis TOPS : veqb (v_pt vl) (v_pt vr) = false.
  Definition L0 : side := Side pb (v_pt vl) l xb xb.
  Definition R0 : side := Side pb (v_pt vr) r xb xb.
  Definition keeps : bool := contributing op fill 1 0 pt.
  Definition st0 := st vs pt b sts brs op fill pb 1 0 cr 0 keeps q0 L0 R0 [] [] [].
  Lemma keeps_both : contributing op fill cr 0 pt = keeps.
  Proof. unfold keeps, cr. destruct op, fill, pt; reflexivity. Qed.
  Lemma seg_here s e : verts s = vs -> (e_vtop e = l /\ edge_up e = false) \/ (e_vtop e = r /\ edge_up e = true) -> exists g, get_seg s e = Ok g.
  Proof.
    destruct OPEN as (gl & gr & x & x' & G1 & G2 & P & _).
    intros V [[E U]|[E U]]; unfold get_seg, at_; rewrite V, E, U, ?HL, ?HR; cbn [of_opt bind]; [eauto|]. rewrite P. cbn [deref of_opt bind]. rewrite HB. cbn. eauto.
  Qed.
  Lemma output_bottom n y :
    update_output_bound n (mk 1 q0 (es2 1 0 cr 0 None (Some 1) (Some 0) None None None) (Some 0) [] None [xb] []) y = Ok st0.
  Proof.
    unfold update_output_bound. set (s6 := mk _ _ _ _ _ _ _ _). change (changes s6) with [xb]. cbn match.
    set (s7 := w_changes s6 []).
    set (ea := Edge pb (v_pt vl) xb 1 1 0 None (Some 1) None l 0). set (eb := Edge pb (v_pt vr) xb (-1) cr 0 (Some 0) None None r 0).
    unfold st0. destruct keeps eqn:K.
    2: { assert (CO : collect (length (edges s7)) s7 (ael s7) [] = Ok []).
      { change (length (edges s7)) with 2. change (ael s7) with (Some 0). cbn [collect].
        change (at_ (edges s7) 0) with (Ok ea). cbn [bind]. change (is_contributing s7 ea) with (Ok keeps). rewrite K. cbn [bind].
        change (e_next ea) with (Some 1). cbn [collect]. change (at_ (edges s7) 1) with (Ok eb). cbn [bind].
        replace (is_contributing s7 eb) with (Ok keeps) by (rewrite <- keeps_both; reflexivity). rewrite K. reflexivity. }
      rewrite CO. destruct n; reflexivity. }
    assert (CO : collect (length (edges s7)) s7 (ael s7) [] = Ok [1; 0]).
    { change (length (edges s7)) with 2. change (ael s7) with (Some 0). cbn [collect].
      change (at_ (edges s7) 0) with (Ok ea). cbn [bind]. change (is_contributing s7 ea) with (Ok keeps). rewrite K. cbn [bind].
      change (e_next ea) with (Some 1). cbn [collect]. change (at_ (edges s7) 1) with (Ok eb). cbn [bind].
      replace (is_contributing s7 eb) with (Ok keeps) by (rewrite <- keeps_both; reflexivity). rewrite K. cbn [bind].
      change (at_ (edges s7) 0) with (Ok ea). cbn [bind]. unfold is_same. destruct (seg_here s7 eb) as [g1 ->]; [reflexivity|now right|]. cbn [bind].
      destruct (seg_here s7 ea) as [g2 ->]; [reflexivity|now left|]. cbn [bind].
      change (e_top eb) with (v_pt vr). change (e_top ea) with (v_pt vl).
      assert (TF : veqb (v_pt vr) (v_pt vl) = false).
      { unfold veqb in *. now rewrite (neq_sym (vx (v_pt vr))), (neq_sym (vy (v_pt vr))). }
      rewrite TF, andb_false_r. reflexivity. }
    rewrite CO. cbn [bind rev app].
    assert (OP : open_pairs s7 [0; 1] = Ok (mk 1 q0 (es2 1 0 cr 0 None (Some 1) (Some 0) None (Some 0) (Some 1)) (Some 0)
        [Bound None None (Some 0) (Some 0) xb 1; Bound None None (Some 0) (Some 1) xb (-1)] None [] [Poly pb (Some 1) (Some 0) [] [] false], [])).
    { cbn [open_pairs]. change (at_ (edges s7) 0) with (Ok ea). cbn [bind]. change (at_ (edges s7) 1) with (Ok eb). cbn [bind e_x ea eb]. rewrite EX.
      assert (VE : vneqb pb pb = false) by (unfold vneqb, veqb; pose proof EX as E1; pose proof EY as E2; unfold xb, pb in *; now rewrite E1, E2).
      unfold new_output. change (at_ (edges s7) 0) with (Ok ea). cbn [bind]. change (at_ (edges s7) 1) with (Ok eb). cbn [bind].
      change (edge_up ea) with false. cbn match. change (e_bot eb) with pb. change (e_bot ea) with pb. rewrite VE. reflexivity. }
    rewrite OP. cbn [bind sbl_edges]. destruct n; reflexivity.
  Qed.
  Lemma bottom n : scan_at n (mk 0 [] [] None [] None [] []) (vy pb) = Ok st0.
  Proof.
    unfold scan_at, insert_local_minima_to_ael. change (skipn _ _) with [0]. cbn [insert_minima].
    change (at_ (lmins (mk 0 [] [] None [] None [] [])) 0) with (Ok (Lmin b pt)). cbn [bind lm_vert].
    change (verts (mk 0 [] [] None [] None [] [])) with vs. unfold at_ at 1. rewrite HB. cbn [of_opt bind]. fold pb. rewrite EY.
    change (w_minima _ _ _) with (mk 1 [] [] None [] None [] []). rewrite insert_bottom. cbn [bind]. rewrite recalc_bottom. cbn [bind]. apply output_bottom.
  Qed.
End Bottom.

Section Whole.
  Context {T : Type} {N : Num T} {O : OrdNum T}.
  Variable vs : list (vertex T).
  Hypothesis VY : forall v, In v vs -> nvalid (vy (v_pt v)).
  Hypothesis VX : forall v, In v vs -> nvalid (vx (v_pt v)).
  Notation height := (height vs).
  (** What is loaded and not yet swept *)
  Definition loaded (s : clipper T) (b : nat) (k : path_type) : Prop :=
    verts s = vs /\ lmins s = [Lmin b k] /\ minima s = [0] /\ scans s = [] /\ edges s = [] /\ bounds s = [] /\ changes s = [] /\ polys s = [].
  Lemma lens_finish s b k ls rs l r gl gr vb vl vr fuel : loaded s b k ->
    rises vs false b (l :: ls) gl -> rises vs true b (r :: rs) gr -> last ls l = last rs r -> apart vs b (l :: ls) (r :: rs) ->
    nth_error vs b = Some vb -> nth_error vs l = Some vl -> nth_error vs r = Some vr ->
    (exists x x' g g', v_seg vl = Some g /\ v_seg vb = Some g' /\ seg_curr_x g (v_pt vl) (mid vb vl vr) = Ok x /\ seg_curr_x g' (v_pt vb) (mid vb vl vr) = Ok x' /\
      n_ltb x x' = true /\ n_eqb x x' = false) ->
    veqb (v_pt vl) (v_pt vr) = false -> n_eqb (vy (v_pt vb)) (n_neg n_huge) = false -> length ls + length rs + 2 <= fuel ->
    exists s', finish fuel s = Ok (s', build_output s') /\ polys s' = the_poly (v_pt vb) (contributing (cop s) (cfill s) 1 0 k) gr gl true.
  Proof.
    intros (E1 & E2 & E3 & E4 & E5 & E6 & E7 & E8) RL RR TOP AP HB HL HR OPEN TOPS NH FU.
    destruct gl as [|g gl]; [contradiction|]. destruct gr as [|g' gr]; [contradiction|].
    cbn [rises] in RL, RR. destruct RL as (NB1 & (LKL & DL & UL) & RL). destruct RR as (_ & (LKR & DR & UR) & RR).
    pose proof LKL as (vl' & vb' & X1 & X2 & NXL & PVB & SGL & PTB). rewrite HL in X1. injection X1 as <-. rewrite HB in X2. injection X2 as <-.
    pose proof LKR as (vb' & vr' & X1 & X2 & NXB & PVR & SGB & PTR). rewrite HR in X2. injection X2 as <-. rewrite HB in X1. injection X1 as <-.
    assert (VB : nvalid (height b)) by (eapply height_valid; eauto). assert (VL : nvalid (height l)) by (eapply height_valid; eauto). assert (VR : nvalid (height r)) by (eapply height_valid; eauto).
    destruct fuel as [|fuel]; [lia|].
    assert (RS : exists s1, reset s = Ok s1 /\ pop_scanline s1 (n_neg n_huge) = (Some (vy (v_pt vb)), mk vs k b (starts s) (breaks s) (cop s) (cfill s) 0 [] [] None [] None [] [])).
    { assert (ES : s = Clipper vs [Lmin b k] [0] (cur s) (starts s) (breaks s) [] [] (ael s) [] (obl s) [] [] (cop s) (cfill s)).
      { clear - E1 E2 E3 E4 E5 E6 E7 E8. destruct s. cbn in *. congruence. }
      revert ES. generalize (starts s), (breaks s), (cop s), (cfill s), (cur s), (ael s), (obl s). intros a1 a2 a3 a4 a5 a6 a7 ->. unfold reset. cbn [minima sort_by fold_left insert_by rev app push_minima w_minima lmins]. unfold at_ at 1. cbn [lmins nth_error of_opt bind lm_vert verts].
      match goal with |- context [at_ (verts ?a) b] => change (verts a) with vs end. unfold at_. rewrite HB. cbn [of_opt bind]. eexists. split; [reflexivity|].
      unfold pop_scanline. cbn. rewrite NH. reflexivity. }
    destruct RS as (s1 & RS & POP). unfold finish. rewrite RS. cbn [bind]. rewrite POP.
    destruct OPEN as (x & x' & g1 & g2 & G1 & G2 & OPEN).
    assert (BO := bottom vs VY VX k b (starts s) (breaks s) (cop s) (cfill s) vb vl vr l r HB HL HR PVB NXB UL UR).
    cbn [sweep]. rewrite BO; auto; [|exists g1, g2, x, x'; tauto]. cbn [bind]. unfold st0.
    destruct (climb_all vs VY VX k b (starts s) (breaks s) (cop s) (cfill s) (v_pt vb) 1 0 (cr (cfill s)) 0 (l :: ls) (r :: rs) AP
      (keeps k (cop s) (cfill s)) (S fuel) ltac:(lia) (length ls + length rs) ls rs fuel b l b r (L0 vb vl l) (R0 vb vr r) g g' gl gr (q0 vs l r) [] [] (vy (v_pt vb)) [] []) as (s' & RUN & PO & _); auto.
    - lia.
    - exists vb, vl. auto.
    - exists vb, vr. auto.
    - rewrite <- (height_at vs b vb HB). exact VB.
    - rewrite (height_at vs b vb HB). apply nlt_irrefl.
    - rewrite (height_at vs b vb HB). apply nlt_irrefl.
    - now rewrite <- (height_at vs b vb HB).
    - now rewrite <- (height_at vs b vb HB).
    - unfold q0. apply queue_insert; auto.
    - unfold after in RUN. exists s'. split; [|exact PO]. rewrite RUN. reflexivity.
  Qed.
End Whole.
