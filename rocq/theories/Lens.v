(** The sweep over one contour with a single minimum and a single maximum. *)
From Coq Require Import ZArith Bool List Lia.
From Verif Require Import Outcome Num Order Rmath Segment VState VPath VBreak VAel VOut VMain VLemmas RingSpec BreakSpec LensSpec.
Import ListNotations.
Local Open Scope out.

Section Sweep.
  Context {T : Type} {N : Num T} {O : OrdNum T}.
  Variable vs : list (vertex T).
  Hypothesis VY : forall v, In v vs -> nvalid (vy (v_pt v)).
  Hypothesis VX : forall v, In v vs -> nvalid (vx (v_pt v)).
  Variables (pt : path_type) (b : nat) (sts : list nat) (brs : list (break_info T)) (op : clip_type) (fill : fill_rule).
  Variables (p0 : vec2 T) (ca ca2 cb cb2 : Z).
  Notation height := (height vs).

  (** The left edge, from point [lo] up to [hi] (vertex [hid]), at [sx]; its bound is at [bx]. *)
  Record side := Side { lo : vec2 T; hi : vec2 T; hid : nat; sx : T; bx : T }.
  (** [kb]: the edges bound the result. *)
  Definition if_kept {A} (kb : bool) (a : A) : option A := if kb then Some a else None.
  Definition ledge (kb : bool) (L : side) : edge T := Edge (lo L) (hi L) (sx L) 1 ca ca2 None (Some 1) (if_kept kb 0) (hid L) 0.
  Definition redge (kb : bool) (R : side) : edge T := Edge (lo R) (hi R) (sx R) (-1) cb cb2 (Some 0) None (if_kept kb 1) (hid R) 0.
  Definition the_poly (kb : bool) (up down : list (seg T)) (cl : bool) : list (poly T) := if kb then [Poly p0 (Some 1) (Some 0) up down cl] else [].
  Definition st (kb : bool) (q : list T) (L R : side) (up down : list (seg T)) (ch : list T) : clipper T :=
    Clipper vs [Lmin b pt] [0] 1 sts brs q [ledge kb L; redge kb R] (Some 0)
      (if kb then [Bound None (Some 1) (Some 0) (Some 0) (bx L) 1; Bound (Some 0) None (Some 0) (Some 1) (bx R) (-1)] else []) (if_kept kb 0)
      ch (the_poly kb up down false) op fill.
  (** The edge from vertex [i] to [j] *)
  Definition on (i j : nat) (L : side) : Prop :=
    exists v w, nth_error vs i = Some v /\ nth_error vs j = Some w /\ lo L = v_pt v /\ hi L = v_pt w /\ hid L = j.
  Lemma height_at i v : nth_error vs i = Some v -> height i = vy (v_pt v).
  Proof. intros H. unfold RingSpec.height. now rewrite H. Qed.
  Lemma height_valid i v : nth_error vs i = Some v -> nvalid (height i).
  Proof. intros H. rewrite (height_at i v H). apply VY. eapply nth_error_In; eauto. Qed.

  Lemma eq_refl_v a : nvalid a -> n_eqb a a = true.
  Proof. intros V. rewrite neq_le by auto. now rewrite (nle_refl a V). Qed.
  Lemma lt_neq a c : nvalid a -> nvalid c -> n_ltb a c = true -> n_eqb a c = false /\ n_eqb c a = false.
  Proof.
    intros A C L. assert (E : n_eqb a c = false).
    { rewrite neq_le by auto. rewrite (nle_negb c a) by auto. rewrite L. apply andb_false_r. }
    split; auto. now rewrite neq_sym.
  Qed.

  (** *** One step of the pass, taken apart *)
  Lemma step_over n s y last i e x : nth_error (edges s) i = Some e -> n_eqb (vy (e_top e)) y = false -> edge_x_at s e y = Ok x ->
    (forall bd, e_bound e = Some bd -> exists k, nth_error (bounds s) bd = Some k) -> n_eqb x last = false ->
    top_loop (S n) s y last (Some i) =
      top_loop n (w_bounds (w_edges s (upd (edges s) i (set_ex x))) (match e_bound e with Some bd => upd (bounds s) bd (set_bstop x) | None => bounds s end)) y x (e_next e).
  Proof.
    intros E NE X B XL. cbn [top_loop]. unfold at_ at 1. rewrite E. cbn [of_opt bind]. rewrite NE. unfold update_x. unfold at_ at 1. rewrite E. cbn [of_opt bind].
    rewrite X. cbn [bind]. rewrite (emod_run _ _ _ _ E). cbn [bind]. unfold at_ at 1. cbn [w_edges edges]. rewrite (nth_upd_same _ _ _ _ E). cbn [of_opt bind].
    replace (e_bound (set_ex x e)) with (e_bound e) by (destruct e; reflexivity). replace (e_x (set_ex x e)) with x by (destruct e; reflexivity).
    replace (e_next (set_ex x e)) with (e_next e) by (destruct e; reflexivity). destruct (e_bound e) as [bd|].
    - destruct (B bd eq_refl) as (k & K). rewrite (bmod_run (w_edges s _) bd _ k K). cbn [bind]. rewrite XL. reflexivity.
    - cbn [bind]. rewrite XL. destruct s; reflexivity.
  Qed.
  Lemma step_next n s y last i e s1 s2 s3 s4 nx : nth_error (edges s) i = Some e -> n_eqb (vy (e_top e)) y = true -> n_eqb (vx (e_top e)) last = false ->
    emod s i (set_ex (vx (e_top e))) = Ok s1 -> extend_bound s1 i = Ok s2 -> is_maxima s2 e = Ok false ->
    next_edge s2 i = Ok s3 -> climb (S (length (verts s3))) s3 i = Ok (nx, s4) ->
    top_loop (S n) s y last (Some i) = top_loop n s4 y (vx (e_top e)) nx.
  Proof.
    intros E NE XL E1 E2 M E3 E4. cbn [top_loop]. unfold at_ at 1. rewrite E. cbn [of_opt bind]. rewrite NE. rewrite E1. cbn [bind]. rewrite XL, E2. cbn [bind].
    rewrite M. cbn [bind]. rewrite E3. cbn [bind]. rewrite E4. reflexivity.
  Qed.
  Lemma step_top n s y last i e s1 s2 s4 nx : nth_error (edges s) i = Some e -> n_eqb (vy (e_top e)) y = true ->
    emod s i (set_ex (vx (e_top e))) = Ok s1 -> extend_bound (if n_eqb (vx (e_top e)) last then push_change s1 last else s1) i = Ok s2 -> is_maxima s2 e = Ok true ->
    do_maxima s2 i = Ok (nx, s4) ->
    top_loop (S n) s y last (Some i) = top_loop n s4 y (vx (e_top e)) nx.
  Proof.
    intros E NE E1 E2 M E4. cbn [top_loop]. unfold at_ at 1. rewrite E. cbn [of_opt bind]. rewrite NE. rewrite E1. cbn [bind]. rewrite E2. cbn [bind].
    rewrite M. cbn [bind]. rewrite E4. reflexivity.
  Qed.
  Lemma climb_flat n (s : clipper T) i e : nth_error (edges s) i = Some e -> is_horz e = false -> climb (S n) s i = Ok (e_next e, insert_scanline s (vy (e_top e))).
  Proof. intros E H. cbn [climb]. unfold at_ at 1. rewrite E. cbn [of_opt bind]. now rewrite H. Qed.
  Lemma max_at (s : clipper T) e w bb : verts s = vs -> nth_error vs (e_vtop e) = Some w -> v_max w = bb -> is_maxima s e = Ok bb.
  Proof. intros V W M. unfold is_maxima, at_. rewrite V, W. cbn. now rewrite M. Qed.
  Lemma next_at (s : clipper T) i e w k u : verts s = vs -> nth_error (edges s) i = Some e -> nth_error vs (e_vtop e) = Some w ->
    (if edge_up e then v_next w else v_prev w) = Some k -> nth_error vs k = Some u ->
    next_edge s i = Ok (w_edges s (upd (edges s) i (fun e => Edge (e_top e) (v_pt u) (vx (e_top e)) (e_dx e) (e_cnt e) (e_cnt2 e)
                (e_prev e) (e_next e) (e_bound e) k (e_lmin e)))).
  Proof.
    intros V E W K U. unfold next_edge. unfold at_ at 1. rewrite E. cbn [of_opt bind]. unfold at_ at 1. rewrite V, W. cbn [of_opt bind]. rewrite K. cbn [deref of_opt bind].
    unfold at_. rewrite U. cbn [of_opt bind]. now rewrite (emod_run _ _ _ _ E).
  Qed.
  Lemma copy_at (s : clipper T) e g p : get_seg s e = Ok (Some g, p) -> drawable g -> copy_seg s e false = Ok g.
  Proof. intros G D. unfold copy_seg. rewrite G. cbn. destruct g; try contradiction; reflexivity. Qed.
  Lemma extend_at (s : clipper T) i e bd k o pl g p : nth_error (edges s) i = Some e -> e_bound e = Some bd -> nth_error (bounds s) bd = Some k ->
    xorb (edge_up e) (bound_up k) = false -> get_seg s e = Ok (Some g, p) -> drawable g -> ob_owner k = Some o -> nth_error (polys s) o = Some pl ->
    extend_bound s i = Ok (w_bounds (w_polys s (upd (polys s) o (if bound_up k then push_up g else push_down g))) (upd (bounds s) bd (set_bstop (e_x e)))).
  Proof.
    intros E B K XB G D OW PL. unfold extend_bound. unfold at_ at 1. rewrite E. cbn [of_opt bind]. rewrite B. unfold at_ at 1. rewrite K. cbn [of_opt bind].
    rewrite XB, (copy_at s e g p G D). cbn [bind]. rewrite OW. cbn [deref of_opt bind]. rewrite (pmod_run _ _ _ _ PL). cbn [bind].
    now rewrite (bmod_run (w_polys s _) bd _ k K).
  Qed.

  (** *** Left edge *)
  Lemma left_seg kb q L R up down ch w g x0 : nth_error vs (hid L) = Some w -> v_seg w = Some g ->
    get_seg (st kb q L R up down ch) (set_ex x0 (ledge kb L)) = Ok (Some g, hi L).
  Proof. intros W G. unfold get_seg. cbn -[nth_error]. unfold at_. cbn [verts st e_vtop set_ex ledge]. rewrite W. cbn. now rewrite G. Qed.
  Definition at_x (L : side) (x : T) : side := Side (lo L) (hi L) (hid L) x x.
  Definition to_x (L : side) (x : T) : side := Side (lo L) (hi L) (hid L) x (bx L).
  Lemma left_over kb n q L R up down ch y last i j x : on i j L -> n_eqb (height j) y = false -> x_on vs false i j y x -> n_eqb x last = false ->
    top_loop (S n) (st kb q L R up down ch) y last (Some 0) = top_loop n (st kb q (at_x L x) R up down ch) y x (Some 1).
  Proof.
    intros (v & w & V & W & L1 & L2 & L3) NE X XL. unfold x_on in X. rewrite NE in X. destruct X as (w' & g' & W' & G & X). rewrite W in W'. injection W' as <-.
    rewrite (height_at j w W) in NE. subst j.
    rewrite (step_over n (st kb q L R up down ch) y last 0 (ledge kb L) x); auto.
    - destruct kb; reflexivity.
    - cbn. now rewrite L2.
    - unfold edge_x_at. change (ledge kb L) with (set_ex (sx L) (ledge kb L)). rewrite (left_seg kb q L R up down ch w g' (sx L) W G). cbn. now rewrite L2.
    - destruct kb; intros bd E; try discriminate; injection E as <-; eexists; reflexivity.
  Qed.
  Lemma left_extend kb q L R up down ch w g : nth_error vs (hid L) = Some w -> v_seg w = Some g -> drawable g ->
    extend_bound (st kb q L R up down ch) 0 = Ok (st kb q (at_x L (sx L)) R up (down ++ [g]) ch).
  Proof.
    intros W G D. destruct kb; [|reflexivity]. exact (extend_at (st true q L R up down ch) 0 (ledge true L) 0 _ 0 _ g (hi L) eq_refl eq_refl eq_refl eq_refl (left_seg true q L R up down ch w g (sx L) W G) D eq_refl eq_refl).
  Qed.
  Lemma left_next kb n q L R up down ch y last i j k g g' : on i j L -> link vs j i g -> drawable g -> n_eqb (height j) y = true -> is_top vs j false -> goes_up vs false j k g' ->
    (forall v, nth_error vs j = Some v -> n_eqb (vx (v_pt v)) last = false) ->
    exists L', on j k L' /\ (forall v, nth_error vs j = Some v -> sx L' = vx (v_pt v)) /\ bx L' = sx L' /\
      top_loop (S n) (st kb q L R up down ch) y last (Some 0) = top_loop n (st kb (insert_by n_ltb (height k) q) L' R up (down ++ [g]) ch) y (sx L') (Some 1).
  Proof.
    intros (v & w & V & W & L1 & L2 & L3) LK DG EQ (w' & W' & MX) (LK' & DG' & LT) XL. rewrite W in W'. injection W' as <-.
    destruct LK as (w' & v' & W' & V' & _ & _ & SG & _). rewrite W in W'. injection W' as <-.
    destruct LK' as (u & w' & U & W' & NX & PV & _). rewrite W in W'. injection W' as <-.
    exists (Side (v_pt w) (v_pt u) k (vx (v_pt w)) (vx (v_pt w))). split; [exists w, u; auto|]. split; [intros ? E; rewrite W in E; now injection E as <-|]. split; [reflexivity|].
    rewrite (height_at j w W) in EQ, LT. rewrite (height_at k u U) in LT. rewrite (height_at k u U).
    assert (NH : n_eqb (vy (v_pt w)) (vy (v_pt u)) = false) by (refine (proj1 (lt_neq _ _ _ _ LT)); apply VY; eapply nth_error_In; eauto).
    subst j. specialize (XL w W). cbn [sx]. rewrite <- L2 in *.
    apply (step_next n (st kb q L R up down ch) y last 0 (ledge kb L) (st kb q (to_x L (vx (hi L))) R up down ch) (st kb q (at_x L (vx (hi L))) R up (down ++ [g]) ch)
      (st kb q (Side (hi L) (v_pt u) k (vx (hi L)) (vx (hi L))) R up (down ++ [g]) ch)); auto.
    - exact (left_extend kb q (to_x L (vx (hi L))) R up down ch w g W SG DG).
    - now apply (max_at _ _ w).
    - rewrite (next_at _ 0 (ledge kb (at_x L (vx (hi L)))) w k u); auto.
    - rewrite (climb_flat _ _ _ (ledge kb (Side (hi L) (v_pt u) k (vx (hi L)) (vx (hi L))))); auto.
  Qed.

  (** *** Right edge *)
  Lemma right_seg kb q L R up down ch i w v g x0 : nth_error vs (hid R) = Some w -> v_prev w = Some i -> nth_error vs i = Some v -> v_seg v = Some g ->
    get_seg (st kb q L R up down ch) (set_ex x0 (redge kb R)) = Ok (Some g, v_pt v).
  Proof.
    intros W P V G. unfold get_seg. unfold at_ at 1. cbn [verts st e_vtop set_ex redge]. rewrite W. cbn [of_opt bind].
    change (edge_up _) with true. cbn match. rewrite P. cbn [deref of_opt bind]. unfold at_. rewrite V. cbn. now rewrite G.
  Qed.
  Lemma right_over kb n q L R up down ch y last i j x g : on i j R -> link vs i j g -> n_eqb (height j) y = false -> x_on vs true i j y x -> n_eqb x last = false ->
    top_loop (S n) (st kb q L R up down ch) y last (Some 1) = Ok (st kb q L (at_x R x) up down ch).
  Proof.
    intros (v & w & V & W & L1 & L2 & L3) LK NE X XL. unfold x_on in X. rewrite NE in X. destruct X as (v' & g' & V' & G & X). rewrite V in V'. injection V' as <-.
    destruct LK as (v' & w' & V' & W' & _ & P & _). rewrite W in W'. injection W' as <-.
    rewrite (height_at j w W) in NE. subst j.
    rewrite (step_over n (st kb q L R up down ch) y last 1 (redge kb R) x); auto.
    - destruct kb, n; reflexivity.
    - cbn. now rewrite L2.
    - unfold edge_x_at. change (redge kb R) with (set_ex (sx R) (redge kb R)). rewrite (right_seg kb q L R up down ch i w v g' (sx R) W P V G). exact X.
    - destruct kb; intros bd E; try discriminate; injection E as <-; eexists; reflexivity.
  Qed.
  Lemma right_extend kb q L R up down ch i w v g : nth_error vs (hid R) = Some w -> v_prev w = Some i -> nth_error vs i = Some v -> v_seg v = Some g -> drawable g ->
    extend_bound (st kb q L R up down ch) 1 = Ok (st kb q L (at_x R (sx R)) (up ++ [g]) down ch).
  Proof.
    intros W P V G D. destruct kb; [|reflexivity]. exact (extend_at (st true q L R up down ch) 1 (redge true R) 1 _ 0 _ g (v_pt v) eq_refl eq_refl eq_refl eq_refl (right_seg true q L R up down ch i w v g (sx R) W P V G) D eq_refl eq_refl).
  Qed.
  Lemma right_next kb n q L R up down ch y last i j k g g' : on i j R -> link vs i j g -> drawable g -> n_eqb (height j) y = true -> is_top vs j false -> goes_up vs true j k g' ->
    (forall v, nth_error vs j = Some v -> n_eqb (vx (v_pt v)) last = false) ->
    exists R', on j k R' /\ (forall v, nth_error vs j = Some v -> sx R' = vx (v_pt v)) /\ bx R' = sx R' /\
      top_loop (S n) (st kb q L R up down ch) y last (Some 1) = Ok (st kb (insert_by n_ltb (height k) q) L R' (up ++ [g]) down ch).
  Proof.
    intros (v & w & V & W & L1 & L2 & L3) LK DG EQ (w' & W' & MX) (LK' & DG' & LT) XL. rewrite W in W'. injection W' as <-.
    destruct LK as (v' & w' & V' & W' & _ & P & SG & _). rewrite W in W'. injection W' as <-. rewrite V in V'. injection V' as <-.
    destruct LK' as (w' & u & W' & U & NX & PV & _). rewrite W in W'. injection W' as <-.
    exists (Side (v_pt w) (v_pt u) k (vx (v_pt w)) (vx (v_pt w))). split; [exists w, u; auto|]. split; [intros ? E; rewrite W in E; now injection E as <-|]. split; [reflexivity|].
    rewrite (height_at j w W) in EQ, LT. rewrite (height_at k u U) in LT. rewrite (height_at k u U).
    assert (NH : n_eqb (vy (v_pt w)) (vy (v_pt u)) = false) by (refine (proj1 (lt_neq _ _ _ _ LT)); apply VY; eapply nth_error_In; eauto).
    subst j. specialize (XL w W). rewrite <- L2 in *.
    rewrite (step_next n (st kb q L R up down ch) y last 1 (redge kb R) (st kb q L (to_x R (vx (hi R))) up down ch) (st kb q L (at_x R (vx (hi R))) (up ++ [g]) down ch)
      (st kb q L (Side (hi R) (v_pt u) k (vx (hi R)) (vx (hi R))) (up ++ [g]) down ch)
      (st kb (insert_by n_ltb (vy (v_pt u)) q) L (Side (hi R) (v_pt u) k (vx (hi R)) (vx (hi R))) (up ++ [g]) down ch) None); auto.
    - destruct n; reflexivity.
    - exact (right_extend kb q L (to_x R (vx (hi R))) up down ch i w v g W P V SG DG).
    - now apply (max_at _ _ w).
    - rewrite (next_at _ 1 (redge kb (at_x R (vx (hi R)))) w k u); auto.
    - rewrite (climb_flat _ _ _ (redge kb (Side (hi R) (v_pt u) k (vx (hi R)) (vx (hi R))))); auto.
  Qed.

  (** *** The last beam *)
  Definition half (kb : bool) (q : list T) (L R : side) (up down : list (seg T)) (ch : list T) : clipper T :=
    Clipper vs [Lmin b pt] [0] 1 sts brs q [Edge (lo L) (hi L) (sx L) 1 ca ca2 None (Some 1) None (hid L) 0; Edge (lo R) (hi R) (sx R) (-1) cb cb2 None None (if_kept kb 1) (hid R) 0] (Some 1)
      (if kb then [Bound None (Some 1) (Some 0) None (bx L) 1; Bound (Some 0) None (Some 0) (Some 1) (bx R) (-1)] else []) (if_kept kb 0)
      ch (the_poly kb up down false) op fill.
  Definition full (kb : bool) (q : list T) (L R : side) (up down : list (seg T)) (ch : list T) : clipper T :=
    Clipper vs [Lmin b pt] [0] 1 sts brs q [Edge (lo L) (hi L) (sx L) 1 ca ca2 None (Some 1) None (hid L) 0; Edge (lo R) (hi R) (sx R) (-1) cb cb2 None None None (hid R) 0] None
      (if kb then [Bound None (Some 1) (Some 0) None (bx L) 1; Bound (Some 0) None (Some 0) None (bx R) (-1)] else []) (if_kept kb 0)
      ch (the_poly kb up down false) op fill.
  Lemma left_top kb n q L R up down ch y last i j g : on i j L -> link vs j i g -> drawable g -> n_eqb (height j) y = true -> is_top vs j true ->
    top_loop (S n) (st kb q L R up down ch) y last (Some 0) =
      top_loop n (half kb q (at_x L (vx (hi L))) R up (down ++ [g]) (if n_eqb (vx (hi L)) last then ch ++ [last] else ch)) y (vx (hi L)) (Some 1).
  Proof.
    intros (v & w & V & W & L1 & L2 & L3) LK DG EQ (w' & W' & MX). rewrite W in W'. injection W' as <-.
    destruct LK as (w' & v' & W' & V' & _ & _ & SG & _). rewrite W in W'. injection W' as <-.
    rewrite (height_at j w W) in EQ. subst j. rewrite <- L2 in *.
    set (ch' := if n_eqb (vx (hi L)) last then _ else ch).
    apply (step_top n (st kb q L R up down ch) y last 0 (ledge kb L) (st kb q (to_x L (vx (hi L))) R up down ch) (st kb q (at_x L (vx (hi L))) R up (down ++ [g]) ch')); auto.
    - transitivity (extend_bound (st kb q (to_x L (vx (hi L))) R up down ch') 0).
      + subst ch'. cbn [e_top ledge]. destruct (n_eqb (vx (hi L)) last); reflexivity.
      + exact (left_extend kb q (to_x L (vx (hi L))) R up down ch' w g W SG DG).
    - now apply (max_at _ _ w).
    - destruct kb; reflexivity.
  Qed.
  Lemma right_top kb n q L R up down ch y last i j g : on i j R -> link vs i j g -> drawable g -> n_eqb (height j) y = true -> is_top vs j true ->
    n_eqb (vx (hi R)) last = true ->
    top_loop (S n) (half kb q L R up down ch) y last (Some 1) = Ok (full kb q L (at_x R (vx (hi R))) (up ++ [g]) down (ch ++ [last])).
  Proof.
    intros (v & w & V & W & L1 & L2 & L3) LK DG EQ (w' & W' & MX) XE. rewrite W in W'. injection W' as <-.
    destruct LK as (v' & w' & V' & W' & _ & P & SG & _). rewrite W in W'. injection W' as <-. rewrite V in V'. injection V' as <-.
    rewrite (height_at j w W) in EQ. subst j. rewrite <- L2 in *.
    set (e := Edge (lo R) (hi R) (sx R) (-1) cb cb2 None None (if_kept kb 1) (hid R) 0).
    rewrite (step_top n (half kb q L R up down ch) y last 1 e (half kb q L (to_x R (vx (hi R))) up down ch) (half kb q L (at_x R (vx (hi R))) (up ++ [g]) down (ch ++ [last]))
      (full kb q L (at_x R (vx (hi R))) (up ++ [g]) down (ch ++ [last])) None); auto.
    - destruct n; reflexivity.
    - cbn [e_top e]. rewrite XE. subst e. destruct kb; [|reflexivity].
      set (e := Edge (lo R) (hi R) (sx R) (-1) cb cb2 None None (Some 1) (hid R) 0).
      refine (extend_at (half true q L (to_x R (vx (hi R))) up down (ch ++ [last])) 1 (set_ex (vx (hi R)) e) 1 _ 0 _ g (v_pt v) eq_refl eq_refl eq_refl eq_refl _ DG eq_refl eq_refl).
      unfold get_seg. unfold at_ at 1. cbn [verts half e_vtop set_ex e]. rewrite W. cbn [of_opt bind].
      change (edge_up _) with true. cbn match. rewrite P. cbn [deref of_opt bind]. unfold at_. rewrite V. cbn. now rewrite SG.
    - now apply (max_at _ _ w).
    - destruct kb; reflexivity.
  Qed.
  Lemma run_out kb n fuel q L R up down ch y y' : n_eqb (bx L) (bx R) = true -> n > 0 -> q = [] ->
    exists s, (do s <- close_output n (full kb q L R up down ch) y ;; do s <- resort_ael s ;; sweep n (S fuel) s y') = Ok s /\
      polys s = the_poly kb up down true /\ verts s = vs.
  Proof.
    intros XE Hn ->. destruct n as [|n]; [lia|].
    set (E := [Edge (lo L) (hi L) (sx L) 1 ca ca2 None (Some 1) None (hid L) 0; Edge (lo R) (hi R) (sx R) (-1) cb cb2 None None None (hid R) 0]).
    assert (C : exists bs, close_output (S n) (full kb [] L R up down ch) y =
      Ok (Clipper vs [Lmin b pt] [0] 1 sts brs [] E None bs None ch (the_poly kb up down true) op fill)).
    { destruct kb; [|exists []; reflexivity]. eexists. cbn. rewrite XE. unfold join_output. cbn. rewrite ?XE. cbn. reflexivity. }
    destruct C as [bs ->]. cbn [bind]. unfold resort_ael. cbn [ael w_changes changes]. set (c := tidy_changes _).
    assert (TC : forall k, take_changed k (Clipper vs [Lmin b pt] [0] 1 sts brs [] E None bs None c (the_poly kb up down true) op fill) c None [] =
      Ok (Clipper vs [Lmin b pt] [0] 1 sts brs [] E None bs None c (the_poly kb up down true) op fill, [])).
    { intros k. destruct k, c; reflexivity. }
    cbn [w_changes]. rewrite TC. cbn [bind insert_all].
    cbn [sweep]. unfold scan_at, insert_local_minima_to_ael. cbn [cur minima skipn insert_minima bind]. unfold recalc_windcnt. cbn [changes w_changes ael].
    assert (RC : forall l s, ael s = None -> recalc_all s l None = Ok s).
    { induction l as [|z l IH]; intros s A; [reflexivity|]. cbn [recalc_all]. destruct (length (edges s)); cbn; now apply IH. }
    cbn [w_changes]. rewrite RC by reflexivity. cbn [bind]. unfold update_output_bound. cbn [changes].
    destruct (tidy_changes c).
    - cbn. eexists. split; [reflexivity|]. split; reflexivity.
    - cbn. eexists. split; [reflexivity|]. split; reflexivity.
  Qed.

  (** *** The beams in between *)
  Definition after (n fuel : nat) (s : clipper T) (y : T) : outcome (clipper T) :=
    match pop_scanline s y with (None, s) => Ok s | (Some y', s) => do s <- beam n s y' ;; sweep n fuel s y' end.
  Lemma scan_idle kb n q L R up down y : scan_at n (st kb q L R up down []) y = Ok (st kb q L R up down []).
  Proof. reflexivity. Qed.
  Lemma idle kb n q L R up down y : n > 0 -> n_eqb (bx L) (bx R) = false ->
    (do s <- close_output n (st kb q L R up down []) y ;; resort_ael s) = Ok (st kb q L R up down []).
  Proof. intros Hn E. destruct n; [lia|]. destruct kb; [|reflexivity]. unfold close_output. cbn. rewrite E. reflexivity. Qed.
  Lemma top_pass kb q L R up down ch y : do_top_of_scanbeam (st kb q L R up down ch) y = top_loop 2 (st kb q L R up down []) y (n_neg n_huge) (Some 0).
  Proof. reflexivity. Qed.

  (** The queue holds the tops of both edges. *)
  Definition queue (q : list T) (h h' : T) : Prop := (q = [h; h'] /\ n_ltb h' h = false) \/ (q = [h'; h] /\ n_ltb h h' = false).
  Lemma queue_insert h h' : nvalid h -> nvalid h' -> queue (insert_by n_ltb h [h']) h h' /\ queue (insert_by n_ltb h' [h]) h h'.
  Proof.
    intros A B. assert (AS : forall a c, nvalid a -> nvalid c -> n_ltb a c = true -> n_ltb c a = false).
    { intros a c VA VC L. destruct (n_ltb c a) eqn:E; auto. pose proof (nlt_trans a c a VA VC VA L E) as X. now rewrite nlt_irrefl in X. }
    split; cbn; unfold queue.
    - destruct (n_ltb h h') eqn:E; auto.
    - destruct (n_ltb h' h) eqn:E; auto.
  Qed.
  (** The next height [y'] and the edges that end there *)
  Lemma pop_queue kb q h h' y L R up down ch : nvalid h -> nvalid h' -> nvalid y -> n_ltb y h = true -> n_ltb y h' = true -> queue q h h' ->
    exists y', (y' = h \/ y' = h') /\ n_ltb h y' = false /\ n_ltb h' y' = false /\ n_ltb y y' = true /\ (n_eqb h y' = true \/ n_eqb h' y' = true) /\
      pop_scanline (st kb q L R up down ch) y = (Some y', st kb ((if n_eqb h y' then [] else [h]) ++ (if n_eqb h' y' then [] else [h'])) L R up down ch).
  Proof.
    intros VH VH' Vy LT LT' Q.
    destruct (lt_neq y h Vy VH LT) as [_ N1]. destruct (lt_neq y h' Vy VH' LT') as [_ N2].
    destruct Q as [[-> Q]|[-> Q]].
    - exists h. rewrite (eq_refl_v h VH). repeat (split; [auto using nlt_irrefl|]). unfold pop_scanline. cbn. rewrite N1. cbn. destruct (n_eqb h' h); reflexivity.
    - exists h'. rewrite (eq_refl_v h' VH'). repeat (split; [auto using nlt_irrefl|]). unfold pop_scanline. cbn. rewrite N2. cbn. destruct (n_eqb h h'); reflexivity.
  Qed.
  Lemma last_cons (l : list nat) i j : last (j :: l) i = last l j.
  Proof. revert i j. induction l as [|k l IH]; intros i j; [reflexivity|]. change (last (j :: k :: l) i) with (last (k :: l) i). now rewrite !IH. Qed.
  Lemma rises_last fwd i l gs : rises vs fwd i l gs -> is_top vs (last l i) true.
  Proof.
    revert i gs. induction l as [|j l IH]; intros i gs H; destruct gs as [|g gs]; try contradiction; [exact H|].
    rewrite last_cons. cbn [rises] in H. destruct H as (_ & _ & H). eauto.
  Qed.
  Lemma rises_up fwd i l gs : rises vs fwd i l gs -> l <> [] -> n_ltb (height i) (height (last l i)) = true.
  Proof.
    revert i gs. induction l as [|j l IH]; intros i gs H NE; [congruence|]. destruct gs as [|g gs]; [contradiction|].
    rewrite last_cons. cbn [rises] in H. destruct H as (_ & GU & H). destruct GU as (LK & _ & LT).
    destruct l as [|k l]; [exact LT|].
    assert (W : n_ltb (height j) (height (last (k :: l) j)) = true) by (apply (IH j gs H); discriminate).
    assert (VI : nvalid (height i)) by (destruct fwd; destruct LK as (a & c & A & C & _); eapply height_valid; eauto).
    assert (VJ : nvalid (height j)) by (destruct fwd; destruct LK as (a & c & A & C & _); eapply height_valid; eauto).
    destruct (rises_last _ _ _ _ H) as (t & TT & _).
    refine (nlt_trans _ _ _ VI VJ _ LT W). eapply height_valid; eauto.
  Qed.

  Lemma lt_back a c : nvalid a -> nvalid c -> n_ltb a c = true -> n_ltb c a = false.
  Proof. intros VA VC L. destruct (n_ltb c a) eqn:E; auto. pose proof (nlt_trans a c a VA VC VA L E) as X. now rewrite nlt_irrefl in X. Qed.
  Lemma eq_back a c : nvalid a -> nvalid c -> n_eqb a c = true -> n_ltb c a = false.
  Proof. intros VA VC E. destruct (n_ltb c a) eqn:X; auto. pose proof (lt_neq c a VC VA X) as [_ Z]. congruence. Qed.
  Lemma le_ne c a : nvalid a -> nvalid c -> n_ltb a c = false -> n_eqb a c = false -> n_ltb c a = true.
  Proof. intros VA VC L E. assert (Z : nle c a) by (now apply nle_not_lt). destruct (nle_cases _ _ VC VA Z) as [|Z']; auto. rewrite neq_sym in Z'. congruence. Qed.
  Lemma eq_lt a c d : nvalid a -> nvalid c -> nvalid d -> n_eqb c a = true -> n_ltb c d = true -> n_ltb a d = true.
  Proof. intros VA VC VD E L. apply (neq_lt_trans a c d); auto. now rewrite neq_sym. Qed.

  Variables (ls0 rs0 : list nat).
  Hypothesis AP : apart vs b ls0 rs0.
  Lemma climb_all kb n : n > 0 -> forall k ls rs fuel i j i' j' L R g g' gl gr q up down y pl pr, length ls + length rs <= k -> k < fuel ->
    on i j L -> link vs j i g -> drawable g -> rises vs false j ls gl -> b :: ls0 = pl ++ i :: j :: ls ->
    on i' j' R -> link vs i' j' g' -> drawable g' -> rises vs true j' rs gr -> b :: rs0 = pr ++ i' :: j' :: rs ->
    last ls j = last rs j' ->
    nvalid y -> n_ltb y (height i) = false -> n_ltb y (height i') = false -> n_ltb y (height j) = true -> n_ltb y (height j') = true ->
    queue q (height j) (height j') ->
    exists s, after n fuel (st kb q L R up down []) y = Ok s /\ polys s = the_poly kb (up ++ g' :: gr) (down ++ g :: gl) true /\ verts s = vs.
  Proof.
    intros Hn. induction k as [k IH] using lt_wf_ind. intros ls rs fuel i j i' j' L R g g' gl gr q up down y pl pr Hk Hf ONL LKL DL RL PL ONR LKR DR RR PR TOP Vy YI YI' YJ YJ' Q.
    assert (VI : nvalid (height i)) by (destruct ONL as (v & w & V & _); eapply height_valid; eauto).
    assert (VJ : nvalid (height j)) by (destruct ONL as (v & w & _ & V & _); eapply height_valid; eauto).
    assert (VI' : nvalid (height i')) by (destruct ONR as (v & w & V & _); eapply height_valid; eauto).
    assert (VJ' : nvalid (height j')) by (destruct ONR as (v & w & _ & V & _); eapply height_valid; eauto).
    destruct (pop_queue kb q (height j) (height j') y L R up down [] VJ VJ' Vy YJ YJ' Q) as (y' & Y' & H1 & H2 & LTy & TOPS & POP).
    assert (Vy' : nvalid y') by (destruct Y'; subst y'; auto).
    assert (LI : n_ltb (height i) y' = true).
    { apply (nle_lt_trans _ y _ VI Vy Vy'); auto. apply nle_not_lt; auto. }
    assert (LI' : n_ltb (height i') y' = true).
    { apply (nle_lt_trans _ y _ VI' Vy Vy'); auto. apply nle_not_lt; auto. }
    unfold after. rewrite POP. unfold beam. rewrite top_pass.
    destruct ls as [|jl ls]; destruct gl as [|g2 gl]; try contradiction.
    - destruct rs as [|jr rs]; destruct gr as [|g2' gr]; try contradiction.
      + (* both end *)
        cbn [last] in TOP. subst j'.
        assert (E : n_eqb (height j) y' = true) by (destruct TOPS; auto). rewrite E in *. cbn [app].
        rewrite (left_top kb 1 [] L R up down [] y' (n_neg n_huge) i j g ONL LKL DL E RL).
        assert (HE : hi L = hi R).
        { destruct ONL as (v & w & _ & W & _ & -> & _). destruct ONR as (v' & w' & _ & W' & _ & -> & _). rewrite W in W'. now injection W' as <-. }
        assert (VXR : nvalid (vx (hi R))).
        { destruct ONR as (v' & w' & _ & W' & _ & -> & _). apply VX. eapply nth_error_In; eauto. }
        rewrite (right_top kb 0 [] _ R up (down ++ [g]) _ y' (vx (hi L)) i' j g' ONR LKR DR E RR) by (rewrite HE; now apply eq_refl_v).
        cbn [bind]. destruct fuel as [|fuel]; [lia|].
        destruct (run_out kb n fuel [] (at_x L (vx (hi L))) (at_x R (vx (hi R))) (up ++ [g']) (down ++ [g])
          ((if n_eqb (vx (hi L)) (n_neg n_huge) then [] ++ [n_neg n_huge] else []) ++ [vx (hi L)]) y' y') as (s & RUN & PO & VE); auto.
        { cbn [bx at_x]. rewrite HE. now apply eq_refl_v. }
        exists s. split; [|split; auto]. rewrite <- RUN. destruct (close_output _ _ _); reflexivity.
      + (* only the right one goes on *)
        assert (LT : n_ltb (height j') (height j) = true).
        { change j with (last [] j). rewrite TOP. apply (rises_up true j' (jr :: rs) (g2' :: gr) RR). discriminate. }
        cbn [rises] in RR. destruct RR as (NT & GU & RR).
        assert (EJ : n_eqb (height j) y' = false).
        { destruct Y' as [-> | ->]; [rewrite LT in H2; discriminate|]. apply lt_neq; auto. }
        assert (EJ' : n_eqb (height j') y' = true) by (destruct TOPS; congruence).
        destruct (AP i j i' j' y') as (x & x' & XL & XR & NX & NH); auto.
        { now exists pl, []. } { now exists pr, (jr :: rs). }
        rewrite EJ, EJ'. cbn [app].
        rewrite (left_over kb 1 _ L R up down [] y' (n_neg n_huge) i j x ONL EJ XL NH).
        unfold x_on in XR. rewrite EJ' in XR. destruct XR as (vj & VJ1 & ->).
        destruct (right_next kb 0 [height j] (at_x L x) R up down [] y' x i' j' jr g' g2' ONR LKR DR EJ' NT GU) as (R' & ONR' & SX & BX & RUN).
        { intros v E. rewrite VJ1 in E. now injection E as <-. }
        rewrite RUN. cbn [bind].
        assert (VK : nvalid (height jr)) by (destruct ONR' as (v & w & _ & V & _); eapply height_valid; eauto).
        assert (ID := idle kb n (insert_by n_ltb (height jr) [height j]) (at_x L x) R' (up ++ [g']) down y' Hn). cbn [bx at_x] in ID.
        rewrite BX, (SX vj VJ1), neq_sym in ID. specialize (ID NX).
        rewrite ID. cbn [bind]. destruct fuel as [|fuel]; [lia|]. cbn [sweep]. rewrite scan_idle. cbn [bind].
        change (up ++ g' :: g2' :: gr) with (up ++ [g'] ++ g2' :: gr). rewrite app_assoc.
        destruct GU as (LK2 & D2 & LT2).
        apply (IH (length rs) ltac:(cbn in Hk; lia) [] rs fuel i j j' jr (at_x L x) R' g g2' [] gr _ (up ++ [g']) down y' pl (pr ++ [i'])); auto.
        * cbn in Hk. lia.
        * now rewrite <- app_assoc.
        * now rewrite TOP, last_cons.
        * now apply lt_back.
        * now apply eq_back.
        * now apply le_ne.
        * now apply (eq_lt y' (height j')).
        * apply queue_insert; auto.
    - pose proof (rises_up false j (jl :: ls) (g2 :: gl) RL ltac:(discriminate)) as UPL. rewrite TOP in UPL.
      cbn [rises] in RL. destruct RL as (NT & GU & RL). pose proof GU as (LK2 & D2 & LT2).
      destruct (AP i j i' j' y') as (x & x' & XL & XR & NX & NH); auto.
      { now exists pl, (jl :: ls). } { now exists pr, rs. }
      destruct (n_eqb (height j) y') eqn:EJ.
      + unfold x_on in XL. rewrite EJ in XL. destruct XL as (vj & VJ1 & ->).
        assert (NH' : forall v, nth_error vs j = Some v -> n_eqb (vx (v_pt v)) (n_neg n_huge) = false) by (intros v E; rewrite VJ1 in E; now injection E as <-).
        destruct (left_next kb 1 ([] ++ (if n_eqb (height j') y' then [] else [height j'])) L R up down [] y' (n_neg n_huge) i j jl g g2 ONL LKL DL EJ NT GU NH') as (L' & ONL' & SXL & BXL & RUNL).
        rewrite RUNL. rewrite (SXL vj VJ1) in *.
        assert (VK : nvalid (height jl)) by (destruct ONL' as (v & w & _ & V & _); eapply height_valid; eauto).
        destruct (n_eqb (height j') y') eqn:EJ'.
        * (* both *)
          destruct rs as [|jr rs]; destruct gr as [|g2' gr]; try contradiction.
          { cbn [last] in UPL. exfalso. pose proof (eq_lt y' _ _ Vy' VJ VJ' EJ UPL) as Z. apply (lt_neq _ _ Vy' VJ') in Z as [_ Z]. congruence. }
          cbn [rises] in RR. destruct RR as (NT' & GU' & RR). pose proof GU' as (LK2' & D2' & LT2').
          unfold x_on in XR. rewrite EJ' in XR. destruct XR as (vj' & VJ1' & ->).
          destruct (right_next kb 0 (insert_by n_ltb (height jl) ([] ++ [])) L' R up (down ++ [g]) [] y' (vx (v_pt vj)) i' j' jr g' g2' ONR LKR DR EJ' NT' GU') as (R' & ONR' & SX & BX & RUN).
          { intros v E. rewrite VJ1' in E. now injection E as <-. }
          rewrite RUN. cbn [bind app].
          assert (VK' : nvalid (height jr)) by (destruct ONR' as (v & w & _ & V & _); eapply height_valid; eauto).
          assert (ID := idle kb n (insert_by n_ltb (height jr) (insert_by n_ltb (height jl) [])) L' R' (up ++ [g']) (down ++ [g]) y' Hn).
          rewrite BX, BXL, (SX vj' VJ1'), neq_sym in ID. specialize (ID NX).
          rewrite ID. cbn [bind]. destruct fuel as [|fuel]; [lia|]. cbn [sweep]. rewrite scan_idle. cbn [bind].
          change (up ++ g' :: g2' :: gr) with (up ++ [g'] ++ g2' :: gr). change (down ++ g :: g2 :: gl) with (down ++ [g] ++ g2 :: gl). rewrite !app_assoc.
          cbn in Hk.
          apply (IH (length ls + length rs) ltac:(lia) ls rs fuel j jl j' jr L' R' g2 g2' gl gr _ (up ++ [g']) (down ++ [g]) y' (pl ++ [i]) (pr ++ [i'])); auto.
          { lia. } { now rewrite <- app_assoc. } { now rewrite <- app_assoc. } { now rewrite !last_cons in TOP. }
          { now apply eq_back. } { now apply eq_back. } { now apply (eq_lt y' (height j)). } { now apply (eq_lt y' (height j')). }
          cbn [insert_by]. apply queue_insert; auto.
        * (* left *)
          rewrite (right_over kb 0 _ L' R up (down ++ [g]) [] y' (vx (v_pt vj)) i' j' x' g' ONR LKR EJ' XR NX). cbn [bind app].
          assert (ID := idle kb n (insert_by n_ltb (height jl) [height j']) L' (at_x R x') up (down ++ [g]) y' Hn).
          rewrite BXL, neq_sym in ID. specialize (ID NX).
          rewrite ID. cbn [bind]. destruct fuel as [|fuel]; [lia|]. cbn [sweep]. rewrite scan_idle. cbn [bind].
          change (down ++ g :: g2 :: gl) with (down ++ [g] ++ g2 :: gl). rewrite !app_assoc.
          cbn in Hk.
          apply (IH (length ls + length rs) ltac:(lia) ls rs fuel j jl i' j' L' (at_x R x') g2 g' gl gr _ up (down ++ [g]) y' (pl ++ [i]) pr); auto.
          { lia. } { now rewrite <- app_assoc. } { now rewrite !last_cons in TOP. }
          { now apply eq_back. } { now apply lt_back. } { now apply (eq_lt y' (height j)). } { now apply le_ne. }
          apply queue_insert; auto.
      + (* right *)
        assert (EJ' : n_eqb (height j') y' = true) by (destruct TOPS; congruence).
        destruct rs as [|jr rs]; destruct gr as [|g2' gr]; try contradiction.
        { cbn [last] in UPL. exfalso. pose proof (nlt_eq_trans _ _ _ VJ VJ' Vy' UPL EJ') as Z. congruence. }
        cbn [rises] in RR. destruct RR as (NT' & GU' & RR). pose proof GU' as (LK2' & D2' & LT2').
        rewrite EJ'. cbn [app].
        rewrite (left_over kb 1 _ L R up down [] y' (n_neg n_huge) i j x ONL EJ XL NH).
        unfold x_on in XR. rewrite EJ' in XR. destruct XR as (vj' & VJ1' & ->).
        destruct (right_next kb 0 [height j] (at_x L x) R up down [] y' x i' j' jr g' g2' ONR LKR DR EJ' NT' GU') as (R' & ONR' & SX & BX & RUN).
        { intros v E. rewrite VJ1' in E. now injection E as <-. }
        rewrite RUN. cbn [bind].
        assert (VK' : nvalid (height jr)) by (destruct ONR' as (v & w & _ & V & _); eapply height_valid; eauto).
        assert (ID := idle kb n (insert_by n_ltb (height jr) [height j]) (at_x L x) R' (up ++ [g']) down y' Hn). cbn [bx at_x] in ID.
        rewrite BX, (SX vj' VJ1'), neq_sym in ID. specialize (ID NX).
        rewrite ID. cbn [bind]. destruct fuel as [|fuel]; [lia|]. cbn [sweep]. rewrite scan_idle. cbn [bind].
        change (up ++ g' :: g2' :: gr) with (up ++ [g'] ++ g2' :: gr). rewrite app_assoc.
        cbn in Hk.
        apply (IH (S (length ls) + length rs) ltac:(lia) (jl :: ls) rs fuel i j j' jr (at_x L x) R' g g2' (g2 :: gl) gr _ (up ++ [g']) down y' pl (pr ++ [i'])); auto.
        { lia. } { cbn [rises]. auto. } { now rewrite <- app_assoc. } { rewrite TOP. now rewrite last_cons. }
        { now apply lt_back. } { now apply eq_back. } { now apply le_ne. } { now apply (eq_lt y' (height j')). }
        apply queue_insert; auto.
  Qed.
End Sweep.
