(** Which loop of a clipping run may fail to end, and runs that end. *)
From Coq Require Import ZArith Bool List Permutation Sorted Reals Lia.
From Verif Require Import Outcome Num Order Rmath Segment Path VState VPath VBreak VAel VOut VMain VLemmas VFrame ClipSpec AelSpec RingSpec BreakSpec
  VAelProofs VEdges VAelRun VRun VBuild VAdd BreakDrawn VOutProofs ClimbSpec VClimb ClimbPoly ClimbFuel.
Import ListNotations.
Local Open Scope out.

Section None.
  Context {T : Type} {N : Num T}.
  Implicit Types s : clipper T.
  (** Nothing is output so far, and nothing is to be. *)
  Definition idle s := quiet s /\ cop s = op_none.
  Lemma scan_at_idle n s y s' : idle s -> scan_at n s y = Ok s' -> idle s'.
  Proof.
    intros ((A & B) & C) H. pose proof (scan_at_frame _ _ _ _ H) as F. unfold scan_at in H. apply bind_ok in H as (s1 & F1 & H). apply bind_ok in H as (s2 & F2 & H).
    apply insert_local_minima_frame in F1 as [G1 G2]. apply recalc_windcnt_frame in F2 as (K1 & K2 & K3 & _). unfold VFrame.fin, fout in *.
    split; [|congruence]. eapply update_none; [| |exact H]; [congruence|split; congruence].
  Qed.
  Lemma beam_idle n s y s' : idle s -> beam n s y = Ok s' -> idle s'.
  Proof.
    intros ((A & B) & C) H. unfold beam in H. apply bind_ok in H as (s1 & F1 & H). apply bind_ok in H as (s2 & F2 & H).
    apply do_top_frame in F1 as (G1 & G2 & _ & G3). unfold close_output in F2. rewrite G2, B in F2. injection F2 as <-.
    apply resort_ael_frame in H as (K1 & K2 & K3 & _). unfold idle, quiet, VFrame.fin in *. csplit; try congruence. rewrite K2.
    rewrite A in G3. destruct (polys s1); [auto|discriminate].
  Qed.
  Lemma pop_idle s y p s' : idle s -> pop_scanline s y = (p, s') -> idle s'.
  Proof. intros ((A & B) & C) H. apply pop_scanline_frame in H as (K1 & K2 & _). unfold idle, quiet, VFrame.fin, fout in *. csplit; congruence. Qed.
  Lemma visits_idle en n s0 fill ys s : polys s0 = [] -> visits en n s0 op_none fill ys s -> idle s.
  Proof.
    intros P. induction 1 as [s1' s2 s3 y P1 P2 P3|y ys s s2 s3 s4 y' H IH P1 P2 P3].
    - eapply pop_idle; [|eassumption]. apply process_intersect_quiet in P1 as (G1 & G2 & G3). unfold reset in P2.
      apply bind_ok in P2 as (t & F & P2). injection P2 as <-. apply push_minima_quiet in F as (K1 & K2 & K3). cbn in *.
      split; [split|]; cbn; congruence.
    - eapply beam_idle; [|eassumption]. eapply pop_idle; [|eassumption]. eapply scan_at_idle; eauto.
  Qed.
  Lemma not_stuck en n s0 fill : polys s0 = [] -> ~ stuck en n (s0 : clipper T) op_none fill.
  Proof.
    intros P (y & ys & s & V & [(s1 & s2 & more & F1 & F2 & F3 & F4)|(s1 & y' & s2 & s3 & F1 & F2 & F3 & F4)]); apply visits_idle in V; auto.
    - destruct V as ((_ & A) & _). apply insert_local_minima_frame in F1 as [_ G2]. apply recalc_windcnt_frame in F2 as (_ & _ & K3 & _).
      assert (E : obl s2 = None) by (unfold fout in *; congruence). rewrite E in F4. inversion F4.
    - pose proof (scan_at_idle _ _ _ _ V F1) as I1. destruct (pop_idle _ _ _ _ I1 F2) as ((_ & A) & _). apply do_top_frame in F3 as (_ & G & _).
      unfold close_output in F4. rewrite G, A in F4. discriminate.
  Qed.

  (** *** The operation does not matter for the breaking *)
  Definition omap {A B} (f : A -> B) (o : outcome A) : outcome B := do x <- o ;; Ok (f x).
  Section Op.
    Variables (op : clip_type) (fill : fill_rule).
    Notation W := (fun s => w_op s op fill).
    Lemma vmod_op s i f : vmod (W s) i f = omap W (vmod s i f).
    Proof. unfold vmod. cbn. destruct (at_ (verts s) i); reflexivity. Qed.
    Lemma set_segment_op s p m g : set_segment (W s) p m g = omap W (set_segment s p m g).
    Proof.
      unfold set_segment. destruct (deref p); try reflexivity. cbn [bind]. rewrite vmod_op. destruct (vmod s _ _); try reflexivity. cbn [bind omap].
      apply vmod_op.
    Qed.
    Lemma chain_op gs : forall s c, chain (W s) c gs = omap (fun x => (W (fst x), snd x)) (chain s c gs).
    Proof.
      induction gs as [|g gs IH]; intros s c; [reflexivity|]. cbn [chain].
      destruct (new_vertex s) as [k t] eqn:E. assert (EW : new_vertex (W s) = (k, W t)) by (unfold new_vertex in *; injection E as <- <-; reflexivity).
      rewrite EW, set_segment_op. destruct (set_segment t (Some c) k g); try reflexivity. cbn [bind omap]. apply IH.
    Qed.
    Lemma relink_op s st gs l : relink (W s) st gs l = omap W (relink s st gs l).
    Proof.
      unfold relink. cbn [verts w_op]. destruct (at_ (verts s) st) as [x| | |]; try reflexivity. cbn [bind]. destruct (deref (v_next x)) as [e| | |]; try reflexivity. cbn [bind].
      rewrite chain_op. destruct (chain s st gs) as [[t c]| | |]; try reflexivity. cbn [bind omap fst snd verts w_op]. destruct (at_ (verts t) e); try reflexivity. cbn [bind].
      rewrite set_segment_op. destruct (set_segment t _ _ _); try reflexivity. cbn [bind omap]. apply vmod_op.
    Qed.
    Lemma break_vertex_op s st bs : break_vertex (W s) st bs = omap W (break_vertex s st bs).
    Proof.
      unfold break_vertex. cbn [verts w_op]. destruct (at_ (verts s) st) as [x| | |]; try reflexivity. cbn [bind]. destruct (of_opt NullDeref (v_seg x)) as [g| | |]; try reflexivity. cbn [bind].
      destruct g; try reflexivity; [apply relink_op|]. cbn zeta. destruct (cubic_pieces _ _) as [[gs l]| | |]; try reflexivity. cbn [bind]. apply relink_op.
    Qed.
    Lemma break_all_op fuel : forall s l, break_all fuel (W s) l = omap W (break_all fuel s l).
    Proof.
      induction fuel as [|fuel IH]; intros s [|b l]; try reflexivity. cbn [break_all]. destruct (take_run (br_vert b) (b :: l)) as [run rest].
      rewrite break_vertex_op. destruct (break_vertex s _ _); try reflexivity. cbn [bind omap]. apply IH.
    Qed.
    Lemma process_intersect_op en s s' : process_intersect en s = Ok s' -> process_intersect en (W s) = Ok (W s').
    Proof.
      unfold process_intersect. cbn [verts starts w_op]. destruct (find_breaks en (verts s) (starts s)) as [l| | |]; try discriminate. cbn [bind]. cbn zeta. intros H.
      pose proof (break_all_op (length (tidy_breaks en l)) (w_breaks s (tidy_breaks en l)) (tidy_breaks en l)) as K. rewrite H in K. exact K.
    Qed.
  End Op.
  Lemma drawn_fresh (ps : paths) s : drawable_paths ps -> add_all clipper0 ps = Ok s -> edges s = [] /\ scans s = [] /\ polys s = [].
  Proof.
    intros D E. destruct (add_all_built ps clipper0 [] [] D (built_nil _)) as (s' & cs & E' & B). rewrite E in E'. injection E' as <-.
    destruct B as ((G & _) & _). rewrite G. auto.
  Qed.
End None.

(** *** Statements *)
Section Ends.
  Context {T : Type} {N : Num T} {O : OrdNum T}.
  Lemma valleys_end en (s s1 : clipper T) : process_intersect en s = Ok s1 -> edges s1 = [] -> scans s1 = [] -> polys s = [] ->
    Forall (fun v => nvalid (vy (v_pt v))) (verts s1) -> all_valleys s1 -> bounded_sweep en s (length (verts s1)).
  Proof.
    intros PI E Q P V A op fill n.
    assert (PO : forall op, process_intersect en (w_op s op fill) = Ok (w_op s1 op fill)) by (intros; now apply process_intersect_op).
    assert (VV : vs_valid (verts s1)) by (intros v Hv; rewrite Forall_forall in V; auto).
    csplit.
    - intros ys s' H. destruct (scanlines_lemma en n s op fill (w_op s1 op fill) ys s') as (K1 & _ & K2); auto.
    - intros L H. apply (process_stuck en n s op fill (w_op s1 op fill)); auto.
    - intros L H. apply (process_stuck en n s op_none fill (w_op s1 op_none fill)) in H; auto. exact (not_stuck en n s fill P H).
  Qed.
  Lemma apart_end en (ps : paths) (s : clipper T) : drawable_paths ps -> add_all clipper0 ps = Ok s ->
    Forall (fun v => nvalid (vy (v_pt v))) (verts s) -> find_breaks en (verts s) (starts s) = Ok [] -> bounded_sweep en s (length (verts s)).
  Proof.
    intros D E V F. destruct (drawn_fresh ps s D E) as (F1 & F2 & F3). destruct (apart_valleys en ps s D E V F) as [PI A].
    exact (valleys_end en s _ PI F1 F2 F3 V A).
  Qed.
End Ends.
Lemma polygons_end en (ps : list (path_type * list (list (outline (T := R))))) (s : clipper R) :
  (forall l, Permutation (en_order en l) l) -> (forall i j, en_addr en i = en_addr en j -> i = j) ->
  Forall polygon (all_outlines ps) -> add_all clipper0 ps = Ok s ->
  exists s1, process_intersect en s = Ok s1 /\ bounded_sweep en s (length (verts s1)).
Proof.
  intros PO AI P E. assert (D : drawable_paths ps) by (eapply Forall_impl; [|exact P]; intros o; apply polygon_drawing).
  destruct (drawn_fresh ps s D E) as (F1 & F2 & F3). destruct (polygon_valleys en ps s PO AI P E) as (bs & vs & PI & A).
  eexists. split; [exact PI|]. apply valleys_end; auto. apply Forall_forall. intros; exact I.
Qed.
