(** Runs of the clipper: which accesses can go wrong. *)
From Coq Require Import ZArith Bool List Lia Permutation Reals.
From Verif Require Import Outcome Num Order Rmath Segment CurveR ScanLine VState VPath VBreak VAel VOut VMain VLemmas VFrame AelSpec RingSpec PathSpec BreakSpec
  VAelProofs VEdges VAelRun VRun VOutProofs SortProofs VBuild VAdd VBroken BreakStatements BreakDrawn ClimbPoly ClimbSpec ClimbFuel VSolid VSafe ClimbNone.
Import ListNotations.
Local Open Scope out.

(** *** The main loop *)
Section Loop.
  Context {T : Type} {N : Num T}.
  Implicit Types s : clipper T.
  Variable vs : list (vertex T).
  Variable C : nat -> Prop.
  Hypothesis HC : forall i, C i -> whole_at vs C i.
  Notation solid := (solid vs C).
  Notation onto := (onto vs C).
  Variable E : ub -> Prop.
  (** Either these two kinds of failure are allowed, or nothing is output. *)
  Definition fine s : Prop := (E NullDeref /\ E EndDeref) \/ idle s.
  Lemma update_idle_post n s y : solid s -> idle s -> post E (onto s) (update_output_bound n s y).
  Proof.
    intros H ((Hp & Ho) & Hop). unfold update_output_bound. destruct (changes s); [now apply onto_refl|]. cbn zeta. pose proof (changes_post vs C s [] H) as O0.
    eapply post_bind; [eapply collect_post; [exact HC|apply O0|apply (so_ael _ _ s H)|constructor]|]. intros be F _.
    apply collect_none in F; auto. subst be. cbn [rev open_pairs bind sbl_edges]. cbn [obl w_changes length app]. rewrite Ho.
    assert (X : sbl_bounds n (w_changes s []) None 0 = Ok []) by (destruct n; reflexivity). rewrite X. cbn. eapply onto_trans; [exact O0|].
    apply obl_post; [apply O0|exact I].
  Qed.
  Lemma scan_at_post n s y : solid s -> has_list s -> fine s -> post E (onto s) (scan_at n s y).
  Proof.
    intros H [l HA] FI. unfold scan_at. eapply post_bind; [eapply insert_local_post; eauto|]. intros s1 F1 O1.
    destruct (insert_minima_ok _ _ _ _ _ HA F1) as (l' & x & _ & A1 & _).
    eapply post_bind; [eapply recalc_windcnt_post; [apply O1|exact A1]|]. intros s2 F2 O2. pose proof (onto_trans _ _ _ _ _ O1 O2) as O12.
    eapply post_weak with (P := onto s2); [|intros s3 _ O3; exact (onto_trans _ _ _ _ _ O12 O3)]. destruct FI as [[EN EE]|ID].
    - apply update_output_bound_post; auto. apply O2.
    - apply update_idle_post; [apply O2|]. destruct ID as ((A & B) & D). apply insert_local_minima_frame in F1 as [G1 G2].
      apply recalc_windcnt_frame in F2 as (K1 & K2 & K3 & _). unfold VFrame.fin, fout in *. split; [split|]; congruence.
  Qed.
  Lemma beam_post n s y : solid s -> fine s -> post E (onto s) (beam n s y).
  Proof.
    intros H FI. unfold beam. eapply post_bind; [eapply do_top_post; eauto|]. intros s1 F1 O1.
    eapply post_bind with (P := onto s1).
    - destruct FI as [[EN EE]|((A & B) & D)]; [apply close_output_post; auto; apply O1|].
      apply do_top_frame in F1 as (_ & G & _). unfold close_output. rewrite G, B. now apply onto_refl, O1.
    - intros s2 _ O2. pose proof (onto_trans _ _ _ _ _ O1 O2) as O12. eapply post_weak; [eapply resort_ael_post; [exact HC|apply O2]|].
      intros s3 _ O3. exact (onto_trans _ _ _ _ _ O12 O3).
  Qed.
  Lemma pop_solid s y p s' : solid s -> pop_scanline s y = (p, s') -> solid s'.
  Proof.
    intros H P. unfold pop_scanline in P. destruct (drop_eq y (scans s)); injection P as <- <-; now apply scans_post.
  Qed.
  Lemma sweep_post n fuel : forall s y, solid s -> has_list s -> fine s -> post E solid (sweep n fuel s y).
  Proof.
    induction fuel as [|fuel IH]; intros s y H L F; cbn [sweep]; [exact I|].
    eapply post_bind; [apply scan_at_post; auto|]. intros s1 F1 O1. pose proof (scan_at_list _ _ _ _ L F1) as L1.
    assert (I1 : fine s1) by (destruct F as [F|F]; [now left|right; eapply scan_at_idle; eauto]).
    destruct (pop_scanline s1 y) as [[y'|] s2] eqn:P; [|eapply pop_solid; [apply O1|exact P]].
    pose proof (pop_solid _ _ _ _ (proj1 O1) P) as S2. pose proof (pop_scanline_list _ _ _ _ L1 P) as L2.
    assert (I2 : fine s2) by (destruct I1 as [F2|F2]; [now left|right; eapply pop_idle; eauto]).
    eapply post_bind; [apply beam_post; auto|]. intros s3 F3 O3. apply IH; [apply O3|eapply beam_list; eauto|].
    destruct I2 as [F4|F4]; [now left|right; eapply beam_idle; eauto].
  Qed.
  Lemma push_minima_post l : forall s, solid s -> Forall (fun m => m < length (lmins s)) l -> post E solid (push_minima s l).
  Proof.
    induction l as [|m l IH]; intros s H F; cbn [push_minima]; [exact H|]. apply Forall_cons_iff in F as [Fm F].
    eapply post_bind; [apply post_at with (Q := fun l => C (lm_vert l)); auto|].
    { intros x K. exact (forall_nth _ _ _ _ (so_lmins _ _ s H) K). }
    intros x _ Hx. eapply post_bind; [eapply at_vert; eauto|]. intros v _ _. apply IH; [now apply scan_post|exact F].
  Qed.
  Lemma reset_post s : solid s -> post E solid (reset s).
  Proof.
    intros H. unfold reset. cbn zeta.
    assert (F : Forall (fun m => m < length (lmins s)) (sort_by (min_ltb s) (minima s))) by (eapply Permutation_Forall; [apply sort_by_perm|apply (so_minima _ _ s H)]).
    eapply post_bind; [apply push_minima_post|].
    - destruct H. constructor; auto.
    - apply Forall_rev. exact F.
    - intros s1 _ H1. cbn. destruct H1. constructor; cbn; auto.
  Qed.
  Lemma process_post en n s s1 op fill : process_intersect en (w_op s op fill) = Ok s1 -> solid s1 ->
    (E NullDeref /\ E EndDeref) \/ (op = op_none /\ polys s = []) -> post E (fun _ => True) (process en n s op fill).
  Proof.
    intros PI H FI. unfold process. rewrite PI. cbn [bind]. eapply post_bind; [apply reset_post; auto|]. intros s2 F2 H2.
    pose proof (reset_list _ _ F2) as L2. destruct (pop_scanline s2 (n_neg n_huge)) as [[y|] s3] eqn:P; [|exact I].
    eapply post_bind; [apply sweep_post; [eapply pop_solid; eauto|eapply pop_scanline_list; eauto|]|intros; exact I].
    destruct FI as [FI|[-> FP]]; [now left|right]. eapply pop_idle; [|exact P].
    apply process_intersect_quiet in PI as (G1 & G2 & G3). unfold reset in F2.
    apply bind_ok in F2 as (u & F & F2). injection F2 as <-. apply push_minima_quiet in F as (K1 & K2 & K3). cbn in *. split; [split|]; cbn; congruence.
  Qed.
End Loop.

(** *** Finding the breaks *)
Section Find.
  Context {T : Type} {N : Num T}.
  Definition points_in (n : nat) (ps : list (scan_point T)) : Prop := Forall (fun p => Forall (fun i => i < n) (sp_in p)) ps.
  Lemma at_point_in n x f ps : (forall p, Forall (fun i => i < n) (sp_in p) -> Forall (fun i => i < n) (sp_in (f p))) ->
    points_in n ps -> points_in n (at_point x f ps).
  Proof.
    intros Hf H. assert (H0 : Forall (fun i => i < n) (sp_in (f (SP x [] [])))) by (apply Hf; constructor).
    induction H as [|p ps Hp H IH]; cbn [at_point]; [repeat constructor; auto|].
    destruct (n_ltb x (sp_x p)); [constructor; auto; constructor; auto|]. destruct (n_ltb (sp_x p) x); constructor; auto.
  Qed.
  Lemma scan_of_in (bs : list (rect T)) : points_in (length bs) (sl_points (scan_of bs)) /\ sl_boxes (scan_of bs) = bs.
  Proof.
    unfold scan_of. assert (K : forall bs s, points_in (length (sl_boxes s)) (sl_points s) ->
      let s' := fold_left add_segment bs s in points_in (length (sl_boxes s')) (sl_points s') /\ sl_boxes s' = sl_boxes s ++ bs).
    { clear bs. induction bs as [|b bs IH]; intros s H; cbn [fold_left]; [rewrite app_nil_r; auto|].
      destruct (IH (add_segment s b)) as [A B].
      - unfold add_segment. cbn. rewrite app_length. cbn. apply at_point_in; [auto|]. apply at_point_in.
        + intros p Hp. cbn. apply Forall_app. split; auto. repeat constructor. lia.
        + eapply Forall_impl; [|exact H]. intros p Hp. eapply Forall_impl; [|exact Hp]. cbn. lia.
      - cbn zeta in *. split; auto. rewrite B. cbn. now rewrite <- app_assoc. }
    destruct (K bs sl_empty) as [A B]; [constructor|]. cbn zeta in *. rewrite B in A. split; auto.
  Qed.
  Section Order.
    Variable order : list nat -> list nat.
    Hypothesis order_in : forall l x, In x (order l) -> In x l.
    Variable boxes : list (rect T).
    Lemma do_in_in n ins : forall cur, Forall (fun i => i < n) ins -> Forall (fun i => i < n) cur ->
      Forall (fun p => fst p < n /\ snd p < n) (fst (do_in order boxes ins cur)) /\ Forall (fun i => i < n) (snd (do_in order boxes ins cur)).
    Proof.
      induction ins as [|i r IH]; intros cur F G; cbn [do_in]; [cbn; auto|]. apply Forall_cons_iff in F as [Fi F].
      assert (G' : Forall (fun i => i < n) (set_insert i cur)) by (unfold set_insert; destruct (mem i cur); auto).
      destruct (IH _ F G') as [A B]. destruct (do_in order boxes r (set_insert i cur)) as [out' cur'] eqn:Q. cbn [fst snd] in *. split; auto.
      apply Forall_app. split; auto. apply Forall_forall. intros p Hp. apply in_map_iff in Hp as (c & <- & Hc). apply filter_In in Hc as [Hc _].
      apply order_in in Hc. rewrite Forall_forall in G. cbn. auto.
    Qed.
    Lemma do_out_in n outs : forall cur, Forall (fun i => i < n) cur -> Forall (fun i => i < n) (do_out outs cur).
    Proof.
      unfold do_out. induction outs as [|o r IH]; intros cur G; cbn [fold_left]; auto. apply IH. unfold set_erase.
      apply Forall_forall. intros x Hx. apply filter_In in Hx as [Hx _]. rewrite Forall_forall in G. auto.
    Qed.
    Lemma do_points_in n ps : forall cur, points_in n ps -> Forall (fun i => i < n) cur -> Forall (fun p => fst p < n /\ snd p < n) (do_points order boxes ps cur).
    Proof.
      induction ps as [|p r IH]; intros cur F G; cbn [do_points]; [constructor|]. apply Forall_cons_iff in F as [Fp F].
      destruct (do_in_in n (sp_in p) cur Fp G) as [A B]. destruct (do_in order boxes (sp_in p) cur) as [out c']. cbn [fst snd] in *.
      apply Forall_app. split; auto. apply IH; auto. now apply do_out_in.
    Qed.
  End Order.
  Lemma scan_pairs_in order (bs : list (rect T)) : (forall l x, In x (order l) -> In x l) ->
    Forall (fun p => fst p < length bs /\ snd p < length bs) (scan_process order (scan_of bs)).
  Proof.
    intros H. destruct (scan_of_in bs) as [A B]. unfold scan_process. apply do_points_in; auto.
  Qed.

  (** Only an array of results that is too short can fail here. *)
  Definition short (k : ub) : Prop := k = OobWrite.
  Lemma push_if_post {A} b n (l : list A) x : post short (fun _ => True) (push_if b n l x).
  Proof. unfold push_if, push_res. destruct b; [|exact I]. destruct (Nat.ltb _ _); cbn; auto. reflexivity. Qed.
  Lemma intersect_lines_post p0 p1 p2 p3 : post short (fun _ => True) (intersect_lines p0 p1 p2 p3).
  Proof.
    unfold intersect_lines. cbn zeta. destruct (_ || _).
    - destruct (n_eqb _ _); [|exact I]. do 3 (eapply post_bind; [apply push_if_post|]; intros ? _ _). apply push_if_post.
    - destruct (_ && _); exact I.
  Qed.
  Lemma line_cubic_post p0 p1 (z : bezier T) : post short (fun _ => True) (intersect_line_cubic p0 p1 z).
  Proof.
    unfold intersect_line_cubic. destruct (general_from p0 p1) as [[A B] D]. cbn zeta.
    generalize (resolv_cubic_equa (n_add (n_mul A (vx (coef3 z))) (n_mul B (vy (coef3 z)))) (n_add (n_mul A (vx (coef2 z))) (n_mul B (vy (coef2 z))))
      (n_add (n_mul A (vx (coef1 z))) (n_mul B (vy (coef1 z)))) (n_add (n_add (n_mul A (vx (b0 z))) (n_mul B (vy (b0 z)))) D)) as ts.
    assert (K : post short (fun _ : list (isect T) => True) (Ok [])) by exact I. revert K. generalize (Ok (@nil (isect T))) as o.
    intros o K ts. revert o K. induction ts as [|t ts IH]; intros o K; cbn [fold_left]; [exact K|]. apply IH.
    eapply post_bind; [exact K|]. intros r _ _. destruct (_ && _); [apply push_if_post|exact I].
  Qed.
  Lemma cubics_post fuel (z1 z2 : bezier T) p : post short (fun _ => True) (intersect_cubics fuel z1 z2 p).
  Proof.
    unfold intersect_cubics. cbn zeta. destruct (negb _); [exact I|]. eapply post_bind with (P := fun _ => True); [|intros; exact I].
    generalize [(Cell z1 (rough_rect z1) (n_ofZ 0) (n_ofZ 1) 0, Cell z2 (rough_rect z2) (n_ofZ 0) (n_ofZ 1) 0)] as l. generalize (@nil (cpair (T := T))) as out.
    induction fuel as [|fuel IH]; intros out [|b l]; cbn [cc_loop]; try exact I. match goal with |- context [let '(_, _) := ?x in _] => destruct x end. apply IH.
  Qed.
  Variable vs : list (vertex T).
  Variable D : list nat.
  Hypothesis HD : forall i, In i D -> exists v g, nth_error vs i = Some v /\ v_seg v = Some g /\ drawable g.
  Lemma seg_intersect_post en a b : In a D -> In b D -> post short (fun _ => True) (seg_intersect en vs a b).
  Proof.
    intros A B. destruct (HD a A) as (v & g & Hv & Hg & Dg). destruct (HD b B) as (w & h & Hw & Hh & Dh).
    unfold seg_intersect. rewrite (at_run _ _ _ Hv), (at_run _ _ _ Hw). cbn [bind]. rewrite Hg, Hh. cbn [of_opt bind].
    destruct g; try contradiction; destruct h; try contradiction; (eapply post_bind; [|intros; exact I]);
      [apply intersect_lines_post|apply line_cubic_post|apply line_cubic_post|apply cubics_post].
  Qed.
  Lemma run_pairs_post en l : Forall (fun p => fst p < length D /\ snd p < length D) l -> post short (fun _ => True) (run_pairs en vs D l).
  Proof.
    induction 1 as [|[a b] l [A B] F IH]; cbn [run_pairs]; [exact I|]. cbn [fst snd] in *.
    eapply post_bind; [apply post_at with (Q := fun i => In i D); auto; intros x; apply nth_error_In|]. intros i _ Hi.
    eapply post_bind; [apply post_at with (Q := fun i => In i D); auto; intros x; apply nth_error_In|]. intros j _ Hj.
    eapply post_bind; [apply seg_intersect_post; auto|]. intros x _ _. eapply post_bind; [apply IH|]. intros; exact I.
  Qed.
  Lemma vert_boxes_post l : incl l D -> post short (fun bs => length bs = length l) (vert_boxes vs l).
  Proof.
    induction l as [|i l IH]; intros H; cbn [vert_boxes]; [reflexivity|]. destruct (HD i (H i (or_introl eq_refl))) as (v & g & Hv & Hg & _).
    unfold vert_box at 1. rewrite (at_run _ _ _ Hv). cbn [bind]. rewrite Hg. cbn [of_opt bind].
    eapply post_bind; [apply IH; intros x Hx; apply H; now right|]. intros bs _ L. cbn. now rewrite L.
  Qed.
End Find.

(** *** Drawn contours *)
Section Drawn.
  Context {T : Type} {N : Num T}.
  Implicit Types s : clipper T.
  Lemma strand_back (vs : list (vertex T)) l : forall a gs i, strand vs a l gs -> In i l -> exists j g, In j (a :: l) /\ link vs j i g.
  Proof.
    induction l as [|b l IH]; intros a [|g gs] i S H; try contradiction. destruct S as [K S]. destruct H as [->|H].
    - exists a, g. split; [now left|exact K].
    - destruct (IH b gs i S H) as (j & h & Hj & L). exists j, h. split; auto. now right.
  Qed.
  Lemma ring_back (vs : list (vertex T)) l gs i : ring vs l gs -> In i l -> exists j g, In j l /\ link vs j i g.
  Proof.
    destruct l as [|f r]; [contradiction|]. intros [_ S] H. destruct (strand_back vs (r ++ [f]) f gs i S) as (j & g & Hj & L).
    - apply in_or_app. destruct H as [->|H]; [right; now left|now left].
    - exists j, g. split; auto. destruct Hj as [->|Hj]; [now left|]. apply in_app_or in Hj as [Hj|[->|[]]]; [now right|now left].
  Qed.
  Lemma moved_drawable (zs : list (bezier T)) : forall bs q, Forall drawable (moved zs bs q).
  Proof. induction zs as [|z zs IH]; intros [|b bs] q; cbn [moved]; repeat constructor. apply IH. Qed.
  Lemma cut_drawable p (g : seg T) bs : drawable g -> Forall drawable (cut p g bs).
  Proof.
    destruct g; intros D; try contradiction; cbn [cut].
    - apply Forall_app. split; [|repeat constructor]. apply Forall_forall. intros x Hx. apply in_map_iff in Hx as (b & <- & _). exact I.
    - apply moved_drawable.
  Qed.
  Lemma cuts_drawable p (g : seg T) rs : drawable g -> Forall drawable (cuts p g rs).
  Proof.
    intros D. unfold cuts. assert (K : Forall drawable [g]) by (repeat constructor; auto). revert K. generalize [g] as hs.
    induction rs as [|r rs IH]; intros hs K; cbn [fold_left]; auto. apply IH. destruct hs as [|h t]; [constructor|]. cbn [recut].
    apply Forall_cons_iff in K as [Kh K]. apply Forall_app. split; auto. now apply cut_drawable.
  Qed.
  Lemma rings_drawable (vs : list (vertex T)) ls i : rings vs ls -> In i (concat ls) -> exists v g, nth_error vs i = Some v /\ v_seg v = Some g /\ drawable g.
  Proof.
    intros [R _] H. apply in_concat in H as (l & Hl & H). rewrite Forall_forall in R. destruct (R l Hl) as (gs & RG & D & _).
    destruct (ring_link _ _ _ _ RG H) as (j & g & _ & Hg & (v & w & V & _ & _ & _ & S & _)). rewrite Forall_forall in D. eauto 6.
  Qed.
  Lemma pieces_from_drawable vs ls bs i : rings vs ls -> In i (concat ls) -> Forall (@drawable T) (pieces_from vs bs i).
  Proof.
    intros R H. destruct (rings_drawable vs ls i R H) as (v & g & V & G & D). unfold pieces_from. rewrite V, G. now apply cuts_drawable.
  Qed.
  (** Broken contours are whole. *)
  Lemma broken_whole vs vs' ls bs news : rings vs ls ->
    Forall (fun l => ring vs' (with_new news l) (flat_map (pieces_from vs bs) l)) ls ->
    forall i, In i (concat (map (with_new news) ls)) -> whole_at (T := T) vs' (fun i => In i (concat (map (with_new news) ls))) i.
  Proof.
    intros R RG i H. apply in_concat in H as (l' & Hl & H). pose proof Hl as Hl'. apply in_map_iff in Hl as (l & <- & Hl).
    rewrite Forall_forall in RG. pose proof (RG l Hl) as RI.
    assert (IN : forall j, In j (with_new news l) -> In j (concat (map (with_new news) ls))) by (intros j Hj; apply in_concat; eauto).
    destruct (ring_link _ _ _ _ RI H) as (j & g & Hj & Hg & (v & w & V & W & X1 & X2 & X3 & X4)).
    destruct (ring_back _ _ _ _ RI H) as (k & h & Hk & (v' & w' & V' & W' & Y1 & Y2 & Y3 & Y4)). rewrite V in W'. injection W' as <-.
    exists v, j, k, g. csplit; auto. apply in_flat_map in Hg as (m & Hm & Hg).
    assert (FD : Forall drawable (pieces_from vs bs m)) by (apply (pieces_from_drawable vs ls); auto; apply in_concat; eauto).
    rewrite Forall_forall in FD. auto.
  Qed.
  Lemma find_breaks_post en s ls : (forall l x, In x (en_order en l) -> In x l) -> rings (verts s) ls -> starts s = map (hd 0) ls ->
    post short (fun _ => True) (find_breaks en (verts s) (starts s)).
  Proof.
    intros PO R ST. unfold find_breaks. rewrite ST, all_rings_ok by (destruct R as [R _]; eapply Forall_impl; [|exact R]; intros l (gs & H & _); eauto).
    cbn [bind]. eapply post_bind; [eapply vert_boxes_post with (D := concat ls); [|apply incl_refl]|].
    - intros i Hi. eapply rings_drawable; eauto.
    - intros bs _ L. apply run_pairs_post; [intros i Hi; eapply rings_drawable; eauto|]. rewrite <- L. now apply scan_pairs_in.
  Qed.
  Lemma with_new_in news (l : list nat) i : In i l -> In i (with_new news l).
  Proof. intros H. unfold with_new. apply in_flat_map. exists i. split; auto. now left. Qed.
  (** After the breaking, every index is in range. *)
  Lemma drawn_solid en ps s bs : drawable_paths ps -> add_all clipper0 ps = Ok s -> find_breaks en (verts s) (starts s) = Ok bs ->
    exists (C : nat -> Prop) s1, process_intersect en s = Ok s1 /\ (forall i, C i -> whole_at (verts s1) C i) /\ forall op fill, solid (verts s1) C (w_op s1 op fill).
  Proof.
    intros D E F. destruct (add_all_built ps clipper0 [] [] D (built_nil _)) as (s' & cs & E' & B). rewrite E in E'. injection E' as <-.
    destruct (built_rings _ _ _ B (items_drawable ps)) as [R ST]. set (ls := map c_verts cs) in *.
    destruct (process_intersect_broken en s ls bs R ST F) as (vs' & news & PI & RG & _). cbn zeta in PI, RG.
    exists (fun i => In i (concat (map (with_new news) ls))). eexists. split; [exact PI|]. cbn [verts w_verts w_breaks w_op]. split.
    - exact (broken_whole (verts s) vs' ls (tidy_breaks en bs) news R RG).
    - intros op fill. destruct B as ((G & _) & _ & OKC & _ & LM & MN & _).
      assert (G1 : edges s = [] /\ bounds s = [] /\ polys s = [] /\ ael s = None /\ obl s = None) by (rewrite G; cbn; auto). destruct G1 as (G1 & G2 & G3 & G4 & G5).
      constructor; cbn; rewrite ?G1, ?G2, ?G3, ?G4, ?G5; try constructor.
      + rewrite MN, LM. cbn [clipper0 lmins minima app length]. apply Forall_forall. intros m Hm. apply in_seq in Hm. lia.
      + rewrite LM. cbn [clipper0 lmins app]. apply Forall_forall. intros x Hx. unfold all_lows in Hx. apply in_flat_map in Hx as (c & Hc & Hx).
        apply in_map_iff in Hx as (i & <- & Hi). cbn [lm_vert]. unfold lows in Hi. apply in_map_iff in Hi as ([i' k] & Q & Hi). cbn [fst] in Q. subst i'.
        apply filter_In in Hi as [Hi _]. rewrite Forall_forall in OKC. destruct (OKC c Hc) as (f & r & EV & NE & _ & X & _).
        apply in_concat. exists (with_new news (c_verts c)). split; [apply in_map; apply in_map; exact Hc|]. apply with_new_in. rewrite EV.
        eapply sub_in; [eapply extremes_sub; eauto|]. change i with (fst (i, k)). now apply in_map.
  Qed.
End Drawn.
