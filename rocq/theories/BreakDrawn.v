(** Drawn contours broken at their crossings. *)
From Coq Require Import ZArith Bool List Reals Lra Lia Sorted Permutation.
From Verif Require Import Outcome Num Order Rmath Segment Path PathSpec RTac ScanLine VState VPath VBreak VLemmas AelSpec SortProofs RingSpec BezierSpec BreakSpec
  VRing VBuild VAdd VCut VBroken TraceR LineSpec LineR BreakStatements BreakLines.
Import ListNotations.
Local Open Scope out.

Section Drawn.
  Context {T : Type} {N : Num T}.
  Definition paths := list (path_type * list (list (outline (T := T)))).
  Definition drawable_paths (ps : paths) : Prop := Forall (fun o => Forall drawing (snd o)) (all_outlines ps).
  Lemma add_all_built (ps : paths) : forall s its cs, drawable_paths ps -> built clipper0 its cs s ->
    exists s' cs', add_all s ps = Ok s' /\
      built clipper0 (its ++ flat_map (fun x => items (fst x) (concat (snd x))) ps) cs' s'.
  Proof.
    induction ps as [|[pt oss] ps IH]; intros s its cs D B.
    - exists s, cs. cbn. rewrite app_nil_r. auto.
    - unfold drawable_paths, all_outlines in D. cbn [flat_map snd] in D. apply Forall_app in D as [D1 D2].
      assert (WD : Forall well_drawn oss).
      { apply Forall_forall. intros os Ho. apply Forall_forall. intros o Hi. rewrite Forall_forall in D1. apply D1. apply in_concat. eauto. }
      destruct (add_paths_run oss _ _ _ _ pt WD B) as (s1 & cs1 & E & B1). destruct (IH s1 _ cs1 D2 B1) as (s' & cs' & E' & B').
      exists s', cs'. cbn [add_all flat_map fst snd]. unfold drawn in E. rewrite E. cbn [bind]. split; auto. now rewrite app_assoc.
  Qed.
  Lemma pieces_drawable from (c : pcall T) : Forall drawable (pieces from c).
  Proof.
    destruct c as [p|p|a b p]; cbn [pieces]; unfold line_piece.
    - constructor.
    - destruct (vneqb from p); repeat constructor.
    - destruct (level4 _ _ _ _); [destruct (vneqb from p); repeat constructor|].
      destruct (filter _ _); [repeat constructor|]. apply Forall_forall. intros g Hg. apply in_map_iff in Hg as (z & <- & _). exact I.
  Qed.
  Lemma all_pieces_drawable cs : forall from : vec2 T, Forall drawable (all_pieces from cs).
  Proof. induction cs as [|c cs IH]; intros from; cbn [all_pieces]; [constructor|]. apply Forall_app. split; auto. apply pieces_drawable. Qed.
  Lemma outline_drawable (o : outline (T := T)) : Forall drawable (outline_segs o).
  Proof.
    unfold outline_segs. pose proof (all_pieces_drawable (snd o) (fst o)) as D. destruct (all_pieces (fst o) (snd o)) as [|g gs]; [constructor|].
    unfold closing. destruct (vneqb _ _); auto. apply Forall_app. split; auto. repeat constructor.
  Qed.
  Lemma built_rings its cs s' : built clipper0 its cs s' -> Forall (fun it => Forall (@drawable T) (snd it)) its ->
    rings (verts s') (map c_verts cs) /\ starts s' = map (hd 0) (map c_verts cs).
  Proof.
    intros (G & IT & OK & ST & _ & _ & ND & _) D. split; [split|].
    - apply Forall_forall. intros l Hl. apply in_map_iff in Hl as (c & <- & Hc). rewrite Forall_forall in OK.
      destruct (OK c Hc) as (f & r & E & NE & R & _). rewrite E. exists (c_segs c). csplit; auto.
      + assert (K : In (c_type c, c_segs c) (filter (fun it => accepted (snd it)) its)).
        { rewrite <- IT. exact (in_map (fun c : contour => (c_type c, c_segs c)) cs c Hc). }
        apply filter_In in K as [K _]. rewrite Forall_forall in D. exact (D _ K).
      + destruct r; [contradiction|]. simpl. lia.
    - rewrite <- flat_map_concat_map. exact ND.
    - rewrite ST, map_map. reflexivity.
  Qed.
  Lemma items_drawable (ps : paths) : Forall (fun it => Forall (@drawable T) (snd it)) (flat_map (fun x => items (fst x) (concat (snd x))) ps).
  Proof.
    apply Forall_forall. intros it Hi. apply in_flat_map in Hi as (x & _ & Hi). unfold items in Hi. apply in_map_iff in Hi as (o & <- & _).
    apply outline_drawable.
  Qed.
  Lemma items_outline (ps : paths) it : In it (flat_map (fun x => items (fst x) (concat (snd x))) ps) -> exists o, In o (all_outlines ps) /\ snd it = outline_segs o.
  Proof.
    intros Hi. apply in_flat_map in Hi as (x & Hx & Hi). unfold items in Hi. apply in_map_iff in Hi as (o & <- & Ho).
    exists o. split; auto. apply in_flat_map. eauto.
  Qed.
  (** The rings of drawn contours *)
  Lemma drawn_rings (ps : paths) : drawable_paths ps ->
    exists s ls, add_all clipper0 ps = Ok s /\ rings (verts s) ls /\ starts s = map (hd 0) ls /\
      forall l, In l ls -> exists o, In o (all_outlines ps) /\ accepted (outline_segs o) = true /\ ring (verts s) l (outline_segs o).
  Proof.
    intros D. destruct (add_all_built ps clipper0 [] [] D (built_nil _)) as (s & cs & E & B).
    destruct (built_rings _ _ _ B (items_drawable ps)) as [R S]. exists s, (map c_verts cs). csplit; auto.
    intros l Hl. apply in_map_iff in Hl as (c & <- & Hc). destruct B as (_ & IT & OK & _). rewrite Forall_forall in OK.
    destruct (OK c Hc) as (f & r & EV & NE & R' & _). rewrite EV.
    assert (K : In (c_type c, c_segs c) (filter (fun it => accepted (snd it)) (flat_map (fun x => items (fst x) (concat (snd x))) ps))).
    { cbn [app] in IT. rewrite <- IT. exact (in_map (fun c : contour => (c_type c, c_segs c)) cs c Hc). }
    apply filter_In in K as [K AC]. destruct (items_outline _ _ K) as (o & Ho & EQ). cbn [snd] in *. exists o. rewrite <- EQ. auto.
  Qed.
  Lemma rings_of (ps : paths) s : drawable_paths ps -> add_all clipper0 ps = Ok s ->
    exists ls, rings (verts s) ls /\ starts s = map (hd 0) ls.
  Proof. intros D E. destruct (drawn_rings ps D) as (s0 & ls & E0 & R & S & _). rewrite E in E0. injection E0 as <-. eauto. Qed.
  Lemma ring_of (ps : paths) s i l : drawable_paths ps -> add_all clipper0 ps = Ok s -> starts s = [i] ->
    ring_from (length (verts s)) (verts s) i i = Ok l -> exists ls, rings (verts s) ls /\ concat ls = l.
  Proof.
    intros D E ST RF. destruct (rings_of ps s D E) as (ls & R & S). exists ls. split; auto.
    assert (A : all_rings (verts s) (map (hd 0) ls) = Ok (concat ls)).
    { apply all_rings_ok. destruct R as [R _]. eapply Forall_impl; [|exact R]. intros l' (gs & H & _). eauto. }
    rewrite <- S, ST in A. cbn [all_rings] in A. rewrite RF in A. cbn [bind app] in A. injection A as A. now rewrite app_nil_r in A.
  Qed.
End Drawn.

(** *** Polygons *)
(** Lines of positive length, one after another from [p] *)
Fixpoint proper (p : vec2 R) (gs : list (seg R)) : Prop :=
  match gs with
  | [] => True
  | SLine q :: r => p <> q /\ fin p /\ fin q /\ proper q r
  | _ => False
  end.
Lemma proper_app gs1 : forall p gs2, proper p (gs1 ++ gs2) <-> proper p gs1 /\ proper (end_of p gs1) gs2.
Proof.
  induction gs1 as [|g gs1 IH]; intros p gs2; [simpl; tauto|]. destruct g as [q|q|q c l|a b q]; cbn [app proper]; try tauto.
  rewrite IH. unfold end_of. cbn [map seg_target]. rewrite MarkProofs.last_cons. tauto.
Qed.
Lemma end_of_app (p : vec2 R) a b : end_of p (a ++ b) = end_of (end_of p a) b.
Proof. unfold end_of. rewrite map_app. revert p. induction (map seg_target a) as [|x l IH]; intros p; [reflexivity|]. cbn [app]. rewrite !MarkProofs.last_cons. auto. Qed.
Lemma all_pieces_proper cs : forall from, fin from -> Forall (fun c => match c with PLine p => fin p | _ => False end) cs ->
  proper from (all_pieces from cs).
Proof.
  induction cs as [|c cs IH]; intros from F FC; [exact I|]. inversion FC as [|? ? F1 F2]; subst. cbn [all_pieces].
  destruct c as [p|p|a b p]; try contradiction. cbn [pieces endpoint]. unfold line_piece.
  destruct (vneqb from p) eqn:E.
  - cbn [app proper]. unfold vneqb in E. apply negb_true_iff in E. apply veqb_R_false in E. csplit; auto.
  - unfold vneqb in E. apply negb_false_iff in E. apply veqb_R in E. subst p. cbn [app]. auto.
Qed.
Lemma outline_proper o : polygon o -> outline_segs o <> [] -> proper (end_of (fst o) (outline_segs o)) (outline_segs o).
Proof.
  intros [F FC] NE. unfold outline_segs in *. pose proof (all_pieces_proper _ _ F FC) as P.
  destruct (all_pieces (fst o) (snd o)) as [|g gs] eqn:E; [congruence|]. unfold closing in *.
  destruct (vneqb (fst o) (end_of (fst o) (g :: gs))) eqn:V.
  - unfold vneqb in V. apply negb_true_iff, veqb_R_false in V. rewrite end_of_app. unfold end_of at 1. cbn [map seg_target last].
    apply proper_app. split; auto. cbn [proper]. csplit; auto.
    clear -P F. revert P F. generalize (fst o) as p. generalize (g :: gs) as l. induction l as [|h l IH]; intros p P F; [exact F|].
    destruct h as [q|q|q c b|a b q]; try contradiction. destruct P as (_ & _ & Fq & P). unfold end_of. cbn [map seg_target]. rewrite MarkProofs.last_cons. exact (IH q P Fq).
  - unfold vneqb in V. apply negb_false_iff, veqb_R in V. now rewrite <- V.
Qed.
Lemma strand_proper vs l : forall a gs v, strand vs a l gs -> nth_error vs a = Some v -> proper (v_pt v) gs ->
  forall i, In i (removelast (a :: l)) -> exists v q, nth_error vs i = Some v /\ v_seg v = Some (SLine q) /\ v_pt v <> q /\ fin (v_pt v) /\ fin q.
Proof.
  induction l as [|b l IH]; intros a [|g gs] v S V P i Hi; try contradiction.
  destruct S as [(va & vb & A & B & _ & _ & G & Tg) S]. rewrite V in A. injection A as <-.
  change (removelast (a :: b :: l)) with (a :: removelast (b :: l)) in Hi.
  destruct g as [q|q|q c k|c d q]; try contradiction. destruct P as (P1 & P2 & P3 & P4). destruct Hi as [<-|Hi].
  - exists v, q. auto.
  - apply (IH b gs vb S B); auto. rewrite Tg. exact P4.
Qed.
Lemma ring_end vs l gs (p : vec2 R) : ring vs l gs -> exists v, nth_error vs (hd 0 l) = Some v /\ v_pt v = end_of p gs.
Proof.
  destruct l as [|f r]; [contradiction|]. intros [_ S]. cbn [hd].
  assert (K : forall l a gs p, l <> [] -> strand vs a l gs -> exists v, nth_error vs (last l a) = Some v /\ v_pt v = end_of p gs).
  { induction l as [|b l IH]; intros a [|g gs'] p' NE H; try contradiction. destruct H as [(va & vb & A & B & _ & _ & _ & Tg) H].
    rewrite MarkProofs.last_cons. unfold end_of. cbn [map]. rewrite MarkProofs.last_cons. destruct l as [|c l].
    - destruct gs'; [|contradiction]. exists vb. cbn. auto.
    - apply (IH b gs' (seg_target g)); auto. discriminate. }
  destruct (K (r ++ [f]) f gs p) as (v & V & E); auto; [destruct r; discriminate|]. rewrite last_last in V. eauto.
Qed.
Lemma drawn_straight ps s ls : rings (verts s) ls ->
  (forall l, In l ls -> exists o, In o (all_outlines ps) /\ accepted (outline_segs o) = true /\ ring (verts s) l (outline_segs o)) ->
  Forall polygon (all_outlines ps) -> straight (verts s) ls.
Proof.
  intros _ H P i Hi. apply in_concat in Hi as (l & Hl & Hi). destruct (H l Hl) as (o & Ho & AC & R).
  assert (NE : outline_segs o <> []) by (intros K; rewrite K in AC; discriminate).
  rewrite Forall_forall in P. pose proof (outline_proper o (P o Ho) NE) as PR. destruct (ring_end _ _ _ (fst o) R) as (v & V & E). rewrite <- E in PR.
  destruct l as [|f r]; [contradiction|]. destruct R as [_ S]. cbn [hd] in V. apply (strand_proper _ _ _ _ _ S V PR).
  change (f :: r ++ [f]) with ((f :: r) ++ [f]). now rewrite removelast_last.
Qed.
Lemma polygon_drawing o : polygon o -> Forall drawing (snd o).
Proof. intros [_ F]. eapply Forall_impl; [|exact F]. intros c. now destruct c. Qed.

Lemma C23_polygons_lemma en (ps : list (path_type * list (list (outline (T := R))))) :
  (forall l, Permutation (en_order en l) l) -> (forall i j, en_addr en i = en_addr en j -> i = j) ->
  Forall polygon (all_outlines ps) ->
  exists s ls s' news hs, add_all clipper0 ps = Ok s /\ rings (verts s) ls /\ starts s = map (hd 0) ls /\
    process_intersect en s = Ok s' /\
    Forall (fun l => ring (verts s') (with_new news l) (flat_map hs l)) ls /\ NoDup (concat (map (with_new news) ls)) /\
    forall i v g, In i (concat ls) -> nth_error (verts s) i = Some v -> v_seg v = Some g ->
      exists ts, increasing 0 ts 1 /\ length ts = length (news i) /\ follows (v_pt v) (v_pt v) g 0 ts (hs i) /\
        forall j t, In j (concat ls) -> i <> j -> crosses (verts s) i j t -> well_inside t -> In t ts.
Proof.
  intros PO AI P. assert (D : drawable_paths ps) by (eapply Forall_impl; [|exact P]; intros o; apply polygon_drawing).
  destruct (drawn_rings ps D) as (s & ls & E & R & ST & H). pose proof (drawn_straight ps s ls R H P) as STR.
  destruct (find_breaks_lines en s ls PO R ST STR) as (bs & FB & EX & CR).
  destruct (C23_process_lemma en s ls bs R ST FB) as (s' & news & PI & _ & RG & ND & LN & _).
  exists s, ls, s', news, (pieces_from (verts s) (tidy_breaks en bs)). csplit; auto.
  intros i v g Hi V G. destruct (C23_exact_lemma en s ls bs AI R EX i v g Hi V G) as (ts & T1 & T2 & T3). exists ts. csplit; auto.
  - specialize (LN i Hi). revert LN. generalize (news i) as ns. revert T2. generalize (pieces_from (verts s) (tidy_breaks en bs) i) as hs. clear.
    assert (L0 : forall ts0 p0 p g0 lo hs, follows p0 p g0 lo ts0 hs -> length hs = S (length ts0)).
    { induction ts0 as [|t ts0 IH]; intros p0 p g0 lo [|h hs] F; try contradiction.
      - destruct hs; [reflexivity|contradiction].
      - destruct F as [_ F]. simpl. f_equal. eapply IH; eauto. }
    intros hs F ns L. apply L0 in F. lia.
  - intros j t Hj NE C W. apply T3. apply (CR i j t); auto.
Qed.
