(** Contours in which exactly the extrema are marked and queued; drawn and broken contours are such. *)
From Coq Require Import ZArith Bool List Reals Lia Sorted Permutation.
From Verif Require Import Outcome Num Order OrdTac Rmath Segment Path PathSpec RTac ScanLine VState VPath VBreak VAel VOut VMain VLemmas VFrame ClipSpec AelSpec VAelProofs VEdges
  VAelRun VRun SortProofs RingSpec BezierSpec BreakSpec
  MarkProofs VRing VBuild VAdd MarkSpec VCut VBroken TraceR LineSpec LineR RingStatements BreakStatements BreakLines BreakDrawn ClimbSpec ClimbRing ClimbBroken ClimbPoly
  VClimb ClimbNone SpanSpec SpanRing SpanTop SpanStep SpanRun SpanMark.
Import ListNotations.
Local Open Scope out.

Section Extremal.
  Context {T : Type} {N : Num T} {O : OrdNum T}.
  Record extremal (vs : list (vertex T)) (lms : list lmin) (ms : list nat) (ls : list (list nat)) : Prop := {
    ex_ring : forall l, In l ls -> exists gs, ring vs l gs;
    ex_nodup : NoDup (concat ls);
    ex_valid : forall l i, In l ls -> In i l -> nvalid (height vs i);
    ex_max : forall l i v, In l ls -> In i l -> nth_error vs i = Some v -> (v_max v = true <-> highest (height vs) l i);
    ex_flat : forall l, In l ls -> exists a b, In a l /\ In b l /\ n_ltb (height vs a) (height vs b) = true;
    ex_low : forall i, In i (map lm_vert lms) <-> exists l, In l ls /\ lowest (height vs) l i;
    ex_once : NoDup (map lm_vert lms);
    ex_queue : ms = seq 0 (length lms)
  }.
  Lemma extremal_valleys (s : clipper T) ls : extremal (verts s) (lmins s) (minima s) ls -> all_valleys s.
  Proof.
    intros X m Hm. rewrite (ex_queue _ _ _ _ X) in Hm. apply in_seq in Hm.
    destruct (nth_error (lmins s) m) as [x|] eqn:E; [|apply nth_error_None in E; lia]. exists x. split; auto.
    assert (K : In (lm_vert x) (map lm_vert (lmins s))) by (apply in_map; eapply nth_error_In; eauto).
    apply (ex_low _ _ _ _ X) in K as (l & Hl & K). destruct (ex_ring _ _ _ _ X l Hl) as [gs R].
    eapply (lowest_valley (verts s) l gs); eauto.
    - intros i Hi. eapply ex_valid; eauto.
    - intros i v Hi Hv. eapply ex_max; eauto.
  Qed.
  Lemma extremal_marked vs lms ms ls : extremal vs lms ms ls -> marked vs (on_contour ls) (is_lowest vs ls).
  Proof.
    intros X. apply marked_rings.
    - eapply ex_ring; eauto.
    - eapply ex_valid; eauto.
    - intros l i v Hl Hi Hv K. eapply ex_max; eauto.
    - eapply ex_flat; eauto.
  Qed.
  Notation cont := (contour (T := T)).
  Lemma sub_filter {A B} (f : A -> B) p l : subseq (map f (filter p l)) (map f l).
  Proof. induction l as [|x l IH]; cbn; [constructor|]. destruct (p x); cbn; [apply sub_keep|apply sub_skip]; auto. Qed.
  Lemma nodup_lows (cs : list cont) : (forall c, In c cs -> subseq (lows c) (c_verts c)) -> NoDup (all_verts cs) -> NoDup (flat_map lows cs).
  Proof.
    intros H ND. eapply sub_nodup; [|exact ND]. clear ND. induction cs as [|c cs IH]; [constructor|]. cbn [flat_map all_verts].
    apply sub_app; [apply H; now left|apply IH; intros; apply H; now right].
  Qed.
  Lemma lows_verts (cs : list cont) : map lm_vert (all_lows cs) = flat_map lows cs.
  Proof.
    induction cs as [|c cs IH]; [reflexivity|]. unfold all_lows in *. cbn [flat_map]. rewrite map_app, map_map, IH. f_equal. cbn. apply map_id.
  Qed.
  (** The marks of one contour, broken so that no edge gets a new extremum *)
  Lemma broken_marks vs vs' news (c : cont) n0 gs : contour_ok vs c -> ring vs' (with_new news (c_verts c)) gs ->
    (forall i v, nth_error vs i = Some v -> exists w, nth_error vs' i = Some w /\ v_pt w = v_pt v /\ v_min w = v_min v /\ v_max w = v_max v) ->
    (forall i j, In j (news i) -> n0 <= j) ->
    (forall j w, n0 <= j -> nth_error vs' j = Some w -> v_min w = false /\ v_max w = false) ->
    (forall i, In i (with_new news (c_verts c)) -> nvalid (height vs' i)) ->
    (forall i j r, turned (c_verts c) i (j :: r) -> onway (height vs') i (news i) j) ->
    (forall j w, In j (with_new news (c_verts c)) -> nth_error vs' j = Some w -> (v_max w = true <-> highest (height vs') (with_new news (c_verts c)) j)) /\
    (forall i, In i (lows c) <-> lowest (height vs') (with_new news (c_verts c)) i) /\
    subseq (lows c) (c_verts c) /\ exists i, In i (lows c).
  Proof.
    intros (f & r & EV & NE & R & X & F) R' OLD NEW FLAG V WAY. rewrite <- EV in R.
    assert (SAME' : forall i, In i (f :: r) -> height vs' i = height vs i).
    { rewrite <- EV. intros j Hj. destruct (ring_some _ _ _ _ R Hj) as [v Hv]. destruct (OLD j v Hv) as (w & W & P & _). unfold height. now rewrite W, Hv, P. }
    assert (LEN : 2 <= length (c_verts c)) by (rewrite EV; destruct r; [contradiction|cbn; lia]).
    apply (extremes_ext _ _ _ _ _ SAME') in X. apply extremes_extrema in X; auto.
    2: { intros j Hj. apply V. apply in_flat_map. exists j. rewrite EV. split; auto. now left. }
    rewrite <- EV in X, F. destruct X as (XS & X1 & X2 & _ & XC & XN).
    pose proof (ring_nodup _ _ _ R') as ND'.
    csplit.
    - intros j w Hj Hw. apply in_flat_map in Hj as (j0 & Hj0 & Hj). destruct (turned_of _ _ Hj0 LEN) as (j1 & r1 & TR).
      destruct Hj as [->|Hj].
      + rewrite highest_extreme. rewrite (extreme_old (height vs') news (c_verts c) ND' V WAY false j j1 r1 TR), <- highest_extreme, <- X2.
        destruct (ring_some _ _ _ _ R Hj0) as [v Hv]. destruct (OLD j v Hv) as (w' & W & _ & _ & EM). rewrite Hw in W. injection W as <-. rewrite EM.
        apply (F j v); auto.
      + rewrite highest_extreme. split.
        * intros K. destruct (FLAG j w (NEW _ _ Hj) Hw) as [_ K']. congruence.
        * intros K. exfalso. exact (extreme_new (height vs') news (c_verts c) ND' V WAY false j0 j1 r1 j TR Hj K).
    - intros i. assert (EQ : In i (lows c) <-> lowest (height vs') (c_verts c) i).
      { rewrite <- X1. unfold lows. rewrite in_map_iff. split.
        - intros ([i' k] & E & Hi). cbn [fst] in E. subst i'. apply filter_In in Hi as [Hi K]. cbn [snd] in K. now subst k.
        - intros Hi. exists (i, true). split; auto. apply filter_In. auto. }
      rewrite EQ, !lowest_extreme. split.
      + intros K. pose proof K as (n1 & r1 & TR & _). now apply (extreme_old (height vs') news (c_verts c) ND' V WAY true i n1 r1 TR).
      + intros K. assert (Hi : In i (with_new news (c_verts c))) by (destruct K as (n1 & r1 & (a & b & -> & _) & _); apply in_or_app; right; now left).
        apply in_flat_map in Hi as (i0 & Hi0 & Hi). destruct (turned_of _ _ Hi0 LEN) as (j1 & r1 & TR). destruct Hi as [->|Hi].
        * now apply (extreme_old (height vs') news (c_verts c) ND' V WAY true i j1 r1 TR) in K.
        * exfalso. exact (extreme_new (height vs') news (c_verts c) ND' V WAY true i0 j1 r1 i TR Hi K).
    - eapply subseq_trans; [exact XS|]. unfold lows. apply sub_filter.
    - destruct (filter snd (c_marks c)) as [|x l] eqn:EF.
      + exfalso. destruct (c_marks c) as [|x l]; [congruence|]. cbn in EF, XC. destruct (snd x); discriminate.
      + exists (fst x). unfold lows. rewrite EF. now left.
  Qed.
  Lemma broken_extremal its cs (s : clipper T) (vs' : list (vertex T)) news hs :
    built clipper0 its cs s ->
    (forall c, In c cs -> ring vs' (with_new news (c_verts c)) (hs c)) -> NoDup (concat (map (fun c => with_new news (c_verts c)) cs)) ->
    (forall i v, nth_error (verts s) i = Some v -> exists w, nth_error vs' i = Some w /\
       v_pt w = v_pt v /\ v_min w = v_min v /\ v_max w = v_max v) ->
    (forall i j, In j (news i) -> length (verts s) <= j) ->
    (forall j w, length (verts s) <= j -> nth_error vs' j = Some w -> v_min w = false /\ v_max w = false) ->
    (forall c i, In c cs -> In i (with_new news (c_verts c)) -> nvalid (height vs' i)) ->
    (forall c i j r, In c cs -> turned (c_verts c) i (j :: r) -> onway (height vs') i (news i) j) ->
    extremal vs' (lmins s) (minima s) (map (fun c => with_new news (c_verts c)) cs).
  Proof.
    intros (G & IT & OKC & ST & LM & MN & ND & FR) RG NDC OLD NEW FLAG VAL WAY. rewrite Forall_forall in OKC.
    cbn [clipper0 lmins minima app length] in LM, MN.
    assert (BM := fun c (Hc : In c cs) => broken_marks (verts s) vs' news c _ _ (OKC c Hc) (RG c Hc) OLD NEW FLAG (fun i => VAL c i Hc) (fun i j r => WAY c i j r Hc)).
    constructor; auto.
    - intros l Hl. apply in_map_iff in Hl as (c & <- & Hc). eauto.
    - intros l i Hl. apply in_map_iff in Hl as (c & <- & Hc). eauto.
    - intros l i v Hl. apply in_map_iff in Hl as (c & <- & Hc). apply BM; auto.
    - intros l Hl. apply in_map_iff in Hl as (c & <- & Hc). destruct (BM c Hc) as (_ & K & _ & i & Hi). apply K in Hi as (n & r & (a & b & E1 & E2) & L & _).
      exists i, n. rewrite E1. assert (In n (b ++ a)) by (rewrite <- E2; now left). rewrite in_app_iff in *. cbn. csplit; auto. rewrite in_app_iff. cbn. tauto.
    - intros i. rewrite LM, lows_verts, in_flat_map. split.
      + intros (c & Hc & K). apply BM in K; auto. eexists. split; [|exact K]. now apply (in_map (fun c => with_new news (c_verts c))).
      + intros (l & Hl & K). apply in_map_iff in Hl as (c & <- & Hc). exists c. split; auto. now apply BM.
    - rewrite LM, lows_verts. apply nodup_lows; auto. intros c Hc. now apply BM.
    - now rewrite LM.
  Qed.
End Extremal.
