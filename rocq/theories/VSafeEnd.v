(** Runs of the clipper: where they can go wrong. *)
From Coq Require Import ZArith Bool List Lia Permutation Reals.
From Verif Require Import Outcome Num Order Rmath Segment ScanLine VState VPath VBreak VAel VOut VMain VLemmas VFrame AelSpec ClipSpec RingSpec PathSpec BreakSpec
  VAelProofs VEdges VAelRun VRun VOutProofs BreakStatements BreakDrawn ClimbPoly ClimbSpec ClimbNone VSolid VSafe VSafeRun SafeSpec.
Import ListNotations.
Local Open Scope out.

Section Where.
  Context {T : Type} {N : Num T}.
  Implicit Types s : clipper T.
  Definition never (k : ub) : Prop := False.
  Definition links (k : ub) : Prop := k = NullDeref \/ k = EndDeref.
  Definition null (k : ub) : Prop := k = NullDeref.
  Section Run.
    Variable vs : list (vertex T).
    Variable C : nat -> Prop.
    Hypothesis HC : forall i, C i -> whole_at vs C i.
    Notation solid := (solid vs C).
    Notation onto := (onto vs C).
    Variable en : env.
    Variable n : nat.
    Variable s0 : clipper T.
    Variable op : clip_type.
    Variable fill : fill_rule.
    Notation F := (output_fails en n s0 op fill).
    Lemma sweep_where fuel : forall y ys s, solid s -> has_list s -> visits en n s0 op fill (y :: ys) s -> post F (fun _ => True) (sweep n fuel s y).
    Proof.
      induction fuel as [|fuel IH]; intros y ys s H L V; cbn [sweep]; [exact I|].
      eapply post_bind with (P := onto s).
      - destruct L as [l HA]. unfold scan_at. eapply post_bind; [eapply insert_local_post; eauto|]. intros s1 F1 O1.
        destruct (insert_minima_ok _ _ _ _ _ HA F1) as (l' & x & _ & A1 & _).
        eapply post_bind; [eapply recalc_windcnt_post; [apply O1|exact A1]|]. intros s2 F2 O2. pose proof (onto_trans _ _ _ _ _ O1 O2) as O12.
        assert (K : post links (onto s2) (update_output_bound n s2 y)) by (apply update_output_bound_post; [exact HC|now left|now right|apply O2]).
        destruct (update_output_bound n s2 y) as [s3|k| |] eqn:U; cbn in K |- *; auto; [exact (onto_trans _ _ _ _ _ O12 K)|].
        exists y, ys, s. split; auto. left. split; [exact K|]. exists s1, s2. auto.
      - intros s1 F1 O1. pose proof (scan_at_list _ _ _ _ L F1) as L1. destruct (pop_scanline s1 y) as [[y'|] s2] eqn:P; [|exact I].
        pose proof (pop_solid _ _ _ _ _ _ (proj1 O1) P) as S2. pose proof (pop_scanline_list _ _ _ _ L1 P) as L2.
        eapply post_bind with (P := onto s2).
        + unfold beam. eapply post_bind; [eapply do_top_post; eauto|]. intros s3 F3 O3.
          eapply post_bind with (P := onto s3).
          * assert (K : post null (onto s3) (close_output n s3 y')) by (apply close_output_post; [reflexivity|apply O3]).
            destruct (close_output n s3 y') as [s4|k| |] eqn:U; cbn in K |- *; auto. unfold null in K. subst k.
            exists y, ys, s. split; auto. right. split; [reflexivity|]. exists s1, y', s2, s3. auto.
          * intros s4 _ O4. pose proof (onto_trans _ _ _ _ _ O3 O4) as O34. eapply post_weak; [eapply resort_ael_post; [exact HC|apply O4]|].
            intros s5 _ O5. exact (onto_trans _ _ _ _ _ O34 O5).
        + intros s3 F3 O3. apply (IH y' (y :: ys)); [apply O3|eapply beam_list; eauto|]. econstructor; eauto.
    Qed.
    Lemma process_where s1 : process_intersect en (w_op s0 op fill) = Ok s1 -> solid s1 -> post F (fun _ => True) (process en n s0 op fill).
    Proof.
      intros PI H. unfold process. rewrite PI. cbn [bind]. eapply post_bind; [eapply reset_post; eauto|]. intros s2 F2 H2.
      pose proof (reset_list _ _ F2) as L2. destruct (pop_scanline s2 (n_neg n_huge)) as [[y|] s3] eqn:P; [|exact I].
      eapply post_bind; [apply (sweep_where n y []); [eapply pop_solid; eauto|eapply pop_scanline_list; eauto|econstructor; eauto]|intros; exact I].
    Qed.
  End Run.
  Lemma safe_where en n ps s op fill : (forall l x, In x (en_order en l) -> In x l) -> drawable_paths ps -> add_all clipper0 ps = Ok s ->
    post (fun k => (k = OobWrite /\ find_breaks en (verts s) (starts s) = UB OobWrite) \/ output_fails en n s op fill k) (fun _ => True) (process en n s op fill).
  Proof.
    intros PO D E. destruct (drawn_rings ps D) as (s' & ls & E' & R & ST & _). rewrite E in E'. injection E' as <-.
    pose proof (find_breaks_post en s ls PO R ST) as FB. destruct (find_breaks en (verts s) (starts s)) as [bs|k| |] eqn:F; cbn in FB.
    - destruct (drawn_solid en ps s bs D E F) as (C & s1 & PI & HC & S). eapply post_more.
      + eapply (process_where (verts s1) C); [exact HC|apply process_intersect_op; exact PI|apply S].
      + intros k K. now right.
    - unfold short in FB. subst k. unfold process, process_intersect. cbn [verts starts w_op]. rewrite F. cbn. left. auto.
    - unfold process, process_intersect. cbn [verts starts w_op]. rewrite F. exact I.
    - contradiction.
  Qed.
  Lemma safe_lemma en n ps s op fill : (forall l x, In x (en_order en l) -> In x l) -> drawable_paths ps -> add_all clipper0 ps = Ok s ->
    process en n s op fill <> Throw /\
    forall k, process en n s op fill = UB k ->
      (k = OobWrite /\ find_breaks en (verts s) (starts s) = UB OobWrite) \/ output_fails en n s op fill k.
  Proof.
    intros PO D E. pose proof (safe_where en n ps s op fill PO D E) as H. split.
    - intros K. now rewrite K in H.
    - intros k K. now rewrite K in H.
  Qed.
  Lemma safe_none en n ps s bs fill : drawable_paths ps -> add_all clipper0 ps = Ok s -> find_breaks en (verts s) (starts s) = Ok bs ->
    (exists s', process en n s op_none fill = Ok (s', [])) \/ process en n s op_none fill = NoFuel.
  Proof.
    intros D E F. destruct (drawn_fresh ps s D E) as (_ & _ & FP). destruct (drawn_solid en ps s bs D E F) as (C & s1 & PI & HC & S).
    assert (H : post never (fun _ => True) (process en n s op_none fill)).
    { eapply (process_post (verts s1) C); [exact HC|apply process_intersect_op; exact PI|apply S|]. right. auto. }
    destruct (process en n s op_none fill) as [[s' l]|k| |] eqn:P; cbn in H; try contradiction; auto. left. exists s'.
    assert (LD : loaded s).
    { clear -E. assert (K : forall ps s0, loaded s0 -> add_all s0 ps = Ok s -> loaded s).
      { clear ps E. induction ps as [|[pt oss] ps IH]; intros s0 L E; cbn [add_all] in E; [now injection E as <-|].
        apply bind_ok in E as (s2 & E1 & E2). eapply IH; [|exact E2]. econstructor; eauto. }
      eapply K; [constructor|exact E]. }
    now rewrite (C30_lemma en n s fill s' l LD P).
  Qed.
End Where.

Lemma safe_polygons en n (ps : list (path_type * list (list (outline (T := R))))) (s : clipper R) :
  (forall l, Permutation (en_order en l) l) -> (forall i j, en_addr en i = en_addr en j -> i = j) ->
  Forall polygon (all_outlines ps) -> add_all clipper0 ps = Ok s ->
  forall op fill k, process en n s op fill = UB k -> output_fails en n s op fill k.
Proof.
  intros PO AI P E op fill k H. assert (D : drawable_paths ps) by (eapply Forall_impl; [|exact P]; intros o; apply polygon_drawing).
  destruct (polygon_valleys en ps s PO AI P E) as (bs & vs & PI & _). unfold process_intersect in PI. apply bind_ok in PI as (l & F & _).
  destruct (safe_lemma en n ps s op fill) as [_ K]; auto.
  - intros l' x Hx. eapply Permutation_in; [apply PO|exact Hx].
  - destruct (K k H) as [[_ K']|K']; auto. rewrite F in K'. discriminate K'.
Qed.
Lemma none_polygons en (ps : list (path_type * list (list (outline (T := R))))) (s : clipper R) :
  (forall l, Permutation (en_order en l) l) -> (forall i j, en_addr en i = en_addr en j -> i = j) ->
  Forall polygon (all_outlines ps) -> add_all clipper0 ps = Ok s ->
  exists k, forall n fill, k <= n -> exists s', process en n s op_none fill = Ok (s', []).
Proof.
  intros PO AI P E. assert (D : drawable_paths ps) by (eapply Forall_impl; [|exact P]; intros o; apply polygon_drawing).
  destruct (polygons_end en ps s PO AI P E) as (s1 & PI & B). exists (length (verts s1)). intros n fill L.
  destruct (B op_none fill n) as (_ & _ & NF). unfold process_intersect in PI. apply bind_ok in PI as (l & F & _).
  destruct (safe_none en n ps s l fill D E F) as [K|K]; auto. exfalso. now apply NF.
Qed.
