(** The contours seen by the sweep are valleys: contours without crossings, and polygons. *)
From Coq Require Import ZArith Bool List Reals Lra Lia Sorted Permutation.
From Verif Require Import Outcome Num Order Rmath Segment Path PathSpec RTac ScanLine VState VPath VBreak VLemmas AelSpec SortProofs RingSpec BezierSpec BreakSpec
  MarkProofs VRing VBuild VAdd MarkSpec VCut VBroken TraceR LineSpec LineR RingStatements BreakStatements BreakLines BreakDrawn ClimbSpec ClimbRing ClimbBroken.
Import ListNotations.
Local Open Scope out.

Section Broken.
  Context {T : Type} {N : Num T} {O : OrdNum T}.
  Lemma process_intersect_broken en (s : clipper T) ls bs : rings (verts s) ls -> starts s = map (hd 0) ls ->
    find_breaks en (verts s) (starts s) = Ok bs ->
    let bs := tidy_breaks en bs in
    exists vs' news, process_intersect en s = Ok (w_verts (w_breaks s bs) vs') /\
      Forall (fun l => ring vs' (with_new news l) (flat_map (pieces_from (verts s) bs) l)) ls /\
      NoDup (concat (map (with_new news) ls)) /\
      (forall i, In i (concat ls) -> length (pieces_from (verts s) bs i) = S (length (news i))) /\
      (forall i v, nth_error (verts s) i = Some v -> exists w, nth_error vs' i = Some w /\
         v_pt w = v_pt v /\ v_min w = v_min v /\ v_max w = v_max v) /\
      (forall i j, In j (news i) -> length (verts s) <= j) /\
      (forall j w, length (verts s) <= j -> nth_error vs' j = Some w -> v_min w = false /\ v_max w = false).
  Proof.
    intros R ST F bs'. pose proof (found_in _ _ _ _ R ST F) as FI.
    assert (FI' : Forall (fun b => In (br_vert b) (concat ls)) bs').
    { rewrite Forall_forall in *. intros b Hb. apply FI. now apply tidy_in in Hb. }
    destruct (C23_rings_lemma (w_breaks s bs') ls bs' R FI') as (vs' & news & E & H).
    exists vs', news. unfold process_intersect. rewrite F. cbn [bind]. fold bs'. split; [exact E|exact H].
  Qed.
  Lemma ring_nodup (vs : list (vertex T)) l gs : ring vs l gs -> NoDup l.
  Proof. destruct l; cbn; tauto. Qed.
  Lemma ring_some (vs : list (vertex T)) l gs i : ring vs l gs -> In i l -> exists v, nth_error vs i = Some v.
  Proof.
    intros R H. apply in_split in H as (a & b & ->). destruct (ring_from _ _ _ i (b ++ a) R) as [g S]; [exists a, b; auto|].
    destruct (b ++ a) as [|j r]; cbn [app] in S; (destruct g; [contradiction|]); destruct S as [(vi & vj & H & _) _]; eauto.
  Qed.
  Lemma turned_of (l : list nat) i : In i l -> 2 <= length l -> exists j r, turned l i (j :: r).
  Proof.
    intros H L. apply in_split in H as (a & b & ->). destruct b as [|j b].
    - destruct a as [|j a]; [cbn in L; lia|]. exists j, a, (j :: a), []. auto.
    - exists j, (b ++ a), a, (j :: b). auto.
  Qed.
  (** Contours drawn on a fresh clipper, broken so that no edge gets a new extremum *)
  Lemma broken_valleys its cs (s : clipper T) (bs : list (break_info T)) (vs' : list (vertex T)) news hs :
    built clipper0 its cs s ->
    (forall c, In c cs -> ring vs' (with_new news (c_verts c)) (hs c)) ->
    (forall i v, nth_error (verts s) i = Some v -> exists w, nth_error vs' i = Some w /\
       v_pt w = v_pt v /\ v_min w = v_min v /\ v_max w = v_max v) ->
    (forall i j, In j (news i) -> length (verts s) <= j) ->
    (forall j w, length (verts s) <= j -> nth_error vs' j = Some w -> v_min w = false /\ v_max w = false) ->
    (forall c i, In c cs -> In i (with_new news (c_verts c)) -> nvalid (height vs' i)) ->
    (forall c i j r, In c cs -> turned (c_verts c) i (j :: r) -> onway (height vs') i (news i) j) ->
    all_valleys (w_verts (w_breaks s bs) vs').
  Proof.
    intros (G & IT & OKC & ST & LM & MN & ND & FR) RG OLD NEW FLAG VAL WAY m Hm. rewrite Forall_forall in OKC.
    cbn [w_verts w_breaks minima lmins verts] in *. cbn [clipper0 lmins minima app length] in LM, MN. rewrite MN in Hm. apply in_seq in Hm.
    destruct (nth_error (lmins s) m) as [x|] eqn:Ex; [|apply nth_error_None in Ex; rewrite LM in Ex; lia]. exists x. split; [reflexivity|].
    rewrite LM in Ex. apply nth_error_In in Ex. unfold all_lows in Ex. apply in_flat_map in Ex as (c & Hc & Ex).
    apply in_map_iff in Ex as (i & <- & Hi). cbn [lm_vert]. unfold lows in Hi. apply in_map_iff in Hi as ([i' k] & E & Hi). cbn [fst] in E. subst i'.
    apply filter_In in Hi as [Hi K]. cbn [snd] in K. subst k.
    pose proof (RG c Hc) as R'. pose proof (VAL c) as V. specialize (V) with (1 := Hc).
    destruct (OKC c Hc) as (f & r & EV & NE & R & X & F). rewrite <- EV in R.
    assert (SAME : forall i v, In i (c_verts c) -> nth_error (verts s) i = Some v -> height vs' i = height (verts s) i).
    { intros j v Hj Hv. destruct (OLD j v Hv) as (w & W & P & _). unfold height. now rewrite W, Hv, P. }
    assert (SAME' : forall i, In i (f :: r) -> height vs' i = height (verts s) i).
    { rewrite <- EV. intros j Hj. destruct (ring_some _ _ _ _ R Hj) as [v Hv]. eapply SAME; eauto. }
    assert (LEN : 2 <= length (c_verts c)) by (rewrite EV; destruct r; [contradiction|cbn; lia]).
    apply (extremes_ext _ _ _ _ _ SAME') in X. apply extremes_extrema in X; auto.
    2: { intros j Hj. apply V. apply in_flat_map. exists j. rewrite EV. split; auto. now left. }
    rewrite <- EV in X, F. destruct X as (_ & X1 & X2 & _).
    pose proof (ring_nodup _ _ _ R') as ND'.
    assert (WAY' : forall i j r, turned (c_verts c) i (j :: r) -> onway (height vs') i (news i) j) by (intros; eapply WAY; eauto).
    apply (lowest_valley vs' (with_new news (c_verts c)) (hs c)); auto.
    - intros j w Hj Hw. apply in_flat_map in Hj as (j0 & Hj0 & Hj). destruct (turned_of _ _ Hj0 LEN) as (j1 & r1 & TR).
      destruct Hj as [->|Hj].
      + rewrite highest_extreme. rewrite (extreme_old (height vs') news (c_verts c) ND' V WAY' false j j1 r1 TR), <- highest_extreme, <- X2.
        destruct (ring_some _ _ _ _ R Hj0) as [v Hv]. destruct (OLD j v Hv) as (w' & W & _ & _ & EM). rewrite Hw in W. injection W as <-. rewrite EM.
        apply (F j v); auto.
      + rewrite highest_extreme. split.
        * intros K. destruct (FLAG j w (NEW _ _ Hj) Hw) as [_ K']. congruence.
        * intros K. exfalso. exact (extreme_new (height vs') news (c_verts c) ND' V WAY' false j0 j1 r1 j TR Hj K).
    - apply X1 in Hi. rewrite lowest_extreme in *. pose proof Hi as (n1 & r1 & TR & _).
      now apply (extreme_old (height vs') news (c_verts c) ND' V WAY' true i n1 r1 TR).
  Qed.
  Lemma onway_nil (Y : nat -> T) i j : nvalid (Y i) -> nvalid (Y j) -> onway Y i [] j.
  Proof.
    intros A B. unfold onway. cbn [app]. destruct (cmp (Y i) (Y j) A B) as [E|[E|E]]; [right; left|right; right|left]; repeat constructor; auto.
  Qed.
  Lemma with_new_nil l : with_new (fun _ => []) l = l.
  Proof. unfold with_new. induction l as [|i l IH]; [reflexivity|]. cbn [flat_map app]. now rewrite IH. Qed.
  (** Contours without crossings *)
  Lemma apart_valleys en (ps : paths) (s : clipper T) : drawable_paths ps -> add_all clipper0 ps = Ok s ->
    Forall (fun v => nvalid (vy (v_pt v))) (verts s) -> find_breaks en (verts s) (starts s) = Ok [] ->
    process_intersect en s = Ok (w_breaks s []) /\ all_valleys (w_breaks s []).
  Proof.
    intros D E V F. split; [unfold process_intersect; rewrite F; reflexivity|].
    destruct (add_all_built ps clipper0 [] [] D (built_nil _)) as (s' & cs & E' & B). rewrite E in E'. injection E' as <-.
    assert (RG : forall c, In c cs -> ring (verts s) (c_verts c) (c_segs c)).
    { intros c Hc. destruct B as (_ & _ & OKC & _). rewrite Forall_forall in OKC. destruct (OKC c Hc) as (f & r & -> & _ & R & _). exact R. }
    assert (HV : forall c i, In c cs -> In i (c_verts c) -> nvalid (height (verts s) i)).
    { intros c i Hc Hi. destruct (ring_some _ _ _ _ (RG c Hc) Hi) as [v Hv]. rewrite (height_some _ _ _ Hv). rewrite Forall_forall in V.
      apply V. eapply nth_error_In; eauto. }
    change (w_breaks s []) with (w_verts (w_breaks s []) (verts s)).
    apply (broken_valleys _ cs s [] (verts s) (fun _ => []) c_segs B).
    - intros c Hc. rewrite with_new_nil. auto.
    - intros i v Hv. exists v. auto.
    - contradiction.
    - intros j w L Hw. apply nth_error_None in L. congruence.
    - intros c i Hc Hi. rewrite with_new_nil in Hi. eauto.
    - intros c i j r Hc (a & b & K & K'). assert (In i (c_verts c) /\ In j (c_verts c)) as [I1 I2].
      { rewrite K. assert (In j (b ++ a)) by (rewrite <- K'; now left). rewrite !in_app_iff in *. cbn. tauto. }
      apply onway_nil; eauto.
  Qed.
End Broken.

(** *** Polygons *)
Lemma seg_at_end p g : seg_at p g 1 = seg_target g.
Proof.
  destruct g as [q|q|q c k|c d q]; cbn; try reflexivity.
  - destruct p, q; cbn. f_equal; lra.
  - unfold curve. destruct p, c, d, q; cbn. f_equal; unfold bern; cbn; lra.
Qed.
(** Along [g] from [p], the vertices [ns] then [j] stand at the parameters [ts] and 1. *)
Lemma follows_heights vs p q ns : forall p0 lo ts hs a j, follows p0 p (SLine q) lo ts hs -> length ts = length ns ->
  strand vs a (ns ++ [j]) hs -> map (height vs) (ns ++ [j]) = map (fun t => (vy p + (vy q - vy p) * t)%R) (ts ++ [1%R]).
Proof.
  induction ns as [|n ns IH]; intros p0 lo ts hs a j F L S.
  - destruct ts; [|discriminate]. destruct hs as [|h hs]; [contradiction|]. cbn in S. destruct S as [(va & vb & _ & B & _ & _ & _ & Tg) S].
    destruct hs; [|contradiction]. cbn [follows] in F. specialize (F 1%R). rewrite seg_at_end in F. cbn [app map].
    rewrite (height_some _ _ _ B), Tg, F. cbn. f_equal. ring.
  - destruct ts as [|t ts]; [discriminate|]. destruct hs as [|h hs]; [contradiction|]. cbn [follows] in F. destruct F as [F1 F2].
    cbn [app strand] in S. destruct S as [(va & vb & _ & B & _ & _ & _ & Tg) S]. cbn [app map]. f_equal.
    + specialize (F1 1%R). rewrite seg_at_end in F1. rewrite (height_some _ _ _ B), Tg, F1. cbn. ring.
    + apply (IH _ _ _ _ n j F2); auto.
Qed.
Lemma increasing_sorted ts : forall lo hi, increasing lo ts hi -> StronglySorted Rlt (lo :: ts ++ [hi]).
Proof.
  induction ts as [|t ts IH]; intros lo hi H; cbn [increasing app] in *.
  - repeat constructor. auto.
  - destruct H as [H1 H2]. apply IH in H2. constructor; auto. constructor; auto.
    apply StronglySorted_inv in H2 as [_ H2]. eapply Forall_impl; [|exact H2]. intros a Ha. lra.
Qed.
Lemma sorted_map {A B} (f : A -> B) (P : B -> B -> Prop) l : StronglySorted P (map f l) -> StronglySorted (fun a b => P (f a) (f b)) l.
Proof.
  induction l as [|x l IH]; intros H; constructor; cbn [map] in H; apply StronglySorted_inv in H as [H1 H2]; auto.
  rewrite Forall_forall in *. intros y Hy. apply H2. now apply in_map.
Qed.
Lemma sorted_impl {A B} (f : A -> B) (P : A -> A -> Prop) (Q : B -> B -> Prop) l : (forall a b, P a b -> Q (f a) (f b)) -> StronglySorted P l -> StronglySorted Q (map f l).
Proof.
  intros K. induction 1 as [|x l S IH F]; cbn [map]; constructor; auto. rewrite Forall_forall in *. intros y Hy.
  apply in_map_iff in Hy as (z & <- & Hz). auto.
Qed.
(** Edges of polygons are straight. *)
Lemma follows_onway vs p q ns ts hs i j : follows p p (SLine q) 0 ts hs -> increasing 0 ts 1 -> length ts = length ns ->
  strand vs i (ns ++ [j]) hs -> height vs i = vy p -> onway (N := R_num) (height vs) i ns j.
Proof.
  intros F I L S Hi. pose proof (follows_heights _ _ _ _ _ _ _ _ _ _ F L S) as M. apply increasing_sorted in I.
  set (f := fun t : R => (vy p + (vy q - vy p) * t)%R) in *.
  assert (M' : map (height vs) (i :: ns ++ [j]) = map f (0%R :: ts ++ [1%R])).
  { cbn [map]. rewrite M, Hi. f_equal. unfold f. ring. }
  unfold onway. destruct (Rtotal_order (vy p) (vy q)) as [C|[C|C]].
  - right; left. apply (sorted_map (height vs) (fun a b => n_ltb a b = true)). rewrite M'.
    apply (sorted_impl f Rlt); auto. intros a b Hab. cbn. apply Rltb_true. unfold f. nra.
  - left. assert (K : forall x, In x (i :: ns ++ [j]) -> height vs x = vy p).
    { intros x Hx. apply (in_map (height vs)) in Hx. rewrite M' in Hx. apply in_map_iff in Hx as (t & <- & _). unfold f. rewrite C. ring. }
    apply Forall_forall. intros x Hx. cbn. apply Reqb_true. rewrite (K x), (K j); auto.
    + right. apply in_or_app. right. now left.
    + destruct Hx as [->|Hx]; [now left|]. right. apply in_or_app. now left.
  - right; right. apply (sorted_map (height vs) (fun a b => n_ltb b a = true)). rewrite M'.
    apply (sorted_impl f Rlt); auto. intros a b Hab. cbn. apply Rltb_true. unfold f. nra.
Qed.

(** The strands of a broken ring *)
Lemma strand_walk {T} (vs : list (vertex T)) news hs e l : forall d x, with_new news l ++ [e] = d :: x -> strand vs d x (flat_map hs l) ->
  (forall i, In i l -> length (hs i) = S (length (news i))) ->
  forall a i b, l = a ++ i :: b -> strand vs i (news i ++ [hd e b]) (hs i).
Proof.
  induction l as [|k l IH]; intros d x E S L a i b El; [destruct a; discriminate|].
  cbn [with_new flat_map app] in E, S. fold (with_new news l) in E. injection E as <- <-.
  rewrite <- app_assoc in S.
  assert (X : exists y, with_new news l ++ [e] = hd e l :: y) by (destruct l; cbn; eauto). destruct X as [y X]. rewrite X in S.
  change (hd e l :: y) with ([hd e l] ++ y) in S. rewrite app_assoc in S. apply strand_split in S as (g1 & g2 & EG & S1 & S2).
  pose proof (strand_len _ _ _ _ S1) as L1. rewrite app_length in L1. cbn [length] in L1.
  assert (K : hs k = g1 /\ flat_map hs l = g2).
  { assert (LK : length (hs k) = length g1) by (rewrite (L k (or_introl eq_refl)); lia). revert EG LK. generalize (hs k) as h. clear.
    intros h. revert g1. induction h as [|z h IH]; intros [|z' g1] EG LK; try discriminate; [auto|]. cbn in EG. injection EG as -> EG.
    destruct (IH g1 EG) as [-> ->]; auto. }
  destruct K as [K1 K2]. destruct a as [|k' a]; cbn [app] in El; injection El as -> El.
  - subst l. now rewrite K1.
  - rewrite last_last in S2. rewrite <- K2 in S2. eapply (IH (hd e l) y); eauto. intros z Hz. apply L. now right.
Qed.
Lemma polygon_valleys en (ps : list (path_type * list (list (outline (T := R))))) (s : clipper R) :
  (forall l, Permutation (en_order en l) l) -> (forall i j, en_addr en i = en_addr en j -> i = j) ->
  Forall polygon (all_outlines ps) -> add_all clipper0 ps = Ok s ->
  exists bs vs', process_intersect en s = Ok (w_verts (w_breaks s bs) vs') /\ all_valleys (w_verts (w_breaks s bs) vs').
Proof.
  intros PO AI P E0. assert (D : drawable_paths ps) by (eapply Forall_impl; [|exact P]; intros o; apply polygon_drawing).
  destruct (drawn_rings ps D) as (s' & ls0 & E & R0 & ST0 & H0). rewrite E0 in E. injection E as <-.
  destruct (add_all_built ps clipper0 [] [] D (built_nil _)) as (s' & cs & E & B). rewrite E0 in E. injection E as <-.
  destruct (built_rings _ _ _ B (items_drawable ps)) as [R ST]. set (ls := map c_verts cs) in *.
  assert (H : forall l, In l ls -> exists o, In o (all_outlines ps) /\ accepted (outline_segs o) = true /\ ring (verts s) l (outline_segs o)).
  { intros l Hl. apply in_map_iff in Hl as (c & <- & Hc). destruct B as (_ & IT & OK & _). rewrite Forall_forall in OK.
    destruct (OK c Hc) as (f & r & EV & NE & R' & _). rewrite EV.
    assert (K : In (c_type c, c_segs c) (filter (fun it => accepted (snd it)) (flat_map (fun x => items (fst x) (concat (snd x))) ps))).
    { cbn [app] in IT. rewrite <- IT. exact (in_map (fun c : contour => (c_type c, c_segs c)) cs c Hc). }
    apply filter_In in K as [K AC]. destruct (items_outline _ _ K) as (o & Ho & EQ). cbn [snd] in *. exists o. rewrite <- EQ. auto. }
  pose proof (drawn_straight ps s ls R H P) as STR.
  destruct (find_breaks_lines en s ls PO R ST STR) as (bs & FB & EX & CR).
  destruct (process_intersect_broken en s ls bs R ST FB) as (vs' & news & PI & RG & ND & LN & OLD & NEW & FLAG). cbn zeta in PI.
  exists (tidy_breaks en bs), vs'. split; [exact PI|].
  apply (broken_valleys _ cs s _ vs' news (fun c => flat_map (pieces_from (verts s) (tidy_breaks en bs)) (c_verts c)) B); auto.
  - intros c Hc. rewrite Forall_forall in RG. apply RG. now apply in_map.
  - intros; exact I.
  - intros c i j r Hc TR. assert (Hl : In (c_verts c) ls) by now apply in_map.
    rewrite Forall_forall in RG. pose proof (RG _ Hl) as R'.
    assert (Hin : forall k, In k (c_verts c) -> In k (concat ls)) by (intros k Hk; apply in_concat; eauto).
    assert (Hi : In i (c_verts c)) by (destruct TR as (a & b & -> & _); apply in_or_app; right; now left).
    destruct (STR i (Hin i Hi)) as (v & q & V & G & _). destruct (C23_exact_lemma en s ls bs AI R EX i v _ (Hin i Hi) V G) as (ts & T1 & T2 & _).
    assert (LT : length ts = length (news i)).
    { assert (L0 : forall ts0 p0 p g0 lo hs, follows p0 p g0 lo ts0 hs -> length hs = S (length ts0)).
      { clear. induction ts0 as [|t ts0 IH]; intros p0 p g0 lo [|h hs] F; try contradiction.
        - destruct hs; [reflexivity|contradiction].
        - destruct F as [_ F]. simpl. f_equal. eapply IH; eauto. }
      apply L0 in T2. rewrite (LN i (Hin i Hi)) in T2. lia. }
    eapply (follows_onway vs' (v_pt v) q (news i) ts); eauto.
    + destruct TR as (a & b & Ec & Er). set (e := hd 0 (c_verts c)).
      assert (Ej : j = hd e b). { subst e. rewrite Ec. destruct b; cbn in Er |- *; [destruct a|]; cbn in *; try discriminate; now injection Er as -> _. }
      rewrite Ej. destruct (c_verts c) as [|f r0] eqn:EC; [destruct a; discriminate|]. cbn [with_new flat_map app ring] in R'. destruct R' as [_ R'].
      eapply (strand_walk vs' news (pieces_from (verts s) (tidy_breaks en bs)) e (f :: r0) f); eauto.
      reflexivity.
    + destruct (OLD i v V) as (w & W & PW & _). now rewrite (height_some _ _ _ W), PW.
Qed.
