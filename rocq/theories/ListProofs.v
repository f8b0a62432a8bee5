(** How polygons are listed does not matter. *)
From Coq Require Import ZArith Bool List Lia Reals Lra Sorted Permutation.
From Verif Require Import Outcome Num Order Rmath Segment Path PathSpec PathProofs RTac VState VPath VBreak VLemmas AelSpec VAel VOut VMain SortProofs
  RingSpec MarkProofs MarkSpec BreakSpec VRing VBuild VAdd VBroken TraceR LineSpec LineR BreakStatements BreakDrawn BreakLines EquiMap RenSort RenRun
  Layout LayoutSpec LayoutLines LayoutProofs ListSpec Listing ListCount ListBreak ListSegs ListRun.
Import ListNotations.
Local Open Scope out.

Lemma kept_items (ks : list listed) : filter (fun it => accepted (snd it)) (map item ks) = map item (filter kept ks).
Proof. induction ks as [|k ks IH]; [reflexivity|]. cbn [map filter item snd]. unfold kept at 1. destruct (accepted _); [cbn [map]; f_equal|]; auto. Qed.
Lemma nodup_filter {A B} (f : A -> list B) (g : A -> bool) l : NoDup (flat_map f l) -> NoDup (flat_map f (filter g l)).
Proof.
  induction l as [|x l IH]; [auto|]. cbn [flat_map filter]. intros ND.
  assert (K : NoDup (f x) /\ NoDup (flat_map f l) /\ forall b, In b (f x) -> In b (flat_map f l) -> False).
  { clear IH. induction (f x) as [|b m IHm]; cbn in ND; [split; [constructor|]; split; [exact ND|contradiction]|]. inversion ND as [|? ? NI ND']; subst. destruct (IHm ND') as (A1 & A2 & A3).
    split; [|split; auto].
    - constructor; auto. intros K. apply NI. apply in_or_app. auto.
    - intros c [<-|C] H; [apply NI; apply in_or_app; auto|eauto]. }
  destruct K as (K1 & K2 & K3). destruct (g x); auto. cbn [flat_map]. apply nodup_join; auto. intros b B1 B2. apply (K3 b B1).
  apply in_flat_map in B2 as (y & Y & B2). apply filter_In in Y as (Y & _). apply in_flat_map. eauto.
Qed.
Lemma overlap_perm (cs ks : list listed) : (forall e, In e (all_sides ks) -> In e (all_sides cs)) -> no_overlap cs -> no_overlap ks.
Proof. intros H NO a b c d t u A C. apply NO; auto. Qed.
Lemma filter_sides (cs : list listed) e : In e (all_sides (filter kept cs)) -> In e (all_sides cs).
Proof. unfold all_sides. rewrite !in_flat_map. intros (c & C & H). apply filter_In in C as (C & _). eauto. Qed.
Lemma straight_sub vs ls ms : (forall i, In i (concat ms) -> In i (concat ls)) -> straight vs ls -> straight vs ms.
Proof. intros H S i Hi. apply S. auto. Qed.
Lemma drawn_built ps (s : clipper R) : Forall polygon (all_outlines ps) -> distinct_corners (listing ps) -> add_all clipper0 ps = Ok s ->
  exists cs, built clipper0 (map item (listing ps)) cs s /\ map (fun c => (c_type c, c_segs c)) cs = map item (filter kept (listing ps)) /\
    rings (verts s) (map c_verts cs) /\ starts s = map (hd 0) (map c_verts cs) /\ straight (verts s) (map c_verts cs).
Proof.
  intros P ND E. pose proof (LayoutLines.polygon_drawing _ P) as D. destruct (add_all_built ps clipper0 [] [] D (built_nil _)) as (s0 & cs & E' & B). rewrite E in E'. injection E' as <-.
  destruct (built_rings _ _ _ B (items_drawable ps)) as [RG SS].
  cbn [app] in B. exists cs. csplit; auto.
  - now rewrite <- contour_items.
  - destruct B as (_ & IT & _). rewrite IT, contour_items by auto. apply kept_items.
  - apply (drawn_straight ps); auto. intros l Hl. apply in_map_iff in Hl as (c & <- & Hc). destruct B as (_ & IT & OK & _). rewrite Forall_forall in OK.
    destruct (OK c Hc) as (f & r & EV & NE & R' & _). rewrite EV.
    assert (K : In (c_type c, c_segs c) (filter (fun it => accepted (snd it)) (flat_map (fun x => items (fst x) (concat (snd x))) ps))).
    { rewrite <- IT. exact (in_map (fun c : contour => (c_type c, c_segs c)) cs c Hc). }
    apply filter_In in K as [K AC]. destruct (items_outline _ _ K) as (o & Ho & EQ). cbn [snd] in *. exists o. rewrite <- EQ. auto.
Qed.

Lemma listing_lemma en en' n (ps ps' : list (path_type * list (list (outline (T := R))))) s s' op fill :
  Forall polygon (all_outlines ps) -> Forall polygon (all_outlines ps') -> same_contours (listing ps) (listing ps') ->
  distinct_corners (listing ps) -> no_overlap (listing ps) -> add_all clipper0 ps = Ok s -> add_all clipper0 ps' = Ok s' ->
  lawful en -> lawful en' -> en_fuel en = en_fuel en' -> omap snd (process en n s op fill) = omap snd (process en' n s' op fill).
Proof.
  intros P P' SC ND NO E E' [PO J] [PO' J'] EF.
  assert (ND' : distinct_corners (listing ps')) by (eapply Permutation_NoDup; [apply same_corners; exact SC|exact ND]).
  destruct (drawn_built ps s P ND E) as (cs & B & IT & RG & SS & ST). destruct (drawn_built ps' s' P' ND' E') as (cs' & B' & IT' & RG' & SS' & ST').
  pose proof (same_corners _ _ SC) as PCC. destruct SC as (m & PM & FA). pose proof (filter_perm kept _ _ PM) as PK. apply kept_alike in FA.
  assert (PC : Permutation (map item (filter kept m)) (map (fun c => (c_type c, c_segs c)) cs)) by (rewrite IT; apply Permutation_map; now symmetry).
  apply Permutation_map_inv in PC as (cs1 & IT1 & PC).
  assert (KM : Forall (fun k => kept k = true) (filter kept m)) by (apply Forall_forall; intros k K; now apply filter_In in K).
  assert (OK1 : Forall (contour_ok (verts s)) cs1) by (destruct B as (_ & _ & OK & _); eapply Permutation_Forall; eauto).
  assert (OK' : Forall (contour_ok (verts s')) cs') by (destruct B' as (_ & _ & OK & _); auto).
  destruct (match_rings s s' _ _ FA KM cs1 cs' (eq_sym IT1) IT' OK1 OK') as (ts & S1 & S2 & M). subst cs1 cs'.
  assert (KS' : Forall (fun k => kept k = true) (filter kept (listing ps'))) by (apply Forall_forall; intros k K; now apply filter_In in K).
  assert (KS : Forall (fun k => kept k = true) (filter kept (listing ps))) by (apply Forall_forall; intros k K; now apply filter_In in K).
  assert (OKC : Forall (contour_ok (verts s)) cs) by (destruct B as (_ & _ & OK & _); auto).
  pose proof (one_place (verts s') _ _ KS' OK' IT' (nodup_filter _ _ _ ND')) as PI.
  pose proof (rings_apart (verts s) _ _ KS OKC IT (nodup_filter _ _ _ ND) (overlap_perm _ _ (filter_sides _) NO)) as AP.
  assert (DR : Forall (fun c => Forall drawable (c_segs c)) (side2 ts)).
  { destruct RG' as (RG' & _). apply Forall_forall. intros c C. rewrite Forall_forall in RG'. assert (K : In (c_type c, c_segs c) (map item (filter kept (listing ps')))).
    { rewrite <- IT'. exact (in_map (fun c : contour => (c_type c, c_segs c)) (side2 ts) c C). }
    apply in_map_iff in K as (k & K & _). injection K as _ <-. unfold segs_of. destruct (snd k) as [|p [|q r]]; [constructor|constructor|]. apply Forall_forall. intros g G. apply in_map_iff in G as (z & <- & _). exact I. }
  assert (LEN : length (verts s') = length (verts s)).
  { rewrite (drawn_length ps s), (drawn_length ps' s') by auto. apply Permutation_length. now symmetry. }
  destruct (renumber s s' ts _ _ cs M B PC B' DR LEN PI op fill) as (q & RN).
  pose proof (nd_side1 s ts _ cs B PC) as ND1. pose proof (nd_side2 s' ts _ B') as ND2.
  pose proof (perm_ls s s' ts M) as PL. assert (PV : Permutation (all_verts cs) (all_verts (side1 ts))) by (unfold all_verts; now apply Permutation_flat_map).
  assert (CV : concat (map c_verts cs) = all_verts cs) by (unfold all_verts; now rewrite flat_map_concat_map).
  assert (IV : forall i, In i (concat (ls1 ts)) <-> In i (concat (map c_verts cs))).
  { intros i. rewrite CV. split; intros K.
    - eapply Permutation_in; [symmetry; exact PV|]. eapply Permutation_in; [exact PL|exact K].
    - eapply Permutation_in; [symmetry; exact PL|]. eapply Permutation_in; [exact PV|exact K]. }
  assert (M2 : map c_verts (side2 ts) = map (map (r0 ts)) (ls1 ts)) by (symmetry; exact (maps_r0 s s' ts M ND1)).
  rewrite M2 in *.
  assert (CM : concat (map (map (r0 ts)) (ls1 ts)) = map (r0 ts) (concat (ls1 ts))) by now rewrite concat_map.
  assert (INJ : forall i j, In i (concat (ls1 ts)) -> In j (concat (ls1 ts)) -> r0 ts i = r0 ts j -> i = j).
  { intros i j Hi Hj K. rewrite <- (r1_r0 s s' ts M ND1 ND2 i Hi), <- (r1_r0 s s' ts M ND1 ND2 j Hj). now rewrite K. }
  assert (SAME : forall i, In i (concat (ls1 ts)) -> exists v w, nth_error (verts s) i = Some v /\ nth_error (verts s') (r0 ts i) = Some w /\ v_pt w = v_pt v /\ v_seg w = v_seg v).
  { intros i Hi. destruct (mv_old _ _ _ _ _ RN i Hi) as (v & w & K). exists v, w. cbn [verts w_op] in K. tauto. }
  assert (ST1 : straight (verts s) (ls1 ts)) by (intros i Hi; apply ST; now apply IV).
  assert (AP' : apart (verts s') (concat (map (map (r0 ts)) (ls1 ts)))).
  { rewrite CM. intros i' j' v w a b t u Hi Hj NE V G W H. apply in_map_iff in Hi as (i & <- & Hi), Hj as (j & <- & Hj).
    destruct (SAME i Hi) as (v0 & v1 & V0 & V1 & P0 & G0). destruct (SAME j Hj) as (w0 & w1 & W0 & W1 & Q0 & H0). rewrite V in V1. injection V1 as <-. rewrite W in W1. injection W1 as <-.
    rewrite P0, Q0. rewrite G in G0. rewrite H in H0. rewrite <- CV in AP. apply (AP i j v0 w0 a b t u); auto; try congruence; now apply IV. }
  rewrite <- CV in AP.
  destruct (find_breaks_exactly en s _ PO RG SS ST AP) as (bs & FB & EX & TO). destruct (find_breaks_exactly en' s' _ PO' RG' SS' ST' AP') as (bs' & FB' & EX' & TO').
  pose proof (find_breaks_vert _ _ _ _ RG SS FB) as FV. pose proof (find_breaks_vert _ _ _ _ RG' SS' FB') as FV'. rewrite CM in FV', TO'.
  assert (FV1 : Forall (fun b => In (br_vert b) (concat (ls1 ts))) bs) by (eapply Forall_impl; [|exact FV]; intros b; apply IV).
  assert (BA : forall i t, broken_at (verts s) (concat (map c_verts cs)) i t <-> broken_at (verts s) (concat (ls1 ts)) i t).
  { intros i t. unfold broken_at. split; intros (T & j & Hj & K); (split; [exact T|]); exists j; (split; [now apply IV|exact K]). }
  assert (TOLD : forall i t, In i (concat (ls1 ts)) -> (told bs' (r0 ts i) t <-> told bs i t)).
  { intros i t Hi. rewrite (TO i t) by now apply IV. rewrite (TO' (r0 ts i) t) by now apply in_map. rewrite BA. now apply broken_at_moved. }
  unfold process, process_intersect. cbn [verts starts w_op]. rewrite FB, FB'. cbn [bind]. cbv zeta.
  destruct (finish_moved n (r0 ts) q (ls1 ts) (w_op s op fill) (w_op s' op fill) (tidy_breaks en bs) (tidy_breaks en' bs') RN) as (vs & vs' & E1 & E2 & Q).
  - now apply tidy_within.
  - rewrite CM. now apply tidy_within.
  - apply (tidy_count (verts s) (verts s') (ls1 ts) (r0 ts)); auto.
  - cbn [verts w_op]. intros i Hi. apply (tidy_after (verts s) (verts s') (ls1 ts) (r0 ts)); auto.
  - cbn [w_op] in *. rewrite E1, E2. cbn [bind]. exact Q.
Qed.
Lemma listing_answer en en' n ps ps' (s s' : clipper R) op fill :
  Forall polygon (all_outlines ps) -> Forall polygon (all_outlines ps') -> same_contours (listing ps) (listing ps') ->
  distinct_corners (listing ps) -> no_overlap (listing ps) -> add_all clipper0 ps = Ok s -> add_all clipper0 ps' = Ok s' ->
  lawful en -> lawful en' -> en_fuel en = en_fuel en' -> same_answer (process en n s op fill) (process en' n s' op fill).
Proof. intros. apply omap_same. now apply listing_lemma with (ps := ps) (ps' := ps'). Qed.
