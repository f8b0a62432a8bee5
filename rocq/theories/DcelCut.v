(** Where the lines are broken. *)
From Coq Require Import ZArith Bool List Reals Lra Lia Permutation Sorted.
From Verif Require Import Outcome Num Order Rmath RTac RectSpec ScanLine ScanProofs VState VLemmas SortProofs LineSpec LineR.
From Verif Require Import Dcel DcelSpec DcelBase DcelBreak DcelFace DcelLink DcelSplit DcelUnique DcelProcess DcelR DcelLaySpec DcelKept DcelPieces.
Import ListNotations.
Local Open Scope out.

Implicit Types d : dcel R.
Definition vlt (a b : vec2 R) : Prop := vec_ltb a b = true.
Lemma vlt_iff a b : vlt a b <-> (vx a < vx b \/ vx a = vx b /\ vy a < vy b)%R.
Proof.
  unfold vlt, vec_ltb. rops. destruct (Rltb (vx a) (vx b)) eqn:E; [apply Rltb_true in E; tauto|]. apply Rltb_false in E.
  destruct (Reqb (vx a) (vx b)) eqn:E2; [apply Reqb_true in E2|apply Reqb_false in E2].
  - rewrite Rltb_true. lra.
  - split; [discriminate|]. lra.
Qed.
Lemma vlt_trans a b c : vlt a b -> vlt b c -> vlt a c.
Proof. rewrite !vlt_iff. lra. Qed.
Lemma vlt_neq a b : vlt a b -> a <> b.
Proof. rewrite vlt_iff. intros H ->. lra. Qed.
Lemma oset_in x l y : In y (oset_insert vec_ltb x l) <-> y = x \/ In y l.
Proof.
  induction l as [|z r IH]; cbn; [intuition|]. destruct (vec_ltb x z) eqn:E1; [cbn; intuition|]. destruct (vec_ltb z x) eqn:E2.
  - cbn. rewrite IH. intuition.
  - rewrite (vec_ltb_total x z E1 E2). cbn. intuition.
Qed.
Lemma oset_sorted x l : StronglySorted vlt l -> StronglySorted vlt (oset_insert vec_ltb x l).
Proof.
  induction l as [|z r IH]; cbn; intros S; [constructor; [constructor|constructor]|]. inversion S as [|? ? S' F]; subst.
  destruct (vec_ltb x z) eqn:E1; [|destruct (vec_ltb z x) eqn:E2; auto].
  - constructor; auto. constructor; auto. eapply Forall_impl; [|exact F]. intros y Hy. eapply vlt_trans; eauto.
  - constructor; auto. rewrite Forall_forall in *. intros y Hy. apply oset_in in Hy as [->|Hy]; auto.
Qed.
Lemma sorted_nodup l : StronglySorted vlt l -> NoDup l.
Proof.
  induction 1 as [|x l S IH F]; constructor; auto. intros H. rewrite Forall_forall in F. exact (vlt_neq _ _ (F x H) eq_refl).
Qed.

Definition has d (e : nat) (p : vec2 R) : Prop := exists h, live d e h /\ In p (h_breaks h).
Definition ordered d : Prop := forall e h, live d e h -> StronglySorted vlt (h_breaks h).
Lemma add_break_has d e p d' : add_break_point d e p = Ok d' ->
  (forall i q, has d' i q <-> has d i q \/ i = e /\ q = p) /\ (ordered d -> ordered d').
Proof.
  unfold add_break_point. intros H. apply hmod_inv in H as ((h0 & L0) & ->). split.
  - intros i q. split.
    + intros (h & L & I). apply live_hmod in L. destruct (Nat.eqb_spec e i) as [<-|NE]; [|left; exists h; auto].
      destruct L as (x & L & ->). cbn in I. apply oset_in in I as [->|I]; auto. left. exists x. auto.
    + intros [(h & L & I)|(-> & ->)].
      * destruct (Nat.eqb e i) eqn:E.
        -- eexists. split; [apply live_hmod; rewrite E; exists h; split; [exact L|reflexivity]|]. cbn. apply oset_in. auto.
        -- exists h. split; auto. apply live_hmod. now rewrite E.
      * eexists. split; [apply live_hmod; rewrite Nat.eqb_refl; exists h0; split; [exact L0|reflexivity]|]. cbn. apply oset_in. auto.
  - intros O i h L. apply live_hmod in L. destruct (Nat.eqb e i); [|eauto]. destruct L as (x & L & ->). cbn. apply oset_sorted. eauto.
Qed.
Lemma add_break_if_has c d e p d' : add_break_if c d e p = Ok d' ->
  (forall i q, has d' i q <-> has d i q \/ c = true /\ i = e /\ q = p) /\ (ordered d -> ordered d').
Proof.
  destruct c; cbn; intros H.
  - apply add_break_has in H as (A & B). split; auto. intros i q. rewrite A. tauto.
  - injection H as <-. split; auto. intros i q. split; auto. intros [K|(K & _)]; [auto|discriminate].
Qed.

(** *** One pair *)
Definition cut (a b a' b' p : vec2 R) : Prop :=
  on_segment p a b /\ on_segment p a' b' /\ (~ parallel a b a' b' \/ p = a \/ p = b \/ p = a' \/ p = b').
Lemma parallel_sym a b a' b' : parallel a b a' b' -> parallel a' b' a b.
Proof. unfold parallel. lra. Qed.
Lemma cut_sym a b a' b' p : cut a b a' b' p -> cut a' b' a b p.
Proof. unfold cut. intros (A & B & C). split; auto. split; auto. destruct C as [C|C]; [left; intros K; apply C; now apply parallel_sym|]. tauto. Qed.
Lemma intersect_cut p0 p1 p2 p3 l : ends_ok p0 p1 p2 p3 -> intersect_lines p0 p1 p2 p3 = Ok l -> forall i, In i l -> cut p0 p1 p2 p3 (ip i).
Proof.
  intros OK H i Hi. pose proof (C16_sound_lemma _ _ _ _ _ OK H i Hi) as (A & B & C & D).
  split; [exists (it0 i); auto|]. split; [exists (it1 i); auto|]. destruct (parallel_dec p0 p1 p2 p3) as [P|P]; [right|left; auto].
  destruct (Req_dec (dist2_point_line p0 p2 p3) 0) as [Z|Z].
  - assert (Hon : on_segment p0 p2 p3) by (apply dist0_on_segment; auto; apply OK).
    destruct (C16_collinear_partial_lemma _ _ _ _ OK P Hon) as (l' & E & K). rewrite H in E. injection E as <-.
    destruct (proj1 (K (ip i)) (in_map ip _ _ Hi)) as [([->| ->] & _)|([->| ->] & _)]; auto.
  - exfalso. unfold intersect_lines in H.
    replace (n_eqb (dist2_point_line p0 p2 p3) (n_ofZ 0)) with false in H by (symmetry; rops; apply Reqb_false; auto).
    match type of H with (if ?c then _ else _) = _ => replace c with true in H end.
    * inversion H; subst; contradiction.
    * symmetry. apply orb_true_iff. left. exact (par_den _ _ _ _ P).
Qed.
Definition sa d e := fst (snd (seg_at d e)).
Definition sb d e := snd (snd (seg_at d e)).
Lemma sa_live d e h : live d e h -> sa d e = coord d (h_start h).
Proof. intros L. unfold sa. now rewrite (seg_at_live _ _ _ L). Qed.
Lemma sb_live d e h : live d e h -> sb d e = coord d (h_end h).
Proof. intros L. unfold sb. now rewrite (seg_at_live _ _ _ L). Qed.
Lemma proper_fin d e h : wf d -> proper d -> live d e h -> fin (coord d (h_start h)) /\ fin (coord d (h_end h)).
Proof.
  intros ((R1 & R2 & R3) & _) (P1 & P2) L. destruct (R3 e h L) as (S1 & E1).
  assert (FA : forall i, i < length (d_points d) -> fin (coord d i)).
  { intros i Hi. destruct (nth_some _ _ Hi) as (x & Ex). unfold coord. rewrite Ex. rewrite Forall_forall in P1. apply P1. eapply nth_error_In; eauto. }
  auto.
Qed.
Lemma pair_ends_ok d l hl r hr : wf d -> proper d -> live d l hl -> live d r hr -> ends_ok (sa d l) (sb d l) (sa d r) (sb d r).
Proof.
  intros W P Ll Lr. rewrite (sa_live _ _ _ Ll), (sb_live _ _ _ Ll), (sa_live _ _ _ Lr), (sb_live _ _ _ Lr).
  destruct (proper_fin d l hl W P Ll) as (A & B). destruct (proper_fin d r hr W P Lr) as (C & D). destruct P as (_ & P2).
  split; [eauto|]. split; [eauto|]. auto.
Qed.
Lemma half_intersect_has d l r hl hr d' : wf d -> proper d -> live d l hl -> live d r hr -> half_intersect d l r = Ok d' ->
  (forall i p, has d i p -> has d' i p) /\
  (forall i p, has d' i p -> has d i p \/ (i = l \/ i = r) /\ cut (sa d l) (sb d l) (sa d r) (sb d r) p) /\
  (forall p, ~ parallel (sa d l) (sb d l) (sa d r) (sb d r) -> on_segment p (sa d l) (sb d l) -> on_segment p (sa d r) (sb d r) -> has d' l p /\ has d' r p) /\
  (ordered d -> ordered d').
Proof.
  intros W P Ll Lr H. pose proof (pair_ends_ok d l hl r hr W P Ll Lr) as OK. unfold half_intersect in H.
  rewrite (proj2 (half_at_ok d l hl) Ll), (proj2 (half_at_ok d r hr) Lr) in H. cbn [bind] in H.
  pose proof W as ((R1 & R2 & R3) & _). destruct (R3 l hl Ll) as (S1 & E1). destruct (R3 r hr Lr) as (S2 & E2).
  destruct (coord_run d _ S1) as (p0 & Q0 & C0). destruct (coord_run d _ E1) as (p1 & Q1 & C1).
  destruct (coord_run d _ S2) as (p2 & Q2 & C2). destruct (coord_run d _ E2) as (p3 & Q3 & C3). rewrite Q0, Q1, Q2, Q3 in H. cbn [bind] in H.
  rewrite C0, C1, C2, C3, <- (sa_live _ _ _ Ll), <- (sb_live _ _ _ Ll), <- (sa_live _ _ _ Lr), <- (sb_live _ _ _ Lr) in H.
  apply bind_ok in H as (res & HI & H). pose proof (intersect_cut _ _ _ _ _ OK HI) as SD.
  assert (CP : forall p, ~ parallel (sa d l) (sb d l) (sa d r) (sb d r) -> on_segment p (sa d l) (sb d l) -> on_segment p (sa d r) (sb d r) ->
    exists i, res = [i] /\ ip i = p).
  { intros p NP (s & Hs & Es) (t & Ht & Et). rewrite (C16_complete_lemma _ _ _ _ s t NP Hs Ht) in HI by congruence. injection HI as <-. eexists. split; [reflexivity|]. cbn. auto. }
  destruct res as [|i [|j [|k res]]].
  - injection H as <-. csplit; auto. intros p NP A B. destruct (CP p NP A B) as (i & E & _). discriminate.
  - apply bind_ok in H as (d1 & H1 & H). apply add_break_has in H1 as (A1 & O1). apply add_break_has in H as (A2 & O2). csplit; auto.
    + intros x p K. apply A2. left. apply A1. auto.
    + intros x p K. apply A2 in K as [K|(-> & ->)]; [apply A1 in K as [K|(-> & ->)]; auto|]; right; (split; [auto|]); apply SD; now left.
    + intros p NP A B. destruct (CP p NP A B) as (x & E & <-). injection E as <-. split; apply A2; [right; auto|left; apply A1; right; auto].
  - apply bind_ok in H as (d1 & H1 & H). apply bind_ok in H as (d2 & H2 & H). apply bind_ok in H as (d3 & H3 & H).
    apply add_break_if_has in H1 as (A1 & O1). apply add_break_if_has in H2 as (A2 & O2). apply add_break_if_has in H3 as (A3 & O3). apply add_break_if_has in H as (A4 & O4).
    csplit; auto.
    + intros x p K. apply A4. left. apply A3. left. apply A2. left. apply A1. auto.
    + intros x p K. apply A4 in K as [K|(_ & -> & ->)]; [apply A3 in K as [K|(_ & -> & ->)]; [apply A2 in K as [K|(_ & -> & ->)]; [apply A1 in K as [K|(_ & -> & ->)]; auto|]|]|];
        right; (split; [auto|]); apply SD; cbn; auto.
    + intros p NP A B. destruct (CP p NP A B) as (x & E & _). discriminate.
  - injection H as <-. csplit; auto. intros p NP A B. destruct (CP p NP A B) as (x & E & _). discriminate.
Qed.

(** *** All pairs *)
Lemma sbb_seg d d' i h : same_but_breaks d d' -> live d i h -> seg_at d' i = seg_at d i.
Proof.
  intros S L. pose proof S as (A1 & A2 & A3 & A4 & A5 & A6 & A7 & A8 & A9). destruct (A9 i h L) as (h' & L'). destruct (A8 i h' L') as (h0 & L0 & E).
  rewrite (live_inj _ _ _ _ L0 L) in E. rewrite (seg_at_live _ _ _ L), (seg_at_live _ _ _ L'). rewrite E. unfold tseg. cbn. now rewrite !(sbb_coord d d').
Qed.
Lemma intersect_all_has ids pairs : forall d d', wf d -> proper d -> (forall e, In e ids -> exists h, live d e h) -> intersect_all d ids pairs = Ok d' ->
  (forall i p, has d i p -> has d' i p) /\
  (forall i p, has d' i p -> has d i p \/ exists x y a b, In (x, y) pairs /\ nth_error ids x = Some a /\ nth_error ids y = Some b /\
     cut (sa d a) (sb d a) (sa d b) (sb d b) p /\ (i = a \/ i = b)) /\
  (forall x y a b p, In (x, y) pairs -> nth_error ids x = Some a -> nth_error ids y = Some b ->
     ~ parallel (sa d a) (sb d a) (sa d b) (sb d b) -> on_segment p (sa d a) (sb d a) -> on_segment p (sa d b) (sb d b) -> has d' a p /\ has d' b p) /\
  (ordered d -> ordered d').
Proof.
  induction pairs as [|[x y] r IH]; intros d d' W P HL H; cbn [intersect_all] in H.
  - injection H as <-. csplit; auto. intros x y a b p [].
  - apply bind_ok in H as (a & HA & H). apply bind_ok in H as (b & HB & H). apply bind_ok in H as (d1 & H1 & H). apply at_ok in HA, HB.
    destruct (HL a (nth_error_In _ _ HA)) as (ha & La). destruct (HL b (nth_error_In _ _ HB)) as (hb & Lb).
    destruct (half_intersect_has d a b ha hb d1 W P La Lb H1) as (A1 & A2 & A3 & A4). apply half_intersect_sbb in H1.
    assert (HL1 : forall e, In e ids -> exists h, live d1 e h) by (intros e He; destruct (HL e He) as (h & L); destruct H1 as (_ & _ & _ & _ & _ & _ & _ & _ & A9); eauto).
    destruct (IH d1 d' (sbb_wf _ _ H1 W) (sbb_proper _ _ H1 P) HL1 H) as (B1 & B2 & B3 & B4).
    assert (SG : forall k c, nth_error ids k = Some c -> sa d1 c = sa d c /\ sb d1 c = sb d c).
    { intros k c K. destruct (HL c (nth_error_In _ _ K)) as (h & L). unfold sa, sb. now rewrite (sbb_seg d d1 c h H1 L). }
    csplit; auto.
    + intros i p K. apply B2 in K as [K|(u & v & c & e & I1 & I2 & I3 & I4 & I5)].
      * apply A2 in K as [K|(K1 & K2)]; auto. right. exists x, y, a, b. csplit; auto. now left.
      * right. exists u, v, c, e. destruct (SG _ _ I2) as (<- & <-). destruct (SG _ _ I3) as (<- & <-). csplit; auto. now right.
    + intros u v c e p [E|I1] I2 I3 NP O1 O2.
      * injection E as <- <-. rewrite HA in I2. injection I2 as <-. rewrite HB in I3. injection I3 as <-. destruct (A3 p NP O1 O2); auto.
      * destruct (SG _ _ I2) as (S1 & S2). destruct (SG _ _ I3) as (S3 & S4). rewrite <- S1, <- S2, <- S3, <- S4 in NP. rewrite <- S1, <- S2 in O1. rewrite <- S3, <- S4 in O2. eauto.
Qed.

Definition breaks_right d d1 : Prop :=
  (forall i p, has d1 i p -> exists j, j <> i /\ In i (d_edges d) /\ In j (d_edges d) /\ cut (sa d i) (sb d i) (sa d j) (sb d j) p) /\
  (forall i j p, i <> j -> In i (d_edges d) -> In j (d_edges d) -> ~ parallel (sa d i) (sb d i) (sa d j) (sb d j) ->
     on_segment p (sa d i) (sb d i) -> on_segment p (sa d j) (sb d j) -> has d1 i p) /\
  ordered d1.
Lemma process_break_parts en d d' : (forall l, Permutation (de_order en l) l) -> wf d -> proper d -> unbroken d -> process_break en d = Ok d' ->
  exists d1, same_but_breaks d d1 /\ breaks_right d d1 /\ break_halves d1 (by_addr en (d_edges d1)) = Ok d'.
Proof.
  intros PO W P UB H. unfold process_break in H. destruct (by_addr_live en d W) as (B1 & B2).
  destruct (half_boxes_R d (by_addr en (d_edges d)) W P B2) as (bs & E & LN & WB & IB). rewrite E in H. cbn [bind] in H.
  pose proof (C20_lemma (de_order en) bs PO WB) as K. cbv zeta in K. set (prs := scan_process _ _) in *. destruct K as (_ & _ & C20).
  apply bind_ok in H as (d1 & H1 & H). exists d1. pose proof (intersect_all_sbb _ _ _ _ H1) as S1. split; auto. split; auto.
  destruct (intersect_all_has _ _ _ _ W P B2 H1) as (A1 & A2 & A3 & A4). pose proof W as ((R1 & R2 & R3) & _).
  assert (IN : forall k e, nth_error (by_addr en (d_edges d)) k = Some e -> In e (d_edges d)) by (intros k e K; apply R2, B2; eapply nth_error_In; eauto).
  assert (DIF : forall x y a b, In (x, y) prs -> nth_error (by_addr en (d_edges d)) x = Some a -> nth_error (by_addr en (d_edges d)) y = Some b -> a <> b).
  { intros x y a b I X Y <-. destruct (proj1 (C20 x y) (or_introl I)) as (NE & _). apply NE. apply (proj1 (NoDup_nth_error _) B1); [eapply nth_lt; eauto|congruence]. }
  split; [|split].
  - intros i p K. apply A2 in K as [(h & L & K)|(x & y & a & b & I1 & I2 & I3 & I4 & I5)].
    + rewrite (UB i h L) in K. destruct K.
    + pose proof (DIF x y a b I1 I2 I3) as NE. destruct I5 as [->| ->]; [exists b|exists a]; csplit; eauto. now apply cut_sym.
  - intros i j p NE Hi Hj NP O1 O2.
    assert (FI : forall e, In e (d_edges d) -> exists k h bx, nth_error (by_addr en (d_edges d)) k = Some e /\ live d e h /\ nth_error bs k = Some bx /\ (forall q, on_segment q (sa d e) (sb d e) -> inbox bx q)).
    { intros e He. destruct (proj1 (R2 e) He) as (h & L). apply (Permutation_in _ (by_addr_perm en _)) in He. destruct (In_nth_error _ _ He) as (k & K).
      destruct (IB k e h K L) as (bx & BX & I). exists k, h, bx. csplit; auto. intros q (t & Ht & ->). rewrite (sa_live _ _ _ L), (sb_live _ _ _ L). auto. }
    destruct (FI i Hi) as (x & hi & bi & X & Li & BI & II). destruct (FI j Hj) as (y & hj & bj & Y & Lj & BJ & IJ).
    assert (PR : In (x, y) prs \/ In (y, x) prs).
    { apply C20. split; [intros ->; congruence|]. exists bi, bj, p. csplit; auto. split; exact I. }
    destruct PR as [PR|PR].
    + exact (proj1 (A3 x y i j p PR X Y NP O1 O2)).
    + refine (proj2 (A3 y x j i p PR Y X _ O2 O1)). intros K. apply NP. now apply parallel_sym.
  - apply A4. intros e h L. rewrite (UB e h L). constructor.
Qed.
