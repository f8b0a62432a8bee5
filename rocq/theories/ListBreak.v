(** Polygons no two sides of which overlap are broken at their crossings and nowhere else,
    wherever their vertices are numbered. *)
From Coq Require Import ZArith Bool List Lia Reals Lra Sorted Permutation.
From Verif Require Import Outcome Num Order Rmath Segment Path PathSpec RTac ScanLine ScanProofs VState VPath VBreak VLemmas AelSpec SortProofs
  RingSpec BezierSpec BreakSpec VRing VBuild VAdd VCut VBroken TraceR LineSpec LineR BreakStatements BreakLines EquiBreak RenSort.
Import ListNotations.
Local Open Scope out.

(** Sides in one line meet at ends only. *)
Definition apart (vs : list (vertex R)) (ids : list nat) : Prop :=
  forall i j v w q r t u, In i ids -> In j ids -> i <> j -> nth_error vs i = Some v -> v_seg v = Some (SLine q) -> nth_error vs j = Some w -> v_seg w = Some (SLine r) ->
    parallel (v_pt v) q (v_pt w) r -> (0 <= t <= 1)%R -> (0 <= u <= 1)%R -> pt (v_pt v) q t = pt (v_pt w) r u -> t = 0%R \/ t = 1%R.
Definition told (bs : list (break_info R)) (i : nat) (t : R) : Prop := exists b, In b bs /\ br_vert b = i /\ br_t b = t.
Definition broken_at (vs : list (vertex R)) (ids : list nat) (i : nat) (t : R) : Prop := well_inside t /\ exists j, In j ids /\ i <> j /\ crosses vs i j t.
Lemma find_breaks_exactly en (s : clipper R) ls : (forall l, Permutation (en_order en l) l) ->
  rings (verts s) ls -> starts s = map (hd 0) ls -> straight (verts s) ls -> apart (verts s) (concat ls) ->
  exists bs, find_breaks en (verts s) (starts s) = Ok bs /\ Forall (exact_break (verts s)) bs /\
    forall i t, In i (concat ls) -> (told bs i t <-> broken_at (verts s) (concat ls) i t).
Proof.
  intros PO RG SS ST AP. destruct (find_breaks_lines en s ls PO RG SS ST) as (bs & FB & EX & CO). exists bs. csplit; auto.
  intros i t Hi. split; [|intros (T & j & Hj & NE & C); exact (CO i j t Hi Hj NE C T)].
  intros (b & Hb & Bi & Bt). revert FB. unfold find_breaks.
  rewrite SS, all_rings_ok by (destruct RG as [R _]; eapply Forall_impl; [|exact R]; intros l (gs & H & _); eauto).
  cbn [bind]. destruct (vert_boxes_ok (verts s) (concat ls) ST) as (boxes & E & L & W & _). rewrite E. cbn [bind]. intros RP.
  pose proof (C20_lemma (en_order en) boxes PO W) as H. cbv zeta in H. destruct H as (_ & _ & C20).
  destruct (run_pairs_from _ _ _ _ _ RP b Hb) as (a & c & k & m & x & Hac & A & C & X & Bx).
  destruct (proj1 (C20 a c) (or_introl Hac)) as (NE & _).
  assert (NKM : k <> m). { intros <-. apply NE. destruct RG as (_ & ND). apply (proj1 (NoDup_nth_error _) ND); [eapply nth_lt; eauto|congruence]. }
  assert (Hk : In k (concat ls)) by (eapply nth_error_In; eauto). assert (Hm : In m (concat ls)) by (eapply nth_error_In; eauto).
  destruct (ST k Hk) as (v & q & V & G & N1 & F1 & F2). destruct (ST m Hm) as (w & r & Vw & H & N2 & F3 & F4).
  assert (OK : ends_ok (v_pt v) q (v_pt w) r) by (repeat split; auto; apply F1 || apply F2 || apply F3 || apply F4).
  unfold seg_intersect in X. rewrite (proj2 (at_ok _ _ _) V), (proj2 (at_ok _ _ _) Vw) in X. cbn [bind] in X.
  rewrite G, H in X. cbn [bind of_opt] in X. apply bind_ok in X as (res & Er & X). injection X as <-.
  apply pair_in in Bx as (z & Hz & Bx). destruct (C16_sound_lemma _ _ _ _ _ OK Er z Hz) as (M1 & M2 & P1 & P2).
  destruct Bx as [[T ->]|[T ->]]; cbn [br_vert br_t] in Bi, Bt; subst i t; (split; [exact T|]); pose proof (inside_01 _ T) as T01.
  - exists m. csplit; auto. exists v, q, w, r, (it1 z). csplit; auto; try congruence; try lra. intros PL.
    destruct (AP k m v w q r (it0 z) (it1 z)); auto; try congruence; lra.
  - exists k. csplit; auto. exists w, r, v, q, (it0 z). csplit; auto; try congruence; try lra. intros PL.
    destruct (AP m k w v r q (it1 z) (it0 z)); auto; try congruence; lra.
Qed.

(** *** Two strictly increasing lists with the same members *)
Lemma same_increasing (l : list R) : StronglySorted Rlt l -> forall m, StronglySorted Rlt m -> (forall t, In t l <-> In t m) -> l = m.
Proof.
  induction 1 as [|a l S IH F]; intros m SM H.
  - destruct m as [|b m]; auto. destruct (proj2 (H b) (or_introl eq_refl)).
  - destruct m as [|b m]; [destruct (proj1 (H a) (or_introl eq_refl))|]. inversion SM as [|? ? SM' FM]; subst. rewrite Forall_forall in F, FM.
    assert (a = b).
    { destruct (proj1 (H a) (or_introl eq_refl)) as [->|A]; auto. destruct (proj2 (H b) (or_introl eq_refl)) as [->|B]; auto.
      specialize (F b B). specialize (FM a A). lra. }
    subst b. f_equal. apply IH; auto. intros t. specialize (H t). cbn in H. split; intros K.
    + destruct (proj1 H (or_intror K)) as [<-|]; auto. specialize (F a K). lra.
    + destruct (proj2 H (or_intror K)) as [<-|]; auto. specialize (FM a K). lra.
Qed.

Section Moved.
  Variables vs vs' : list (vertex R).
  Variable ls : list (list nat).
  Variable r0 : nat -> nat.
  Hypothesis INJ : forall i j, In i (concat ls) -> In j (concat ls) -> r0 i = r0 j -> i = j.
  Hypothesis SAME : forall i, In i (concat ls) -> exists v w, nth_error vs i = Some v /\ nth_error vs' (r0 i) = Some w /\ v_pt w = v_pt v /\ v_seg w = v_seg v.
  Hypothesis ST : straight vs ls.
  Lemma crosses_moved i j t : In i (concat ls) -> In j (concat ls) -> (crosses vs' (r0 i) (r0 j) t <-> crosses vs i j t).
  Proof.
    intros Hi Hj. destruct (SAME i Hi) as (v & w & V & W & P & G). destruct (SAME j Hj) as (v2 & w2 & V2 & W2 & P2 & G2). unfold crosses. split.
    - intros (v' & q & w' & r & u & A & B & C & D & K). rewrite W in A. injection A as <-. rewrite W2 in C. injection C as <-. rewrite G in B. rewrite G2 in D. rewrite P, P2 in K.
      exists v, q, v2, r, u. csplit; tauto.
    - intros (v' & q & w' & r & u & A & B & C & D & K). rewrite V in A. injection A as <-. rewrite V2 in C. injection C as <-. rewrite <- G in B. rewrite <- G2 in D. rewrite <- P, <- P2 in K.
      exists w, q, w2, r, u. csplit; tauto.
  Qed.
  Lemma broken_at_moved i t : In i (concat ls) -> (broken_at vs' (map r0 (concat ls)) (r0 i) t <-> broken_at vs (concat ls) i t).
  Proof.
    intros Hi. unfold broken_at. split; intros (T & H); split; auto.
    - destruct H as (j' & Hj & NE & C). apply in_map_iff in Hj as (j & <- & Hj). exists j. split; [exact Hj|]. split; [congruence|]. now apply crosses_moved in C.
    - destruct H as (j & Hj & NE & C). exists (r0 j). split; [now apply in_map|]. split; [intros K; apply NE; now apply INJ|now apply crosses_moved].
  Qed.
  Variables en en' : env.
  Hypothesis J : forall i j, en_addr en i = en_addr en j -> i = j.
  Hypothesis J' : forall i j, en_addr en' i = en_addr en' j -> i = j.
  Variables bs bs' : list (break_info R).
  Hypothesis EX : Forall (exact_break vs) bs.
  Hypothesis EX' : Forall (exact_break vs') bs'.
  Hypothesis IN : Forall (fun b => In (br_vert b) (concat ls)) bs.
  Hypothesis IN' : Forall (fun b => In (br_vert b) (map r0 (concat ls))) bs'.
  Hypothesis TOLD : forall i t, In i (concat ls) -> (told bs' (r0 i) t <-> told bs i t).
  Definition relabel (b : break_info R) : break_info R := Break (r0 (br_vert b)) (br_pt b) (br_t b).
  Lemma tidy_times e cs ws i : (forall i j, en_addr e i = en_addr e j -> i = j) -> Forall (exact_break ws) cs ->
    StronglySorted Rlt (map br_t (filter (at_v i) (tidy_breaks e cs))) /\ forall t, In t (map br_t (filter (at_v i) (tidy_breaks e cs))) <-> told cs i t.
  Proof.
    intros JE X. split.
    - assert (SF : StronglySorted (blt e) (filter (at_v i) (tidy_breaks e cs))) by (apply filter_sorted, (tidy_sorted e JE ws cs X)).
      assert (FX : forall b, In b (filter (at_v i) (tidy_breaks e cs)) -> br_vert b = i) by (intros b B; apply filter_In in B as (_ & B); now apply Nat.eqb_eq in B).
      revert SF FX. generalize (filter (at_v i) (tidy_breaks e cs)) as m. induction 1 as [|b m SM IH F]; intros FX; [constructor|]. cbn [map]. constructor.
      + apply IH. intros c Hc. apply FX. now right.
      + rewrite Forall_forall in *. intros t Ht. apply in_map_iff in Ht as (c & <- & Hc). destruct (F c Hc) as [K|[_ K]]; auto.
        rewrite (FX b (or_introl eq_refl)), (FX c (or_intror Hc)) in K. lia.
    - intros t. rewrite in_map_iff. split.
      + intros (b & <- & Hb). apply filter_In in Hb as (Hb & E). apply tidy_in in Hb. apply Nat.eqb_eq in E. exists b. auto.
      + intros (b & Hb & E & Et).
        assert (IS : In b (sort_by (break_ltb e) cs)) by (apply (Permutation_in _ (sort_by_perm _ cs)); auto).
        destruct (fun X => unique_by_rep break_eqb (fun x => br_vert x = i /\ br_t x = t) (sort_by (break_ltb e) cs) b X IS (conj E Et)) as (z & Hz & E1 & E2).
        * intros x y Q [Q1 Q2]. unfold break_eqb in Q. apply andb_true_iff in Q as [Q Q3]. apply andb_true_iff in Q as [Q4 _].
          apply Nat.eqb_eq in Q4. cbn [n_eqb R_num] in Q3. apply Reqb_true in Q3. split; congruence.
        * exists z. split; auto. apply filter_In. split; [exact Hz|]. now apply Nat.eqb_eq.
  Qed.
  Lemma times_lists (l m : list (break_info R)) : map br_t l = map br_t m -> (forall b, In b l -> forall c, In c m -> br_t b = br_t c -> relabel b = c) -> map relabel l = m.
  Proof.
    revert m. induction l as [|b l IH]; intros [|c m] E H; try discriminate; auto. cbn in *. injection E as E1 E2. f_equal; [apply H; auto|]. apply IH; auto.
  Qed.
  Lemma tidy_moved i : In i (concat ls) -> filter (at_v (r0 i)) (tidy_breaks en' bs') = map relabel (filter (at_v i) (tidy_breaks en bs)).
  Proof.
    intros Hi. symmetry. destruct (tidy_times en bs vs i J EX) as (S1 & H1). destruct (tidy_times en' bs' vs' (r0 i) J' EX') as (S2 & H2). apply times_lists.
    - apply same_increasing; auto. intros t. rewrite H1, H2. symmetry. now apply TOLD.
    - intros b B c C E. apply filter_In in B as (B & Bi), C as (C & Ci). apply tidy_in in B, C. apply Nat.eqb_eq in Bi, Ci. rewrite Forall_forall in EX, EX'.
      destruct (EX b B) as (_ & v & g & V & G & P). destruct (EX' c C) as (_ & v' & g' & V' & G' & P'). rewrite Bi in V. rewrite Ci in V'.
      destruct (SAME i Hi) as (v1 & w1 & V1 & W1 & Q1 & Q2). rewrite V in V1. injection V1 as <-. rewrite V' in W1. injection W1 as <-.
      rewrite Q2, G in G'. injection G' as <-. rewrite Q1, <- E, <- P in P'. destruct c as [ci cp ct]. unfold relabel. cbn in *. rewrite Bi. congruence.
  Qed.
  Lemma filter_relabel i l : In i (concat ls) -> Forall (fun b => In (br_vert b) (concat ls)) l -> filter (at_v (r0 i)) (map relabel l) = map relabel (filter (at_v i) l).
  Proof.
    intros Hi. induction 1 as [|b l B F IH]; [reflexivity|]. cbn [map filter]. rewrite IH.
    change (at_v (r0 i) (relabel b)) with (Nat.eqb (r0 (br_vert b)) (r0 i)). change (at_v i b) with (Nat.eqb (br_vert b) i).
    destruct (Nat.eqb_spec (r0 (br_vert b)) (r0 i)) as [E|E], (Nat.eqb_spec (br_vert b) i) as [E'|E'].
    - reflexivity.
    - exfalso. apply E'. now apply INJ.
    - congruence.
    - reflexivity.
  Qed.
  Lemma filter_other i (l : list (break_info R)) ids : Forall (fun b => In (br_vert b) ids) l -> ~ In i ids -> filter (at_v i) l = [].
  Proof.
    intros F NI. induction F as [|b l B F IH]; [reflexivity|]. cbn [filter]. unfold at_v at 1. destruct (Nat.eqb_spec (br_vert b) i) as [<-|]; [contradiction|auto].
  Qed.
  Lemma tidy_within e (cs : list (break_info R)) ids : Forall (fun b => In (br_vert b) ids) cs -> Forall (fun b => In (br_vert b) ids) (tidy_breaks e cs).
  Proof. intros H. rewrite Forall_forall in *. intros b Hb. apply H. now apply tidy_in in Hb. Qed.
  Lemma tidy_count : length (tidy_breaks en bs) = length (tidy_breaks en' bs').
  Proof.
    rewrite <- (map_length relabel). apply Permutation_length. apply same_filters. intros i'. destruct (in_dec Nat.eq_dec i' (map r0 (concat ls))) as [Y|NO].
    - apply in_map_iff in Y as (i & <- & Hi). rewrite filter_relabel, tidy_moved; auto. now apply tidy_within.
    - rewrite (filter_other i' _ (map r0 (concat ls))), (filter_other i' (tidy_breaks en' bs') (map r0 (concat ls))); auto; [now apply tidy_within|].
      apply Forall_forall. intros b B. apply in_map_iff in B as (c & <- & C). cbn. apply in_map. pose proof (tidy_within en bs _ IN) as K. rewrite Forall_forall in K. auto.
  Qed.
  Lemma tidy_after i : In i (concat ls) ->
    after vs' (one_seg vs') (runs (tidy_breaks en' bs')) (r0 i) = after vs (one_seg vs) (runs (tidy_breaks en bs)) i.
  Proof.
    intros Hi. rewrite !after_pieces. unfold pieces_from. destruct (SAME i Hi) as (v & w & V & W & P & G). rewrite V, W, G, P.
    destruct (ST i Hi) as (v1 & q & V1 & G1 & _). rewrite V in V1. injection V1 as <-. rewrite G1.
    rewrite (sorted_runs en (tidy_breaks en bs)) by (apply (tidy_sorted en J vs); auto). rewrite (sorted_runs en' (tidy_breaks en' bs')) by (apply (tidy_sorted en' J' vs'); auto).
    pose proof (tidy_moved i Hi) as M. unfold at_v in M. rewrite M. destruct (filter _ (tidy_breaks en bs)) as [|b l]; [reflexivity|].
    cbn [map cuts fold_left recut cut app relabel br_pt]. rewrite map_map. reflexivity.
  Qed.
End Moved.
