(** Faces: linking the half edges and splitting. *)
From Coq Require Import ZArith Bool List Permutation Lia.
From Verif Require Import Outcome Num Order Rmath RectSpec ScanLine VState VLemmas SortProofs MarkProofs Dcel DcelSpec DcelBase DcelBreak.
Import ListNotations.
Local Open Scope out.

Lemma map_ext_fst {A B} (l : list (A * B)) l' : Permutation l l' -> Permutation (map fst l) (map fst l').
Proof. apply Permutation_map. Qed.

Section Faces.
  Context {T : Type} {N : Num T}.
  Implicit Types d : dcel T.
  Variable en : denv.

  (** *** Sorting the lists of the points *)
  (** Only the order in the lists of the points differs. *)
  Definition same_but_order d d' : Prop :=
    d_halves d' = d_halves d /\ d_pset d' = d_pset d /\ d_edges d' = d_edges d /\ d_fpool d' = d_fpool d /\
    d_faces d' = d_faces d /\ d_type d' = d_type d /\ map p_at (d_points d') = map p_at (d_points d) /\
    forall k p', nth_error (d_points d') k = Some p' -> exists p, nth_error (d_points d) k = Some p /\
      Permutation (p_edges p) (p_edges p').
  Lemma sbo_refl d : same_but_order d d.
  Proof. unfold same_but_order; csplit; eauto. Qed.
  Lemma sbo_trans d1 d2 d3 : same_but_order d1 d2 -> same_but_order d2 d3 -> same_but_order d1 d3.
  Proof.
    intros (A1 & A2 & A3 & A4 & A5 & A6 & A7 & A8) (B1 & B2 & B3 & B4 & B5 & B6 & B7 & B8).
    unfold same_but_order; csplit; try congruence. intros k p' H. destruct (B8 k p' H) as (p & K & E).
    destruct (A8 k p K) as (p0 & K0 & E0). exists p0. split; auto. etransitivity; eauto.
  Qed.
  Lemma sbo_wf d d' : same_but_order d d' -> wf d -> wf d'.
  Proof.
    intros (A1 & A2 & A3 & A4 & A5 & A6 & A7 & A8) ((R1 & R2 & R3) & HS & HP).
    assert (LN : length (d_points d') = length (d_points d)) by (rewrite <- !(map_length p_at); congruence).
    assert (LV : forall i h, live d' i h <-> live d i h) by (intros; unfold live; now rewrite A1).
    split; [|split].
    - unfold registered, live. rewrite A1, A3, LN. auto.
    - intros k p' K. destruct (A8 k p' K) as (p & K0 & E). destruct (HS k p K0) as (S1 & S2 & S3). split; [|split].
      + eapply Permutation_NoDup; eauto.
      + intros e. setoid_rewrite LV. rewrite <- S2. split; apply Permutation_in; auto. now symmetry.
      + intros e. setoid_rewrite LV. rewrite <- S3. split; apply Permutation_in; auto. now symmetry.
    - unfold all_in_set. now rewrite A2, LN.
  Qed.
  Lemma sbo_twinned d d' : same_but_order d d' -> twinned d -> twinned d'.
  Proof. intros (A1 & _) H. unfold twinned, live in *. now rewrite A1. Qed.

  Lemma sort_angle_run d e h : wf d -> live d e h -> exists a, sort_angle d e = Ok a.
  Proof.
    intros ((R1 & R2 & R3) & _) L. unfold sort_angle. rewrite (proj2 (half_at_ok d e h) L). cbn [bind].
    destruct (R3 e h L) as (Ls & Le).
    destruct (point_run d _ Ls) as (p & _ & ->). destruct (point_run d _ Le) as (q & _ & ->). cbn [bind]. eauto.
  Qed.
  Lemma sort_vector_run d l : wf d -> twinned d -> (forall e em, In (e, em) l -> exists h, live d e h) ->
    exists v, sort_vector d l = Ok v /\ map fst v = l.
  Proof.
    intros W HT. induction l as [|[e em] r IH]; intros HL; cbn; [eauto|].
    destruct (HL e em (or_introl eq_refl)) as (h & L).
    destruct IH as (v & Rv & Ev); [intros; eapply HL; right; eauto|].
    destruct em.
    - destruct (sort_angle_run d e h W L) as (a & ->). cbn. rewrite Rv. cbn. eexists; split; [reflexivity|]. cbn. now rewrite Ev.
    - rewrite (proj2 (half_at_ok d e h) L). cbn. destruct (HT e h L) as (t & ht & -> & _ & Lt & _). cbn.
      destruct (sort_angle_run d t ht W Lt) as (a & ->). cbn. rewrite Rv. cbn. eexists; split; [reflexivity|]. cbn. now rewrite Ev.
  Qed.
  Lemma sort_point_run d i : wf d -> twinned d -> i < length (d_points d) ->
    exists d', sort_point en d i = Ok d' /\ same_but_order d d'.
  Proof.
    intros W HT Hi. unfold sort_point. destruct (point_run d i Hi) as (p & Kp & ->). cbn [bind].
    pose proof W as (_ & HS & _). destruct (HS i p Kp) as (S1 & S2 & S3).
    destruct (sort_vector_run d (p_edges p) W HT) as (v & -> & Ev).
    { intros e [] I; [apply S2 in I|apply S3 in I]; destruct I as (h & L & _); eauto. }
    cbn [bind]. rewrite (dpmod_run d i _ p Kp). eexists. split; [reflexivity|].
    unfold same_but_order; cbn; csplit; auto.
    - now apply map_upd_keep.
    - intros k p' K. rewrite nth_upd in K. destruct (Nat.eqb i k) eqn:E.
      + apply Nat.eqb_eq in E; subst k. rewrite Kp in K. cbn in K. injection K as <-. exists p. split; auto. cbn.
        rewrite <- Ev. apply Permutation_map. apply sort_by_perm.
      + exists p'. auto.
  Qed.
  Lemma sort_points_run l : forall d, wf d -> twinned d -> Forall (fun i => i < length (d_points d)) l ->
    exists d', sort_points en d l = Ok d' /\ same_but_order d d'.
  Proof.
    induction l as [|i r IH]; intros d W HT HF; cbn; [eauto using sbo_refl|]. inversion HF; subst.
    destruct (sort_point_run d i W HT) as (d1 & -> & S1); auto. cbn [bind].
    destruct (IH d1) as (d' & R & S'); eauto using sbo_wf, sbo_twinned.
    - destruct S1 as (_ & _ & _ & _ & _ & _ & A7 & _). replace (length (d_points d1)) with (length (d_points d)); auto.
      rewrite <- !(map_length p_at); congruence.
    - eauto using sbo_trans.
  Qed.

  (** *** Views of the half edges *)
  Definition hv d (i : nat) : option (half T) := match nth_error (d_halves d) i with Some (Some h) => Some h | _ => None end.
  Definition nx d i := option_map h_next (hv d i).
  Definition pv d i := option_map h_prev (hv d i).
  Definition ends d i := option_map (fun h => (h_start h, h_end h)) (hv d i).
  Lemma hv_live d i h : hv d i = Some h <-> live d i h.
  Proof. unfold hv, live. destruct (nth_error (d_halves d) i) as [[x|]|]; split; congruence. Qed.
  Lemma hv_upd d e f i : hv (wd_halves d (upd (d_halves d) e (option_map f))) i =
    if Nat.eqb e i then option_map f (hv d i) else hv d i.
  Proof. unfold hv; cbn. rewrite nth_upd. destruct (Nat.eqb e i); auto. destruct (nth_error (d_halves d) i) as [[x|]|]; auto. Qed.

  Lemma follows_views d a b : follows_half d a b <->
    nx d a = Some (Some b) /\ pv d b = Some (Some a) /\ exists s m t, ends d a = Some (s, m) /\ ends d b = Some (m, t).
  Proof.
    unfold follows_half, nx, pv, ends. setoid_rewrite <- hv_live. destruct (hv d a) as [ha|], (hv d b) as [hb|]; cbn; split.
    - intros (x & y & E1 & E2 & H1 & H2 & H3). injection E1 as <-. injection E2 as <-. rewrite H1, H2, H3. eauto 8.
    - intros (H1 & H2 & s & m & t & E1 & E2). exists ha, hb. csplit; congruence.
    - intros (x & y & E1 & E2 & _). discriminate.
    - intros (_ & H & _). discriminate.
    - intros (x & y & E1 & E2 & _). discriminate.
    - intros (H & _). discriminate.
    - intros (x & y & E1 & E2 & _). discriminate.
    - intros (H & _). discriminate.
  Qed.

  (** Only links and faces of the half edges differ. *)
  Definition same_but_links d d' : Prop :=
    d_points d' = d_points d /\ d_pset d' = d_pset d /\ d_edges d' = d_edges d /\ d_type d' = d_type d /\
    length (d_halves d') = length (d_halves d) /\
    forall i, match hv d i, hv d' i with
              | Some h, Some h' => h_start h' = h_start h /\ h_end h' = h_end h /\ h_twin h' = h_twin h
              | None, None => True
              | _, _ => False
              end.
  Lemma sbl_refl d : same_but_links d d.
  Proof. unfold same_but_links; csplit; auto. intros i. destruct (hv d i); auto. Qed.
  Lemma sbl_trans d1 d2 d3 : same_but_links d1 d2 -> same_but_links d2 d3 -> same_but_links d1 d3.
  Proof.
    intros (A1 & A2 & A3 & A4 & A5 & A6) (B1 & B2 & B3 & B4 & B5 & B6). unfold same_but_links; csplit; try congruence.
    intros i. specialize (A6 i). specialize (B6 i). destruct (hv d1 i), (hv d2 i), (hv d3 i); intuition congruence.
  Qed.
  Lemma sbl_upd d e f : (forall h, h_start (f h) = h_start h /\ h_end (f h) = h_end h /\ h_twin (f h) = h_twin h) ->
    same_but_links d (wd_halves d (upd (d_halves d) e (option_map f))).
  Proof.
    intros Hf. unfold same_but_links; csplit; auto; [cbn; apply length_upd|].
    intros i. rewrite hv_upd. destruct (Nat.eqb e i), (hv d i); cbn; auto.
  Qed.
  Lemma sbl_live d d' i : same_but_links d d' -> (exists h, live d i h) <-> exists h, live d' i h.
  Proof.
    intros (_ & _ & _ & _ & _ & A6). specialize (A6 i). setoid_rewrite <- hv_live.
    destruct (hv d i), (hv d' i); intuition eauto; destruct H as (h & E); discriminate.
  Qed.
  Lemma sbl_ends d d' i : same_but_links d d' -> ends d' i = ends d i.
  Proof.
    intros (_ & _ & _ & _ & _ & A6). specialize (A6 i). unfold ends.
    destruct (hv d i), (hv d' i); cbn; intuition congruence.
  Qed.
  Lemma sbl_wf d d' : same_but_links d d' -> wf d -> wf d'.
  Proof.
    intros HB ((R1 & R2 & R3) & HS & HP). pose proof HB as (A1 & A2 & A3 & A4 & A5 & A6).
    assert (LE : forall i (g : nat * nat -> nat) k,
      (exists h, live d' i h /\ g (h_start h, h_end h) = k) <-> exists h, live d i h /\ g (h_start h, h_end h) = k).
    { intros i g k. setoid_rewrite <- hv_live. specialize (A6 i).
      destruct (hv d i) as [h|], (hv d' i) as [h'|]; try tauto.
      - destruct A6 as (E1 & E2 & _). split; intros (x & E & K); injection E as <-; [exists h|exists h']; split; auto; congruence. }
    split; [|split].
    - split; [now rewrite A3|]. split.
      + intros e. rewrite A3, R2. now apply sbl_live.
      + intros e h L. rewrite A1. specialize (A6 e). apply hv_live in L. rewrite L in A6.
        destruct (hv d e) as [x|] eqn:E; [|contradiction]. destruct A6 as (-> & -> & _). apply (R3 e). now apply hv_live.
    - intros k p K. rewrite A1 in K. destruct (HS k p K) as (S1 & S2 & S3). split; auto. split; intros e.
      + rewrite S2. symmetry. apply (LE e fst k).
      + rewrite S3. symmetry. apply (LE e snd k).
    - unfold all_in_set. now rewrite A1, A2.
  Qed.
  Lemma sbl_twinned d d' : same_but_links d d' -> twinned d -> twinned d'.
  Proof.
    intros (A1 & A2 & A3 & A4 & A5 & A6) HT e h L. apply hv_live in L. pose proof (A6 e) as K. rewrite L in K.
    destruct (hv d e) as [x|] eqn:E; [|contradiction]. destruct K as (E1 & E2 & E3).
    destruct (HT e x) as (t & ht & T1 & T2 & T3 & T4 & T5 & T6); [now apply hv_live|].
    apply hv_live in T3. pose proof (A6 t) as K. rewrite T3 in K. destruct (hv d' t) as [y|] eqn:Ey; [|contradiction].
    destruct K as (F1 & F2 & F3). exists t, y. rewrite E1, E2, E3, F1, F2, F3. csplit; auto. now apply hv_live.
  Qed.

  (** *** Runs of half edges *)
  Lemma run_app d l1 : forall a l2, run_of d a (l1 ++ l2) <-> run_of d a l1 /\ run_of d (last l1 a) l2.
  Proof.
    induction l1 as [|b r IH]; intros a l2; cbn [app run_of]; [cbn; tauto|]. rewrite last_cons, IH. tauto.
  Qed.
  Lemma run_ext d d' l : forall a, (forall i, In i (removelast (a :: l)) -> nx d' i = nx d i) ->
    (forall i, In i l -> pv d' i = pv d i) -> (forall i, ends d' i = ends d i) -> run_of d a l -> run_of d' a l.
  Proof.
    induction l as [|b r IH]; intros a H1 H2 H3 HR; cbn in *; auto. destruct HR as (HF & HR). split.
    - apply follows_views in HF as (F1 & F2 & s & m & t & F3 & F4). apply follows_views.
      rewrite H1, H2, !H3 by auto. eauto 8.
    - apply IH; auto.
  Qed.
  Lemma round_ext d d' l : (forall i, In i l -> nx d' i = nx d i) -> (forall i, In i l -> pv d' i = pv d i) ->
    (forall i, ends d' i = ends d i) -> goes_round d l -> goes_round d' l.
  Proof.
    intros H1 H2 H3 (H4 & H5). split; auto. eapply run_ext; [| | |exact H5]; auto.
    intros i Hi. apply H1. destruct l as [|a r]; [contradiction|]. 
    assert (K : In i (last (a :: r) 0 :: removelast (a :: r))) by (destruct r; cbn in *; tauto).
    destruct K as [<-|K].
    - rewrite last_cons. destruct (exists_last (l := a :: r)) as (x & y & E); [discriminate|].
      rewrite <- (last_cons r a 0), E, last_last, in_app_iff; cbn; auto.
    - rewrite (app_removelast_last 0 (l := a :: r)) by discriminate. apply in_or_app; auto.
  Qed.
End Faces.
