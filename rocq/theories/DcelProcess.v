(** [process] as a whole. *)
From Coq Require Import ZArith Bool List Permutation Sorted Lia.
From Verif Require Import Outcome Num Order Rmath RectSpec ScanLine VState VLemmas VAelProofs SortProofs MarkProofs.
From Verif Require Import Dcel DcelSpec DcelBase DcelBreak DcelFace DcelLink DcelSplit DcelUnique.
Import ListNotations.
Local Open Scope out.

Section Process.
  Context {T : Type} {N : Num T}.
  Implicit Types d : dcel T.
  Variable en : denv.

  Lemma round_linked d ls : Forall (goes_round d) ls -> Permutation (concat ls) (d_edges d) -> registered d -> linked d.
  Proof.
    intros HG HP (R1 & R2 & R3). rewrite Forall_forall in HG.
    assert (NX : forall e h, live d e h -> exists n, follows_half d e n).
    { intros e h L. assert (I : In e (concat ls)).
      { eapply Permutation_in; [symmetry; exact HP|]. apply R2. eauto. }
      apply in_concat in I as (l & Hl & I). destruct (round_next d l e (HG l Hl) I) as (n & _ & F). eauto. }
    assert (PV : forall e h, live d e h -> exists n, follows_half d n e).
    { intros e h L. assert (I : In e (concat ls)).
      { eapply Permutation_in; [symmetry; exact HP|]. apply R2. eauto. }
      apply in_concat in I as (l & Hl & I). destruct (round_prev d l e (HG l Hl) I) as (n & _ & F). eauto. }
    split; [split|].
    - intros e h n L E. destruct (NX e h L) as (m & a & b & L1 & L2 & E1 & E2 & _).
      rewrite (live_inj _ _ _ _ L1 L) in E1. assert (m = n) by congruence. subst m. eauto.
    - intros e h n L E. destruct (PV e h L) as (m & a & b & L1 & L2 & E1 & E2 & _).
      rewrite (live_inj _ _ _ _ L2 L) in E2. assert (m = n) by congruence. subst m. eauto.
    - intros e h L. split.
      + destruct (NX e h L) as (m & a & b & L1 & L2 & E1 & E2 & E3). rewrite (live_inj _ _ _ _ L1 L) in *. eauto 6.
      + destruct (PV e h L) as (m & a & b & L1 & L2 & E1 & E2 & E3). rewrite (live_inj _ _ _ _ L2 L) in *. eauto 6.
  Qed.

  Lemma build_face_run d : wf d -> twinned d -> unlinked d -> d_faces d = [] ->
    exists d', build_face en d = Ok d' /\ wf d' /\ twinned d' /\ linked d' /\ faces_share d' /\
      map p_at (d_points d') = map p_at (d_points d) /\ d_pset d' = d_pset d.
  Proof.
    intros W HT HU HF. unfold build_face.
    destruct (sort_points_run en (d_pset d) d W HT (all_bounded d (proj2 (proj2 W)))) as (d1 & -> & S1). cbn [bind].
    pose proof (sbo_wf _ _ S1 W) as W1. pose proof (sbo_twinned _ _ S1 HT) as T1.
    pose proof S1 as (A1 & A2 & A3 & A4 & A5 & A6 & A7 & A8).
    assert (K1 : lk d1 [] []).
    { unfold lk; cbn. csplit; auto; [constructor|contradiction|]. intros i h L. right. apply (HU i). unfold live in *. now rewrite <- A1. }
    destruct (by_addr_live en d1 W1) as (B1 & B2).
    destruct (link_faces_run (by_addr en (d_edges d1)) d1 [] W1 T1 K1) as (d2 & ls & R2 & K2 & P2 & S2 & _ & I2); auto.
    { rewrite A5, HF. constructor. }
    rewrite R2. cbn [bind].
    pose proof (sbl_wf _ _ S2 W1) as W2. pose proof (sbl_twinned _ _ S2 T1) as T2.
    set (d3 := wd_faces d2 []).
    assert (S3 : same_but_links d2 d3).
    { unfold same_but_links; csplit; auto. intros i. change (hv d3 i) with (hv d2 i). destruct (hv d2 i); auto. }
    pose proof (sbl_wf _ _ S3 W2) as W3. pose proof (sbl_twinned _ _ S3 T2) as T3.
    destruct K2 as (G2 & N2 & L2 & _). rewrite app_nil_r in N2, L2.
    assert (Q : Permutation (concat (rev ls ++ [])) (d_edges d3)).
    { rewrite app_nil_r. apply NoDup_Permutation.
      - clear -N2. induction ls as [|l ls IH]; cbn; [constructor|]. cbn in N2. rewrite concat_app. cbn. rewrite app_nil_r.
        eapply Permutation_NoDup; [apply Permutation_app_comm|]. 
        eapply Permutation_NoDup; [|exact N2]. apply Permutation_app_head. 
        clear. induction ls; cbn; auto. rewrite concat_app. cbn. rewrite app_nil_r. etransitivity; [apply Permutation_app_head; exact IHls|]. apply Permutation_app_comm.
      - apply W3.
      - intros i. assert (E : In i (concat (rev ls)) <-> In i (concat ls)).
        { rewrite !in_concat. split; intros (l & Hl & I); exists l; split; auto; [now apply in_rev|now apply in_rev; rewrite rev_involutive]. }
        rewrite E. split.
        + intros I. apply W3. destruct (L2 i I) as (h & L). exists h. exact L.
        + intros I. apply I2. eapply Permutation_in; [apply by_addr_perm|]. destruct S2 as (_ & _ & E2 & _).
          change (d_edges d3) with (d_edges d2) in I. now rewrite E2 in I. }
    destruct (split_faces_run (S (3 * length (d_halves d2))) d3 (rev (d_faces d2)) (rev ls) [] W3) as (d' & ls' & R & G' & P' & C' & Q' & S').
    - rewrite app_nil_r. apply Forall_rev. eapply Forall_impl; [|exact G2]. intros l. apply round_ext; reflexivity.
    - unfold fpool_ok. change (d_fpool d3) with (d_fpool d2). clear -P2. unfold fpool_ok in P2.
      induction P2; cbn; [constructor|]. apply Forall2_app; auto.
    - constructor.
    - constructor.
    - exact Q.
    - pose proof (edges_bound d3 W3) as EB. change (d_halves d3) with (d_halves d2) in EB.
      pose proof (nonempty_count ls d2 G2) as NC. rewrite app_nil_r in *. rewrite rev_length.
      rewrite <- (Permutation_length Q) in EB. rewrite <- (Permutation_length Q).
      assert (E : length (concat (rev ls)) = length (concat ls)).
      { clear. induction ls; cbn; auto. rewrite concat_app, !app_length. cbn. rewrite app_nil_r. lia. }
      rewrite E in *. lia.
    - rewrite R. exists d'. pose proof (sbl_wf _ _ S' W3) as W'. split; auto. split; auto. split; [eapply sbl_twinned; eauto|].
      split; [eapply round_linked; eauto; apply W'|]. split.
      + exists ls'. csplit; auto. clear -P' G'. unfold fpool_ok in P'. induction P'; constructor; inversion G'; subst; auto. split; auto.
      + destruct S' as (D1 & D2 & _). destruct S2 as (E1 & E2 & _). rewrite D1, D2. change (d_points d3) with (d_points d2).
        change (d_pset d3) with (d_pset d2). rewrite E1, E2. auto.
  Qed.

  Lemma process_after_break d d1 : wf d -> unlinked d -> d_faces d = [] -> process_break en d = Ok d1 ->
    exists d2 d', build_twins en d1 = Ok d2 /\ dcel_process en d = Ok d' /\ wf d' /\ twinned d' /\ linked d' /\ faces_share d' /\
      map p_at (d_points d') = map p_at (d_points d2) /\ d_pset d' = d_pset d2.
  Proof.
    intros W HU HF H. destruct (process_break_ok en d d1 W H) as (W1 & U1 & _ & _ & F1).
    destruct (build_twins_run en d1 W1) as (d2 & R2 & W2 & T2 & U2 & _ & _ & F2).
    destruct (build_face_run d2 W2 T2) as (d' & R & W' & T' & L' & FS & E1 & E2); auto; [congruence|].
    exists d2, d'. unfold dcel_process. rewrite H. cbn [bind]. rewrite R2. cbn [bind]. csplit; auto.
  Qed.

  (** The calls before [process]. *)
  Lemma faces_new_line d a b d' e : wf d -> a < length (d_points d) -> b < length (d_points d) ->
    new_line_edge d a b = Ok (d', e) -> d_faces d' = d_faces d.
  Proof. intros W Ha Hb H. destruct (new_line_run d a b W Ha Hb) as (x & R & _ & _ & _ & _ & F & _). rewrite R in H. injection H as <- _. auto. Qed.
  Lemma faces_calls l : forall d d', wf d -> dcalls_run d l = Ok d' -> d_faces d' = d_faces d.
  Proof.
    induction l as [|c r IH]; intros d d' W H; cbn in H; [injection H as <-; auto|].
    apply bind_ok in H as (d1 & H1 & H).
    assert (S : wf d1 /\ d_faces d1 = d_faces d).
    { destruct c; cbn in H1; [injection H1 as <-; auto|].
      destruct (add_line_run d x1 y1 x2 y2 W) as (d1' & R & W1 & _). rewrite R in H1. injection H1 as <-. split; auto.
      revert R. unfold add_line. destruct (n_eqb x1 x2 && n_eqb y1 y2); [intros E; injection E as <-; auto|].
      destruct (find_or_add_point d x1 y1) as [d3 a] eqn:E1. destruct (find_or_add_point d3 x2 y2) as [d4 b] eqn:E2.
      destruct (find_or_add_wf _ _ _ _ _ W E1) as (W3 & A1 & A2 & A3 & A4 & A5 & A6 & _).
      destruct (find_or_add_wf _ _ _ _ _ W3 E2) as (W4 & B1 & B2 & B3 & B4 & B5 & B6 & _).
      pose proof (points_grow_len _ _ (find_grow _ _ _ _ _ E2)) as G. intros R.
      apply bind_ok in R as ((d5 & e) & R & Q). injection Q as <-.
      rewrite (faces_new_line d4 a b d5 e) by (auto; lia). congruence. }
    destruct S as (W1 & E). rewrite (IH d1 d'); auto.
  Qed.
End Process.
