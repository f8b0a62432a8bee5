(** Running [process] again. *)
From Coq Require Import ZArith Bool List Permutation Sorted Lia.
From Verif Require Import Outcome Num Order Rmath RectSpec ScanLine VState VLemmas SortProofs.
From Verif Require Import Dcel DcelSpec DcelBase DcelBreak DcelFace DcelLink DcelSplit DcelUnique DcelProcess DcelLaySpec DcelKept DcelAgainSpec.
Import ListNotations.
Local Open Scope out.

Section Again.
  Context {T : Type} {N : Num T}.
  Implicit Types d : dcel T.
  Definition same_pts (h h' : half T) := h_start h' = h_start h /\ h_end h' = h_end h /\ h_twin h' = h_twin h.
  Lemma hmod_sbl d e f d' : (forall h, same_pts h (f h)) -> hmod d e f = Ok d' -> same_but_links d d'.
  Proof. intros F H. apply hmod_inv in H as (_ & ->). now apply sbl_upd. Qed.
  Ltac same := intros; unfold same_pts; cbn; auto.
  Lemma walk_sbl f e st : forall fuel d c d', walk_face fuel d f e st c = Ok d' -> same_but_links d d'.
  Proof.
    induction fuel as [|fuel IH]; cbn; intros d c d' H; [discriminate|]. apply bind_ok in H as (h & _ & H). destruct (h_next h); [injection H as <-; apply sbl_refl|].
    apply bind_ok in H as (d1 & H1 & H). apply bind_ok in H as (p & _ & H). apply bind_ok in H as (o & _ & H). apply bind_ok in H as (d2 & H2 & H).
    apply bind_ok in H as (n & _ & H). apply bind_ok in H as (d3 & H3 & H). apply bind_ok in H as (hn & _ & H).
    apply hmod_sbl in H1, H2, H3; [|same ..]. assert (K : same_but_links d d3) by eauto using sbl_trans.
    destruct (Nat.eqb (h_end hn) st); [|eapply sbl_trans; [exact K|eapply IH; exact H]].
    apply bind_ok in H as (d4 & H4 & H). apply hmod_sbl in H4, H; [|same ..]. eauto using sbl_trans.
  Qed.
  Lemma faces_sbl d x y : same_but_links (wd_faces (wd_fpool d x) y) d.
  Proof. unfold same_but_links; csplit; auto. intros i. unfold hv. cbn. destruct (nth_error (d_halves d) i) as [[]|]; auto. Qed.
  Lemma link_faces_sbl l : forall d d', link_faces d l = Ok d' -> same_but_links d d'.
  Proof.
    induction l as [|e r IH]; cbn; intros d d' H; [injection H as <-; apply sbl_refl|]. apply bind_ok in H as (d1 & H1 & H). eapply sbl_trans; [|eapply IH; exact H].
    unfold start_face in H1. apply bind_ok in H1 as (h & _ & H1). destruct (h_next h); [injection H1 as <-; apply sbl_refl|]. apply walk_sbl in H1. exact H1.
  Qed.
  Lemma split_walk_sbl st : forall fuel d c idx d' o, split_walk fuel d st c idx = Ok (d', o) -> same_but_links d d'.
  Proof.
    induction fuel as [|fuel IH]; cbn; intros d c idx d' o H; [discriminate|]. apply bind_ok in H as (h & _ & H). destruct (idx_find (h_end h) idx) as [e1|].
    - apply bind_ok in H as (h1 & _ & H). apply bind_ok in H as (e2 & _ & H). apply bind_ok in H as (e4 & _ & H). apply bind_ok in H as (d1 & H1 & H). apply bind_ok in H as (d2 & H2 & H).
      apply bind_ok in H as (d3 & H3 & H). apply bind_ok in H as (d4 & H4 & H). injection H as <- _. apply hmod_sbl in H1, H2, H3, H4; [|same ..].
      eapply sbl_trans; [exact H1|]. eapply sbl_trans; [exact H2|]. eapply sbl_trans; [exact H3|exact H4].
    - apply bind_ok in H as (n & _ & H). destruct (Nat.eqb n st); [injection H as <- _; apply sbl_refl|eauto].
  Qed.
  Lemma split_faces_sbl : forall fuel d old d', split_faces fuel d old = Ok d' -> same_but_links d d'.
  Proof.
    induction fuel as [|fuel IH]; cbn; intros d old d' H; [discriminate|]. destruct old as [|f r]; [injection H as <-; apply sbl_refl|].
    apply bind_ok in H as ((d1 & o) & H1 & H). unfold split_face in H1. apply bind_ok in H1 as (st & _ & H1). apply split_walk_sbl in H1.
    eapply sbl_trans; [exact H1|]. destruct o; apply IH in H; exact H.
  Qed.
  Variable en : denv.
  Lemma build_face_wf d d' : wf d -> twinned d -> build_face en d = Ok d' -> wf d' /\ twinned d' /\ d_edges d' = d_edges d.
  Proof.
    intros W TW H. pose proof (build_face_kept en d d' H) as (_ & _ & K & _). unfold build_face in H. apply bind_ok in H as (d1 & H1 & H). apply bind_ok in H as (d2 & H2 & H).
    destruct (sort_points_run en (d_pset d) d W TW) as (x & R & S).
    { apply Forall_forall. intros i Hi. destruct W as (_ & _ & P). eapply Permutation_in in Hi; [|exact P]. apply in_seq in Hi. lia. }
    rewrite R in H1. injection H1 as ->. pose proof (sbo_wf _ _ S W) as W1. pose proof (sbo_twinned _ _ S TW) as T1.
    apply link_faces_sbl in H2. apply split_faces_sbl in H.
    assert (S2 : same_but_links d1 d') by (eapply sbl_trans; [exact H2|exact H]).
    csplit; [eapply sbl_wf; eauto|eapply sbl_twinned; eauto|auto].
  Qed.

  (** Cutting never leaves fewer half edges. *)
  Lemma add_pieces_count bp : forall d c fin d', wf d -> c < length (d_points d) -> fin < length (d_points d) -> add_pieces d c bp fin = Ok d' ->
    exists n, d_edges d' = d_edges d ++ n :: seq (S n) (length bp) /\ length (d_halves d) = n.
  Proof.
    induction bp as [|p r IH]; intros d c fin d' W Hc Hf H; cbn in H.
    - apply bind_ok in H as ((d1 & e) & H1 & H). injection H as <-. destruct (new_line_run d c fin W Hc Hf) as (x & K & _ & _ & E & _).
      rewrite K in H1. injection H1 as <- <-. exists (length (d_halves d)). split; auto.
    - destruct (find_or_add_point d (vx p) (vy p)) as (d1 & k) eqn:E1. destruct (find_or_add_wf _ _ _ _ _ W E1) as (W1 & A1 & A2 & A3 & A4 & A5 & A6 & _).
      pose proof (points_grow_len _ _ (find_grow _ _ _ _ _ E1)) as G.
      apply bind_ok in H as ((d2 & e) & H1 & H). destruct (new_line_run d1 c k W1) as (x & K & W2 & C1 & C2 & _ & _ & _ & _ & C3); [lia|lia|].
      rewrite K in H1. injection H1 as <- <-.
      assert (LN : length (d_points x) = length (d_points d1)) by (rewrite <- !(map_length p_at); congruence).
      destruct (IH x k fin d' W2) as (n & E & EN); [lia|lia|exact H|]. exists (length (d_halves d1)).
      rewrite C1, app_length in EN. cbn in EN. split; [|congruence]. rewrite E, C2, <- app_assoc. cbn. f_equal; [congruence|]. f_equal. subst n.
      rewrite Nat.add_1_r. reflexivity.
  Qed.
  Lemma filter_count (e : nat) l : NoDup l -> length l <= S (length (filter (fun i => negb (Nat.eqb i e)) l)).
  Proof.
    induction l as [|a l IH]; intros ND; cbn; [lia|]. inversion ND; subst. specialize (IH H2). destruct (Nat.eqb_spec a e) as [->|NE]; cbn; [|lia].
    assert (E : filter (fun i => negb (Nat.eqb i e)) l = l); [|rewrite E; lia].
    clear -H1. induction l as [|b l IH]; cbn; auto. destruct (Nat.eqb_spec b e) as [->|NE]; cbn; [exfalso; apply H1; now left|]. rewrite IH; auto. intros H; apply H1; now right.
  Qed.
  Lemma break_half_count d e h d' : wf d -> live d e h -> break_half d e = Ok d' -> length (d_edges d) <= length (d_edges d').
  Proof.
    intros W L H. pose proof W as ((R1 & R2 & R3) & _). destruct (R3 e h L) as (Ls & Le). unfold break_half in H. rewrite (proj2 (half_at_ok d e h) L) in H. cbn [bind] in H.
    destruct (h_breaks h) as [|b bs]; [injection H as <-; auto|]. apply bind_ok in H as (p & _ & H). apply bind_ok in H as (q & _ & H). apply bind_ok in H as (d1 & H1 & H).
    destruct (add_pieces_count _ _ _ _ _ W Ls Le H1) as (n & E & EN).
    apply bind_ok in H as (d2 & H2 & H). apply bind_ok in H as (d3 & H3 & H). injection H as <-. apply dpmod_inv in H2 as (_ & ->). apply dpmod_inv in H3 as (_ & ->). cbn.
    rewrite E, filter_app, app_length. pose proof (filter_count e (d_edges d) R1). cbn.
    assert (NE : Nat.eqb n e = false) by (apply Nat.eqb_neq; apply nth_lt in L; lia). rewrite NE. cbn. lia.
  Qed.
  Lemma break_halves_count l : forall d d', wf d -> NoDup l -> (forall e, In e l -> exists h, live d e h) -> break_halves d l = Ok d' ->
    length (d_edges d) <= length (d_edges d').
  Proof.
    induction l as [|e r IH]; intros d d' W ND HL H; cbn in H; [injection H as <-; auto|]. inversion ND; subst. destruct (HL e (or_introl eq_refl)) as (h & L).
    destruct (break_half_run d e h W L) as (d1 & R & W1 & _ & _ & K1 & _). apply bind_ok in H as (x & H1 & H). rewrite R in H1. injection H1 as <-.
    etransitivity; [eapply break_half_count; eauto|]. eapply IH; eauto. intros i Hi. destruct (HL i (or_intror Hi)) as (x & Lx). exists x. apply K1; auto. intros ->; auto.
  Qed.
  Lemma process_break_count d d' : wf d -> process_break en d = Ok d' -> length (d_edges d) <= length (d_edges d').
  Proof.
    intros W H. unfold process_break in H. apply bind_ok in H as (bs & H1 & H). apply bind_ok in H as (d1 & H2 & H).
    apply intersect_all_sbb in H2. pose proof (sbb_wf _ _ H2 W) as W1. destruct (by_addr_live en d1 W1) as (B1 & B2).
    apply break_halves_count in H; auto. destruct (H2) as (A1 & A2 & A3 & A4 & A5 & A6 & A7 & A8 & A9). congruence.
  Qed.
  Lemma process_again d d' : wf d -> dcel_process en d = Ok d' -> wf d' /\ twinned d' /\ 2 * length (d_edges d) <= length (d_edges d').
  Proof.
    intros W H. unfold dcel_process in H. apply bind_ok in H as (d1 & H1 & H). apply bind_ok in H as (d2 & H2 & H).
    pose proof (process_break_count d d1 W H1) as C1. destruct (process_break_ok en d d1 W H1) as (W1 & _).
    destruct (build_twins_run en d1 W1) as (x & R & W2 & T2 & _). rewrite R in H2. injection H2 as ->.
    destruct (build_face_wf d2 d' W2 T2 H) as (W' & T' & E). csplit; auto.
    unfold build_twins in R. apply build_twins_segs in R; auto.
    - destruct R as (_ & S & _). apply (f_equal (@length _)) in S. unfold segs in S. rewrite app_length, !map_length in S.
      rewrite <- (Permutation_length (by_addr_perm en (d_edges d1))) in S. rewrite E. lia.
    - intros e He. eapply Permutation_in; [symmetry; apply by_addr_perm|exact He].
  Qed.
  Lemma life_wf l : forall d d', wf d -> life en d l = Ok d' -> wf d'.
  Proof.
    induction l as [|u r IH]; cbn; intros d d' W H; [injection H as <-; auto|]. apply bind_ok in H as (d1 & H1 & H). eapply IH; [|exact H].
    destruct u as [c|]; cbn in H1; [|now apply process_again in H1].
    destruct (calls_run [c] d W) as (x & R & W1 & _). cbn in R. rewrite H1 in R. cbn in R. injection R as ->. auto.
  Qed.
  Lemma life_app l m : forall d, life en d (l ++ m) = bind (life en d l) (fun d => life en d m).
  Proof. induction l as [|u r IH]; cbn; intros d; auto. destruct (use_run en d u); cbn; auto. Qed.
  Lemma life_doubled l d d' : life en dcel0 l = Ok d -> dcel_process en d = Ok d' ->
    registered d' /\ stars d' /\ all_in_set d' /\ twinned d' /\ 2 * length (d_edges d) <= length (d_edges d').
  Proof.
    intros H P. apply life_wf in H; [|apply wf0]. destruct (process_again d d' H P) as ((A & B & C) & TW & L). csplit; auto.
  Qed.
  Lemma life_rest l d : life en dcel0 l = Ok d -> registered d /\ stars d /\ all_in_set d.
  Proof. intros H. apply life_wf in H; [|apply wf0]. exact H. Qed.
End Again.
