(** Breaking all segments: the rings after process_intersect. *)
From Coq Require Import ZArith Bool List Lia.
From Verif Require Import Outcome Num Order Rmath Segment Path PathSpec ScanLine VState VPath VBreak VLemmas AelSpec VAelProofs VAelRun
  SortProofs RingSpec BreakSpec MarkProofs VRing VBuild VAdd VCut.
Import ListNotations.
Local Open Scope out.

Section VBroken.
  Context {T : Type} {N : Num T}.
  Implicit Types vs : list (vertex T).
  Implicit Types s : clipper T.
  Implicit Types bs : list (break_info T).

  (** *** Runs of records *)
  Lemma runs_head b bs : exists x t, runs (b :: bs) = (br_vert b, b :: x) :: t.
  Proof.
    cbn [runs]. destruct (runs bs) as [|[v x] t]; [eauto|]. destruct (Nat.eqb_spec (br_vert b) v) as [->|]; eauto.
  Qed.
  Lemma take_run_runs v bs : forall x y, take_run v bs = (x, y) ->
    bs = x ++ y /\ Forall (fun b => br_vert b = v) x /\ (x = [] \/ runs bs = (v, x) :: runs y) /\
    (match y with b :: _ => br_vert b <> v | [] => True end).
  Proof.
    induction bs as [|b bs IH]; cbn [take_run]; intros x y H.
    - injection H as <- <-. csplit; auto.
    - destruct (Nat.eqb_spec (br_vert b) v) as [E|E].
      + destruct (take_run v bs) as [x' y'] eqn:TR. injection H as <- <-. destruct (IH x' y' eq_refl) as (-> & F & R & NV).
        csplit; auto. right. cbn [runs]. destruct R as [->|R].
        * cbn [app] in *. destruct y' as [|b' y']; [cbn [runs]; now rewrite E|].
          destruct (runs_head b' y') as (x1 & t1 & R1). rewrite R1.
          destruct (Nat.eqb_spec (br_vert b) (br_vert b')); [congruence|now rewrite E].
        * rewrite R. destruct (Nat.eqb_spec (br_vert b) v); [reflexivity|contradiction].
      + injection H as <- <-. csplit; auto.
  Qed.
  Definition break_run (o : outcome (clipper T)) (r : nat * list (break_info T)) : outcome (clipper T) :=
    do s <- o ;; break_vertex s (fst r) (snd r).
  Lemma break_all_runs fuel : forall s bs, length bs <= fuel -> break_all fuel s bs = fold_left break_run (runs bs) (Ok s).
  Proof.
    induction fuel as [|fuel IH]; intros s [|b bs] L; try reflexivity; [simpl in L; lia|].
    cbn [break_all]. destruct (take_run (br_vert b) (b :: bs)) as [x y] eqn:TR.
    destruct (take_run_runs _ _ _ _ TR) as (E & F & R & _).
    assert (NX : x <> []). { intros ->. cbn [take_run] in TR. rewrite Nat.eqb_refl in TR. destruct (take_run _ bs). discriminate. }
    destruct R as [R|R]; [contradiction|]. rewrite R. cbn [fold_left break_run bind fst snd].
    assert (LY : length y <= fuel).
    { apply (f_equal (@length _)) in E. rewrite app_length in E. destruct x; [contradiction|]. simpl in *. lia. }
    destruct (break_vertex s (br_vert b) x) as [s1| | |]; cbn [bind]; [now apply IH| | |];
      (clear; induction (runs y) as [|r t IHt]; [reflexivity|cbn [fold_left break_run bind]; exact IHt]).
  Qed.
  Lemma runs_ok bs : Forall (fun r => snd r <> [] /\ Forall (fun b => In b bs /\ br_vert b = fst r) (snd r)) (runs bs).
  Proof.
    induction bs as [|b bs IH]; [constructor|]. cbn [runs].
    assert (W : Forall (fun r => snd r <> [] /\ Forall (fun c => In c (b :: bs) /\ br_vert c = fst r) (snd r)) (runs bs)).
    { eapply Forall_impl; [|exact IH]. intros [v x] [A B]. split; auto. eapply Forall_impl; [|exact B]. intros c [C D]. split; auto. now right. }
    destruct (runs bs) as [|[v x] t]; [constructor; [|constructor]; split; [discriminate|]; repeat constructor|].
    destruct (Nat.eqb_spec (br_vert b) v) as [E|].
    - inversion W as [|? ? [W1 W2] W3]; subst. constructor; auto. split; [discriminate|]. constructor; [split; [now left|reflexivity]|exact W2].
    - constructor; auto. split; [discriminate|]. repeat constructor.
  Qed.

  (** *** All runs *)
  Definition after vs0 (hsf : nat -> list (seg T)) (rs : list (nat * list (break_info T))) (i : nat) : list (seg T) :=
    match nth_error vs0 i with
    | Some v => fold_left (recut (v_pt v)) (map snd (filter (fun x => Nat.eqb (fst x) i) rs)) (hsf i)
    | None => hsf i
    end.
  Lemma broken_ext vs0 ls vs news hsf hsf' : (forall i, hsf i = hsf' i) -> broken vs0 ls vs news hsf -> broken vs0 ls vs news hsf'.
  Proof.
    intros E [A B C D F G H I]. constructor; auto.
    - eapply Forall_impl; [|exact A]. intros l R. rewrite <- (flat_map_ext hsf hsf' E l). exact R.
    - intros i Hi. rewrite <- E. auto.
    - intros i Hi. rewrite <- E. auto.
  Qed.
  Lemma break_runs vs0 ls rs : forall s news hsf, broken vs0 ls (verts s) news hsf -> Forall (fun l => 2 <= length l) ls ->
    (forall i, In i (concat ls) -> exists v, nth_error vs0 i = Some v) ->
    Forall (fun r => snd r <> [] /\ In (fst r) (concat ls)) rs ->
    exists vs' news', fold_left break_run rs (Ok s) = Ok (w_verts s vs') /\ broken vs0 ls vs' news' (after vs0 hsf rs).
  Proof.
    induction rs as [|[st bs] rs IH]; intros s news hsf B TWO SOME F.
    - exists (verts s), news. split; [now destruct s|]. revert B. apply broken_ext. intros i. unfold after. now destruct (nth_error vs0 i).
    - inversion F as [|? ? [F1 F2] F3]; subst. cbn [fst snd] in *. destruct (SOME _ F2) as (v0 & V0).
      destruct (broken_step s vs0 ls news hsf st v0 bs B TWO F2 V0 F1) as (vs1 & fresh & E & B1).
      cbn [fold_left break_run bind fst snd]. rewrite E.
      destruct (IH (w_verts s vs1) _ _ B1 TWO SOME F3) as (vs' & news' & E' & B'). exists vs', news'. split; [exact E'|].
      revert B'. apply broken_ext. intros i. unfold after. destruct (nth_error vs0 i) as [v|] eqn:V.
      + cbn [filter fst]. unfold set_at. rewrite (Nat.eqb_sym st i). destruct (Nat.eqb_spec i st) as [->|]; [|reflexivity].
        cbn [map snd fold_left]. rewrite V0 in V. now injection V as <-.
      + apply set_at_other. intros ->. congruence.
  Qed.

  (** *** Before breaking *)
  Definition one_seg vs i : list (seg T) := match seg_of vs i with Some g => [g] | None => [] end.
  Lemma link_seg vs a b g : link vs a b g -> one_seg vs a = [g].
  Proof. intros (va & vb & A & _ & _ & _ & S & _). unfold one_seg, seg_of. now rewrite A, S. Qed.
  Lemma strand_segs vs l : forall a gs, strand vs a l gs -> flat_map (one_seg vs) (removelast (a :: l)) = gs.
  Proof.
    induction l as [|b l IH]; intros a [|g gs] H; try contradiction; [reflexivity|]. destruct H as [H1 H2].
    change (removelast (a :: b :: l)) with (a :: removelast (b :: l)). cbn [flat_map]. now rewrite (link_seg _ _ _ _ H1), (IH b gs H2).
  Qed.
  Lemma ring_segs vs l gs : ring vs l gs -> flat_map (one_seg vs) l = gs.
  Proof.
    destruct l as [|i r]; [contradiction|]. intros [_ S]. apply strand_segs in S.
    change (i :: r ++ [i]) with ((i :: r) ++ [i]) in S. now rewrite removelast_last in S.
  Qed.
  Lemma ring_link vs l gs i : ring vs l gs -> In i l -> exists j g, In j l /\ In g gs /\ link vs i j g.
  Proof.
    destruct l as [|f r]; [contradiction|]. intros [_ S] Hi.
    assert (K : forall l a gs, strand vs a l gs -> In i (removelast (a :: l)) -> exists j g, In j l /\ In g gs /\ link vs i j g).
    { induction l as [|b l IH]; intros a [|g' gs'] H I; try contradiction. destruct H as [H1 H2].
      change (removelast (a :: b :: l)) with (a :: removelast (b :: l)) in I. destruct I as [->|I].
      - exists b, g'. simpl. auto.
      - destruct (IH _ _ H2 I) as (j & g & A & B & C). exists j, g. simpl. auto. }
    destruct (K _ _ _ S) as (j & g & A & B & C).
    - change (f :: r ++ [f]) with ((f :: r) ++ [f]). now rewrite removelast_last.
    - exists j, g. csplit; auto. apply in_app_or in A as [A|[->|[]]]; simpl; auto.
  Qed.
  Lemma rings_in vs ls i : rings vs ls -> In i (concat ls) -> exists l gs j g v w, In l ls /\ In i l /\ ring vs l gs /\ In g gs /\ drawable g /\
    link vs i j g /\ In j l /\ nth_error vs i = Some v /\ nth_error vs j = Some w /\ v_seg v = Some g /\ v_next v = Some j /\ v_pt w = seg_target g.
  Proof.
    intros [R _] Hi. apply in_concat in Hi as (l & H1 & H2). rewrite Forall_forall in R. destruct (R l H1) as (gs & R1 & R2 & _).
    destruct (ring_link _ _ _ _ R1 H2) as (j & g & A & B & C). pose proof C as (v & w & V & W & X1 & X2 & X3 & X4).
    exists l, gs, j, g, v, w. rewrite Forall_forall in R2. csplit; auto.
  Qed.
  Lemma with_new_nil l : with_new (fun _ => []) l = l.
  Proof. induction l as [|i l IH]; auto. change (i :: with_new (fun _ => []) l = i :: l). now rewrite IH. Qed.
  Lemma broken_start vs ls : rings vs ls -> broken vs ls vs (fun _ => []) (one_seg vs).
  Proof.
    intros R. pose proof R as [R1 ND]. constructor; auto.
    - eapply Forall_impl; [|exact R1]. intros l (gs & A & _). rewrite with_new_nil, (ring_segs _ _ _ A). exact A.
    - intros i Hi. destruct (rings_in _ _ _ R Hi) as (l & gs & j & g & v & w & _ & _ & _ & _ & _ & L & _). now rewrite (link_seg _ _ _ _ L).
    - intros i Hi. destruct (rings_in _ _ _ R Hi) as (l & gs & j & g & v & w & _ & _ & _ & _ & D & L & _). rewrite (link_seg _ _ _ _ L). auto.
    - rewrite (map_ext _ (fun l => l) with_new_nil), map_id. auto.
    - contradiction.
    - intros i v V. exists v. unfold stays. auto.
    - intros i w Hi W. apply nth_lt in W. lia.
  Qed.

  (** *** The vertices of the rings *)
  Lemma ring_from_strand vs start l : forall fuel c gs, strand vs c (l ++ [start]) gs -> ~ In start l -> length l < fuel ->
    ring_from fuel vs start c = Ok (c :: l).
  Proof.
    induction l as [|d l IH]; intros [|fuel] c [|g gs] H NI L; try contradiction; simpl in L; try lia;
      destruct H as [(va & vb & A & _ & NX & _) H]; cbn [ring_from];
      rewrite (proj2 (at_ok _ _ _) A); cbn [bind]; rewrite NX; cbn [bind deref of_opt].
    - now rewrite Nat.eqb_refl.
    - destruct (Nat.eqb_spec d start) as [->|]; [simpl in NI; tauto|].
      rewrite (IH fuel d gs); auto; [simpl in NI; tauto|lia].
  Qed.
  Lemma nodup_bound (l : list nat) n : NoDup l -> (forall i, In i l -> i < n) -> length l <= n.
  Proof.
    intros ND H. rewrite <- (seq_length n 0). apply NoDup_incl_length; auto. intros i Hi. apply in_seq. apply H in Hi. lia.
  Qed.
  Lemma ring_from_ring vs l gs : ring vs l gs -> ring_from (length vs) vs (hd 0 l) (hd 0 l) = Ok l.
  Proof.
    intros R. assert (L : length l <= length vs).
    { apply nodup_bound; [apply ring_trail in R; tauto|]. intros i. apply (ring_lt _ _ _ _ R). }
    destruct l as [|i r]; [contradiction|]. destruct R as [ND S]. cbn [hd]. inversion ND; subst.
    apply (ring_from_strand vs i r (length vs) i gs); auto.
  Qed.
  Lemma all_rings_ok vs ls : Forall (fun l => exists gs, ring vs l gs) ls -> all_rings vs (map (hd 0) ls) = Ok (concat ls).
  Proof.
    induction 1 as [|l ls (gs & R) F IH]; [reflexivity|]. cbn [map all_rings concat]. rewrite (ring_from_ring _ _ _ R). cbn [bind].
    now rewrite IH.
  Qed.
  Lemma break_pair_vert a b l x : In x (break_pair (T := T) a b l) -> br_vert x = a \/ br_vert x = b.
  Proof.
    unfold break_pair. intros H. apply in_flat_map in H as (i & _ & H). apply in_app_or in H.
    destruct (in_open (it0 i)), (in_open (it1 i)); simpl in H; destruct H as [H|H]; try contradiction; destruct H as [<-|[]]; auto.
  Qed.
  Lemma seg_intersect_vert en vs a b bs x : seg_intersect en vs a b = Ok bs -> In x bs -> br_vert x = a \/ br_vert x = b.
  Proof.
    unfold seg_intersect. intros H Hx. apply bind_ok in H as (vl & _ & H). apply bind_ok in H as (vr & _ & H).
    apply bind_ok in H as (gr & _ & H). apply bind_ok in H as (gl & _ & H).
    destruct gl, gr; try discriminate; try (injection H as <-; contradiction);
      apply bind_ok in H as (res & _ & H); injection H as <-; apply break_pair_vert in Hx; tauto.
  Qed.
  Lemma run_pairs_vert en vs vids l : forall bs x, run_pairs en vs vids l = Ok bs -> In x bs -> In (br_vert x) vids.
  Proof.
    induction l as [|[a b] l IH]; cbn [run_pairs]; intros bs x H Hx; [injection H as <-; contradiction|].
    apply bind_ok in H as (a' & A & H). apply bind_ok in H as (b' & B & H). apply bind_ok in H as (u & U & H).
    apply bind_ok in H as (y & Y & H). injection H as <-. apply at_ok in A. apply at_ok in B. apply nth_error_In in A. apply nth_error_In in B.
    apply in_app_or in Hx as [Hx|Hx]; [|eauto]. destruct (seg_intersect_vert _ _ _ _ _ _ U Hx) as [->| ->]; auto.
  Qed.
  Lemma tidy_in en bs x : In x (tidy_breaks en bs) -> In x bs.
  Proof.
    unfold tidy_breaks. intros H. apply unique_by_sub in H.
    apply (Permutation.Permutation_in _ (Permutation.Permutation_sym (sort_by_perm _ bs)) H).
  Qed.

  Lemma break_all_rings s ls bs : rings (verts s) ls -> Forall (fun b => In (br_vert b) (concat ls)) bs ->
    exists vs' news, break_all (length bs) s bs = Ok (w_verts s vs') /\
      broken (verts s) ls vs' news (after (verts s) (one_seg (verts s)) (runs bs)).
  Proof.
    intros R F. rewrite break_all_runs by auto.
    apply (break_runs (verts s) ls (runs bs) s (fun _ => []) (one_seg (verts s))).
    - now apply broken_start.
    - destruct R as [R _]. eapply Forall_impl; [|exact R]. intros l (gs & _ & _ & L). exact L.
    - intros i Hi. destruct (rings_in _ _ _ R Hi) as (l & gs & j & g & v & w & H). exists v. tauto.
    - pose proof (runs_ok bs) as RO. rewrite Forall_forall in *. intros [v x] Hr. destruct (RO _ Hr) as [A B]. split; auto.
      cbn [fst snd] in *. destruct x as [|b x]; [contradiction|]. inversion B as [|? ? [B1 B2] _]; subst. auto.
  Qed.
End VBroken.
