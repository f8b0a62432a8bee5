(** Between two scan lines: the edges left of a point and the winding number there. *)
From Coq Require Import ZArith Bool List Reals Lra Lia Permutation Sorted.
From Verif Require Import Outcome Num Order OrdTac Rmath RTac Segment VState VAel VOut VMain VLemmas VFrame RingSpec LineSpec ClimbSpec AelSpec VAelProofs VEdges VAelRun VRun VClimb SortProofs
  ClipSpec WindSpec VWind SpanSpec SpanRing SpanTop SpanStep SpanRun PlaneSpec PlaneGeo PlaneSort PlaneTop PlaneRun PlaneCount PlaneScan.
Import ListNotations.
Local Open Scope Z_scope.
Local Open Scope out.

Lemma nodup_join {A} (a b : list A) : NoDup a -> NoDup b -> (forall x, In x a -> In x b -> False) -> NoDup (a ++ b).
Proof.
  induction a as [|x a IH]; intros Na Nb D; cbn; auto. apply NoDup_cons_iff in Na as [N1 N2]. constructor.
  - rewrite in_app_iff. intros [K|K]; [contradiction|]. exact (D x (or_introl eq_refl) K).
  - apply IH; auto. intros z Hz. apply D. now right.
Qed.
Lemma zsum_sub {A} (dec : forall a b : A, {a = b} + {a <> b}) (f : A -> Z) a b : NoDup a -> NoDup b -> (forall x, In x a -> In x b) -> (forall x, In x b -> ~ In x a -> f x = 0) -> zsum f a = zsum f b.
Proof.
  intros Na Nb S Z0. set (r := filter (fun x => if in_dec dec x a then false else true) b).
  assert (Pm : Permutation b (a ++ r)).
  { apply NoDup_Permutation; auto.
    - apply nodup_join; auto.
      + apply NoDup_filter. exact Nb.
      + intros x Hx Hr. apply filter_In in Hr as [_ Hr]. destruct (in_dec dec x a); [discriminate|contradiction].
    - intros x. rewrite in_app_iff. unfold r. rewrite filter_In. destruct (in_dec dec x a); split; intuition. }
  rewrite (zsum_perm f _ _ Pm), zsum_app, (zsum_0 f r); [lia|]. intros x Hx. apply filter_In in Hx as [Hx Hr]. destruct (in_dec dec x a); [discriminate|auto].
Qed.
Lemma fop_split (X : nat -> R) x l : ForallOrdPairs (fun i j => (X i <= X j)%R) l -> exists l1 l2, l = l1 ++ l2 /\ (forall i, In i l1 -> (X i < x)%R) /\ (forall i, In i l2 -> (x <= X i)%R).
Proof.
  induction 1 as [|a l F _ (l1 & l2 & -> & A & B)].
  - exists [], []. csplit; auto; contradiction.
  - destruct (Rlt_le_dec (X a) x) as [L|L].
    + exists (a :: l1), l2. csplit; auto. intros i [<-|Hi]; auto.
    + exists [], (a :: l1 ++ l2). csplit; auto; [contradiction|]. rewrite Forall_forall in F. intros i [<-|Hi]; auto. apply F in Hi. lra.
Qed.

Section Wind.
  Variable vs : list (vertex R).
  Notation Y := (height vs).
  Variables P M : nat -> Prop.
  Hypothesis MK : marked vs P M.
  Hypothesis V : vs_valid vs.
  Hypothesis PL : plane vs P M.
  Implicit Types s : clipper R.
  Variable lms : list lmin.
  Variable ms : list nat.
  Notation lv := (lv lms).
  Hypothesis ms_M : forall i, M i <-> In i (map lv ms).
  Variable ty : nat -> path_type.
  Hypothesis ty_side : forall j k, P j -> side vs true j k -> ty j = ty k.
  Notation ended := (ended vs P lms ms).
  Notation swept := (swept vs P lms ms ty).
  Notation stand := (stand vs P lms ty).
  (** The vertices of the contours *)
  Variable B : list nat.
  Hypothesis B_nodup : NoDup B.
  Hypothesis B_P : forall i, In i B <-> P i.

  Definition vpass (x z : R) (i : nat) : Z :=
    match nth_error vs i with Some v => match v_next v with Some k => match nth_error vs k with Some w => passes (v_pt v) (v_pt w) x z | None => 0 end | None => 0 end | None => 0 end.
  Lemma vpass_side x z i k : side vs true i k -> exists v w, nth_error vs i = Some v /\ nth_error vs k = Some w /\ vpass x z i = passes (v_pt v) (v_pt w) x z.
  Proof. intros (v & w & A & C & D & _). exists v, w. csplit; auto. unfold vpass. cbn in D. now rewrite A, D, C. Qed.
  Definition owner (u : bool * nat) : nat :=
    if fst u then match nth_error vs (snd u) with Some v => match v_prev v with Some p => p | None => 0%nat end | None => 0%nat end else snd u.
  Lemma owner_side u j : side vs (fst u) j (snd u) -> if fst u then owner u = j else owner u = snd u /\ side vs true (snd u) j.
  Proof.
    destruct u as [[|] k]; cbn [fst snd]; intros S.
    - destruct S as (v & w & _ & W & _ & Pr). unfold owner. cbn [fst snd] in *. rewrite W. cbn in Pr. now rewrite Pr.
    - split; auto. now apply side_sym in S.
  Qed.
  Lemma wind_prefix y s y' s3 l x z t : ended y s -> stand y s l -> pop_scanline s y = (Some y', s3) -> (y <= z < y')%R ->
    exists l1 l2, l = l1 ++ l2 /\
      (forall i e, In i l1 -> nth_error (edges s) i = Some e -> (ex e z < x)%R) /\ (forall i e, In i l2 -> nth_error (edges s) i = Some e -> (x <= ex e z)%R) /\
      zsum (wtof lms (edges s) t) l1 = zsum (fun i => if ptype_eqb (ty i) t then vpass x z i else 0) B.
  Proof.
    intros EN [HA AH SO KN] HP Hz. destruct (pop_gap vs P M MK V lms ms ms_M y s y' s3 EN HP) as [GAP LY].
    pose proof EN as [Vy SL G Q AP (l0 & HA0 & EX & TQ) _]. rewrite (active_fun _ _ _ HA0 HA) in *. clear l0 HA0. destruct EX as [ND EX].
    assert (RG : forall i, In i l -> exists e j v w, nth_error (edges s) i = Some e /\ rises vs P e /\ (vy (e_bot e) <= y)%R /\ (y' <= vy (e_top e))%R /\
      P j /\ side vs (edge_up e) j (e_vtop e) /\ nth_error vs j = Some v /\ nth_error vs (e_vtop e) = Some w /\ e_bot e = v_pt v /\ e_top e = v_pt w).
    { intros i Hi. destruct (AH i Hi) as (e & E & [[Re He] _]). pose proof Re as (Pl & C & L). destruct (placed_ends vs P e Pl C) as (j & v & w & Pj & Pk & S & Vj & Wk & Eb & Et & Yb & Yt).
      exists e, j, v, w. csplit; auto; [lra|]. rewrite Yt. apply GAP; auto. lra. }
    assert (XL : ForallOrdPairs (fun i j => (xof (edges s) z i <= xof (edges s) z j)%R) l).
    { eapply fop_mono_in; [|exact SO]. intros i j Hi Hj K. destruct (RG i Hi) as (e & _ & _ & _ & E & Re & L & T & _). destruct (RG j Hj) as (f & _ & _ & _ & F & Rf & L' & T' & _).
      unfold xof. rewrite E, F. apply (before_le vs P y z e f); auto; try lra; split; auto; lra. }
    destruct (fop_split _ x l XL) as (l1 & l2 & El & L1 & L2). exists l1, l2. split; [exact El|].
    assert (XE : forall i e, nth_error (edges s) i = Some e -> xof (edges s) z i = ex e z) by (intros i e E; unfold xof; now rewrite E).
    split; [intros i e Hi E; rewrite <- (XE i e E); auto|]. split; [intros i e Hi E; rewrite <- (XE i e E); auto|].
    set (f := fun i => if ptype_eqb (ty i) t then vpass x z i else 0).
    (* over all edges *)
    assert (S1 : zsum (wtof lms (edges s) t) l1 = zsum (before_x (xof (edges s) z) (wtof lms (edges s) t) x) l).
    { rewrite El, zsum_app, (zsum_0 _ l2), Z.add_0_r.
      - apply zsum_ext. intros i Hi. unfold before_x. rewrite (proj2 (Rltb_true _ _)); auto.
      - intros i Hi. unfold before_x. rewrite (proj2 (Rltb_false _ _)); auto. }
    rewrite S1.
    assert (S2 : forall i, In i l -> before_x (xof (edges s) z) (wtof lms (edges s) t) x i = f (owner (side_of (edges s) i))).
    { intros i Hi. destruct (RG i Hi) as (e & j & v & w & E & Re & Lb & Lt & Pj & S & Vj & Wk & Eb & Et).
      assert (U : side_of (edges s) i = (edge_up e, e_vtop e)) by (unfold side_of; rewrite E; reflexivity).
      pose proof (owner_side (edge_up e, e_vtop e) j S) as OW. cbn [fst snd] in OW.
      destruct (KN i e Hi E) as [D (m & Em & Tm)].
      unfold before_x. rewrite (XE i e E). unfold wtof, wt. rewrite E, Em, Tm, U. unfold f.
      assert (LB : (vy (v_pt v) <= y)%R) by (rewrite <- Eb; auto). assert (LT : (y' <= vy (v_pt w))%R) by (rewrite <- Et; auto).
      assert (XX : ex e z = xat (v_pt v) (v_pt w) z) by (unfold ex; now rewrite Eb, Et).
      rewrite XX. destruct (edge_up e) eqn:UP.
      - rewrite OW. replace (ty j) with (ty (e_vtop e)) by (symmetry; apply ty_side; auto). destruct (ptype_eqb _ _); [|now destruct (Rltb _ _)].
        destruct (vpass_side x z j (e_vtop e) S) as (v' & w' & V' & W' & ->). rewrite Vj in V'. injection V' as <-. rewrite Wk in W'. injection W' as <-.
        unfold passes. rewrite (proj2 (Rleb_true (vy (v_pt v)) z)), (proj2 (Rltb_true z (vy (v_pt w)))) by lra. cbn [andb].
        assert (e_dx e = -1) as -> by (unfold edge_up in UP; apply Z.ltb_lt in UP; destruct D; lia). reflexivity.
      - destruct OW as [-> S']. destruct (ptype_eqb _ _); [|now destruct (Rltb _ _)].
        destruct (vpass_side x z (e_vtop e) j S') as (w' & v' & W' & V' & ->). rewrite Vj in V'. injection V' as <-. rewrite Wk in W'. injection W' as <-.
        unfold passes. rewrite (proj2 (Rltb_false z (vy (v_pt v)))) by lra. rewrite andb_false_r. rewrite (proj2 (Rleb_true (vy (v_pt v)) z)), (proj2 (Rltb_true z (vy (v_pt w)))) by lra. cbn [andb].
        rewrite (xat_rev (v_pt w) (v_pt v)) by lra.
        assert (e_dx e = 1) as -> by (unfold edge_up in UP; apply Z.ltb_ge in UP; destruct D; lia). reflexivity. }
    rewrite (zsum_ext _ _ l S2). rewrite <- (zsum_map f (fun i => owner (side_of (edges s) i)) l), <- (map_map (side_of (edges s)) owner).
    assert (OWN : forall u, In u (map (side_of (edges s)) l) -> exists j, P j /\ side vs (fst u) j (snd u) /\ (Y j <= y)%R /\ (y < Y (snd u))%R).
    { intros u Hu. apply EX in Hu as (j & Pj & S & L & L'). exists j. csplit; auto; rops; now rbool. }
    apply (zsum_sub Nat.eq_dec).
    - revert ND OWN. generalize (map (side_of (edges s)) l) as K. clear - MK. induction K as [|u K IH]; intros ND OWN; cbn [map]; [constructor|].
      apply NoDup_cons_iff in ND as [N1 N2]. constructor; [|apply IH; auto; intros u' Hu; apply OWN; now right].
      intros I. apply in_map_iff in I as (u' & EQ & I). apply N1.
      destruct (OWN u (or_introl eq_refl)) as (j & Pj & S & L & L'). destruct (OWN u' (or_intror I)) as (j' & Pj' & S' & Lx & Lx').
      pose proof (owner_side u j S) as O. pose proof (owner_side u' j' S') as O'. destruct u as [[|] k], u' as [[|] k']; cbn [fst snd] in *.
      + assert (JJ : j = j') by congruence. replace k with k'; auto. eapply side_fun; [exact S'|]. rewrite <- JJ. exact S.
      + exfalso. destruct O' as [O' _]. assert (j = k') by congruence. subst k'. lra.
      + exfalso. destruct O as [O _]. assert (j' = k) by congruence. subst k. lra.
      + destruct O as [O _], O' as [O' _]. assert (KK : k = k') by congruence. now rewrite KK.
    - exact B_nodup.
    - intros i Hi. apply in_map_iff in Hi as (u & <- & Hu). destruct (OWN u Hu) as (j & Pj & S & _ & _). pose proof (owner_side u j S) as O. apply B_P.
      destruct u as [[|] k]; cbn [fst snd] in *; [now rewrite O|]. destruct O as [-> _]. eapply side_P; eauto.
    - intros i Hi NI. unfold f. destruct (ptype_eqb (ty i) t); auto. apply B_P in Hi. destruct (mk_side _ _ _ MK true i Hi) as (k & Pk & S).
      destruct (vpass_side x z i k S) as (v & w & Vi & Wk & ->). unfold passes.
      rewrite <- (height_some' vs _ v Vi), <- (height_some' vs _ w Wk).
      destruct (Rleb (Y i) z && Rltb z (Y k)) eqn:C1; [|destruct (Rleb (Y k) z && Rltb z (Y i)) eqn:C2; auto]; exfalso.
      + apply andb_true_iff in C1 as [C1 C2]. apply Rleb_true in C1. apply Rltb_true in C2. apply NI. apply in_map_iff. exists (true, k). split.
        * exact (owner_side (true, k) i S).
        * apply EX. exists i. cbn [fst snd]. csplit; auto; rops.
          -- apply Rleb_true. destruct (Rle_lt_dec (Y i) y) as [|K]; auto. apply GAP in K; auto. lra.
          -- apply Rltb_true. lra.
      + apply andb_true_iff in C2 as [C2 C3]. apply Rleb_true in C2. apply Rltb_true in C3. apply side_sym in S. cbn in S. apply NI. apply in_map_iff. exists (false, i). split.
        * exact (proj1 (owner_side (false, i) k S)).
        * apply EX. exists k. cbn [fst snd]. csplit; auto; rops.
          -- apply Rleb_true. destruct (Rle_lt_dec (Y k) y) as [|K]; auto. apply GAP in K; auto. lra.
          -- apply Rltb_true. lra.
  Qed.
End Wind.
