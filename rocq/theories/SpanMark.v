(** Contours whose marks are their extrema are [marked]. *)
From Coq Require Import ZArith Bool List Lia.
From Verif Require Import Outcome Num Order OrdTac Rmath Segment VState VPath VLemmas AelSpec RingSpec ClimbSpec ClimbRing SpanSpec SpanRing.
Import ListNotations.

Section Mark.
  Context {T : Type} {N : Num T} {O : OrdNum T}.
  Variable vs : list (vertex T).
  Notation Y := (height vs).
  (** The vertices [w], met one after the other walking from [i] against [fwd] *)
  Fixpoint behind (fwd : bool) (i : nat) (w : list nat) : Prop :=
    match w with
    | [] => True
    | p :: w => side vs fwd p i /\ behind fwd p w
    end.
  Lemma link_side a b g : link vs a b g -> side vs true a b.
  Proof. intros (v & w & A & B & C & D & _). exists v, w. auto. Qed.
  Lemma behind_app fwd u : forall i w, behind fwd i (u ++ w) -> behind fwd i u.
  Proof. induction u; cbn; auto. intros i w [A B]. split; eauto. Qed.
  Lemma strand_ahead l : forall i gs, strand vs i l gs -> behind false i l.
  Proof.
    induction l as [|b l IH]; intros i [|g gs] H; cbn in *; auto; try contradiction. destruct H as [A B]. split; eauto.
    apply link_side, side_sym in A. exact A.
  Qed.
  Lemma strand_behind b l : forall a gs pre, strand vs a (l ++ [b]) gs -> behind true a pre -> behind true b (rev l ++ a :: pre).
  Proof.
    induction l as [|c l IH]; intros a [|g gs] pre H K; cbn [app strand] in H; try contradiction; destruct H as [A B]; apply link_side in A.
    - cbn. auto.
    - cbn [rev]. rewrite <- app_assoc. cbn [app]. eapply IH; eauto. cbn. auto.
  Qed.
  Lemma arrives_comes fwd g v w : nvalid (Y v) -> forall i, n_eqb (Y i) (Y v) = true -> nvalid (Y i) -> (forall k, In k w -> nvalid (Y k)) -> behind fwd i w ->
    arrives Y g v w -> comes vs (negb g) fwd i.
  Proof.
    intros Vv. induction w as [|p w IH]; intros i E Vi Vw B (e & q & r & EQ & F & C); [destruct e; discriminate|].
    destruct B as [B1 B2]. assert (Vp : nvalid (Y p)) by (apply Vw; now left). destruct e as [|p' e]; cbn [app] in EQ; injection EQ as <- EQ.
    - apply comes_here with p; auto. destruct g; cbn; ord.
    - inversion F as [|? ? F1 F2]; subst. apply comes_flat with p; auto; [ord|]. apply IH; auto.
      + intros k Hk. apply Vw. now right.
      + exists e, q, r. auto.
  Qed.
  Lemma some_arrives i w a : nvalid (Y i) -> (forall k, In k w -> nvalid (Y k)) -> In a w -> n_eqb (Y a) (Y i) = false -> exists g, arrives Y g i w.
  Proof.
    intros Vi. induction w as [|p w IH]; intros Vw Ha E; [contradiction|]. assert (Vp : nvalid (Y p)) by (apply Vw; now left).
    destruct (n_eqb (Y p) (Y i)) eqn:Ep.
    - destruct Ha as [->|Ha]; [congruence|]. destruct IH as (g & e & q & r & -> & F & C); auto; [intros k Hk; apply Vw; now right|].
      exists g, (p :: e), q, r. csplit; auto.
    - destruct (n_ltb (Y i) (Y p)) eqn:L; [exists true|exists false]; exists [], p, w; csplit; auto. ord.
  Qed.

  Variable ls : list (list nat).
  Hypothesis ls_ring : forall l, In l ls -> exists gs, ring vs l gs.
  Hypothesis ls_valid : forall l i, In l ls -> In i l -> nvalid (Y i).
  Hypothesis ls_max : forall l i v, In l ls -> In i l -> nth_error vs i = Some v -> v_max v = true -> highest Y l i.
  Hypothesis ls_flat : forall l, In l ls -> exists a b, In a l /\ In b l /\ n_ltb (Y a) (Y b) = true.
  Definition on_contour i := exists l, In l ls /\ In i l.
  Definition is_lowest i := exists l, In l ls /\ lowest Y l i.
  (** A vertex of a contour, seen from there *)
  Lemma seen l i : In l ls -> In i l -> exists rest, turned l i rest /\ rest <> [] /\ behind true i (rev rest) /\ behind false i rest /\
    (exists g, arrives Y g i (rev rest)) /\ (exists g, arrives Y g i rest) /\ (forall k, In k (i :: rest) <-> In k l).
  Proof.
    intros Hl Hi. destruct (ls_ring l Hl) as [gs R]. apply in_split in Hi as (a & b & E). assert (TR : turned l i (b ++ a)) by (exists a, b; auto).
    destruct (ring_from vs l gs i (b ++ a) R TR) as [gs' S]. pose proof (strand_behind i (b ++ a) i gs' [] S I) as S1. apply behind_app in S1.
    pose proof (strand_ahead _ _ _ S) as S2. apply behind_app in S2.
    assert (IN : forall k, In k (i :: b ++ a) <-> In k l) by (intros k; rewrite E; cbn; rewrite !in_app_iff; cbn; tauto).
    assert (Vi : nvalid (Y i)) by (apply (ls_valid l); auto; apply IN; now left).
    assert (X : exists c, In c (b ++ a) /\ n_eqb (Y c) (Y i) = false).
    { destruct (ls_flat l Hl) as (x & y & Hx & Hy & L). assert (Vx := ls_valid l x Hl Hx). assert (Vy := ls_valid l y Hl Hy).
      apply IN in Hx. apply IN in Hy. destruct (n_eqb (Y x) (Y i)) eqn:Ex.
      - exists y. destruct Hy as [<-|Hy]; [exfalso; ord|]. split; auto. ord.
      - exists x. destruct Hx as [<-|Hx]; [exfalso; ord|]. auto. }
    destruct X as (c & Hc & NE). exists (b ++ a). csplit; auto.
    - intros K. rewrite K in Hc. contradiction.
    - apply (some_arrives i _ c); auto; [|now apply in_rev in Hc]. intros k Hk. apply (ls_valid l); auto. apply IN. right. now apply in_rev.
    - apply (some_arrives i _ c); auto. intros k Hk. apply (ls_valid l); auto. apply IN. now right.
  Qed.
  Lemma turned_same l i r r' : In l ls -> turned l i r -> turned l i r' -> r = r'.
  Proof.
    intros Hl A B. destruct (ls_ring l Hl) as [gs R]. assert (ND : NoDup l) by (destruct l; cbn in R; [contradiction|apply R]).
    destruct A as (a & b & -> & ->), B as (a' & b' & E & ->).
    assert (K : a = a' /\ b = b'); [|now destruct K as [-> ->]].
    clear - ND E. revert a' E. induction a as [|x a IH]; intros [|x' a'] E; cbn in *.
    - injection E as ->. auto.
    - injection E as <- ->. inversion ND as [|? ? H1 H2]; subst. exfalso. apply H1. rewrite in_app_iff. cbn. auto.
    - injection E as -> <-. inversion ND as [|? ? H1 H2]; subst. exfalso. apply H1. rewrite in_app_iff. cbn. auto.
    - injection E as -> E. inversion ND as [|? ? H1 H2]; subst. destruct (IH H2 a' E) as [-> ->]. auto.
  Qed.
  Lemma side_before fwd i l p : In l ls -> In i l -> side vs fwd p i -> In p l.
  Proof.
    intros Hl Hi SD. destruct (seen l i Hl Hi) as (rest & _ & NE & A & B & _ & _ & IN). apply IN. right. destruct fwd.
    - destruct (rev rest) as [|h r] eqn:ER; [apply (f_equal (@rev nat)) in ER; rewrite rev_involutive in ER; contradiction|].
      destruct A as [A _]. rewrite (side_inj vs _ _ _ _ SD A). apply in_rev. rewrite ER. now left.
    - destruct rest as [|h r]; [contradiction|]. destruct B as [B _]. rewrite (side_inj vs _ _ _ _ SD B). now left.
  Qed.
  Lemma comes_once l up up' fwd i : In l ls -> comes vs up fwd i -> In i l -> comes vs up' fwd i -> up = up'.
  Proof.
    intros Hl. induction 1 as [i p A B|i p A B _ IH]; intros Hi H; pose proof (side_before _ _ _ _ Hl Hi A) as Hp;
      pose proof (ls_valid l i Hl Hi) as Vi; pose proof (ls_valid l p Hl Hp) as Vp.
    - inversion H as [? p' A' B'|? p' A' B' _]; subst; rewrite <- (side_inj _ _ _ _ _ A A') in *;
        destruct up; try destruct up'; auto; exfalso; ord.
    - inversion H as [? p' A' B'|? p' A' B' C]; subst; rewrite <- (side_inj _ _ _ _ _ A A') in *; auto.
      destruct up'; exfalso; ord.
  Qed.
  Lemma marked_rings : marked vs on_contour is_lowest.
  Proof.
    constructor.
    - intros i (l & Hl & Hi). destruct (seen l i Hl Hi) as (rest & _ & NE & _ & B & _). destruct rest as [|h r]; [contradiction|].
      destruct B as [(v & w & _ & K & _) _]. eauto.
    - intros fwd i (l & Hl & Hi). destruct (seen l i Hl Hi) as (rest & _ & NE & A & B & _ & _ & IN). destruct fwd.
      + destruct rest as [|h r]; [contradiction|]. exists h. split; [exists l; split; auto; apply IN; right; now left|].
        destruct B as [B _]. apply side_sym in B. exact B.
      + destruct (rev rest) as [|h r] eqn:ER; [apply (f_equal (@rev nat)) in ER; rewrite rev_involutive in ER; contradiction|].
        exists h. destruct A as [A _]. apply side_sym in A. split; auto. exists l. split; auto. apply IN. right. apply in_rev. rewrite ER. now left.
    - intros i (l & Hl & Hi). eauto.
    - intros fwd i (l & Hl & Hi). destruct (seen l i Hl Hi) as (rest & _ & NE & A & B & (g & G) & (h & H) & IN).
      assert (Vi := ls_valid l i Hl Hi).
      assert (Er : n_eqb (Y i) (Y i) = true) by ord.
      assert (Vr : forall k, In k rest -> nvalid (Y k)) by (intros k Hk; apply (ls_valid l); auto; apply IN; now right).
      destruct fwd; eexists.
      + apply (arrives_comes true g i (rev rest)); auto. intros k Hk. apply Vr. now apply in_rev.
      + apply (arrives_comes false h i rest); auto.
    - intros i v (l & Hl & Hi) Hv Mx. destruct (ls_max l i v Hl Hi Hv Mx) as (n & r & TR & L & AR).
      destruct (seen l i Hl Hi) as (rest & TR' & NE & A & B & _ & _ & IN). rewrite <- (turned_same l i _ _ Hl TR TR') in *.
      assert (Vi := ls_valid l i Hl Hi). split.
      + change true with (negb false) at 1. apply (arrives_comes true false i (rev (n :: r))); auto; [ord|].
        intros k Hk. apply (ls_valid l); auto. apply IN. right. now apply in_rev.
      + destruct B as [B _]. apply comes_here with n; auto.
    - intros i. split.
      + intros (l & Hl & n & r & TR & L & AR). assert (Hi : In i l) by (destruct TR as (a & b & -> & _); rewrite in_app_iff; cbn; auto).
        destruct (seen l i Hl Hi) as (rest & TR' & NE & A & B & _ & _ & IN). rewrite <- (turned_same l i _ _ Hl TR TR') in *.
        assert (Vi := ls_valid l i Hl Hi). split; [exists l; auto|]. split.
        * change false with (negb true) at 1. apply (arrives_comes true true i (rev (n :: r))); auto; [ord|].
          intros k Hk. apply (ls_valid l); auto. apply IN. right. now apply in_rev.
        * exists n. split; auto. destruct B as [B _]. apply side_sym in B. exact B.
      + intros ((l & Hl & Hi) & C & n & SD & L). exists l. split; auto.
        destruct (seen l i Hl Hi) as (rest & TR & NE & A & B & (g & G) & _ & IN). destruct rest as [|h r]; [contradiction|].
        destruct B as [B _]. apply side_sym in B. pose proof (side_fun vs _ _ _ _ SD B) as <-. exists n, r. csplit; auto.
        assert (Vi := ls_valid l i Hl Hi).
        assert (C' : comes vs (negb g) true i).
        { apply (arrives_comes true g i (rev (n :: r))); auto; [ord|].
          intros k Hk. apply (ls_valid l); auto. apply IN. right. now apply in_rev. }
        enough (negb g = false) by (destruct g; auto; discriminate).
        eapply (comes_once l); eauto.
  Qed.
End Mark.
