(** Closing the polygons whose two ends meet. *)
From Coq Require Import ZArith Bool List Reals Lra Lia Permutation.
From Verif Require Import Outcome Num Rmath RTac Segment VState VAel VOut VMain VLemmas VFrame AelSpec VAelProofs VEdges PlaneSpec PlaneCount OutSpec OutPath OutAlt OutList.
Import ListNotations.
Local Open Scope Z_scope.
Local Open Scope out.

Section Close.
  Implicit Types s : clipper R.
  (** The x and the directions of the bounds [bl] *)
  Definition reads (bs : list (bound R)) (X : nat -> R) (D : nat -> Z) (bl : list nat) : Prop :=
    forall c, In c bl -> exists x, nth_error bs c = Some x /\ ob_stop_x x = X c /\ ob_dx x = D c.
  Lemma reads_keep bs bs' X D bl bl' : (forall c, In c bl' -> In c bl) -> (forall c, In c bl' -> bkeep bs bs' c) -> reads bs X D bl -> reads bs' X D bl'.
  Proof. intros I K H c Hc. destruct (H c (I c Hc)) as (x & E & A & B). destruct (K c Hc x E) as (x' & E' & S1 & S2 & S3). exists x'. csplit; congruence. Qed.
  Lemma bkeep_trans b1 b2 b3 c : bkeep b1 b2 c -> bkeep b2 b3 c -> bkeep b1 b3 c.
  Proof. intros A B x E. destruct (A x E) as (x1 & E1 & S1 & S2 & S3). destruct (B x1 E1) as (x2 & E2 & T1 & T2 & T3). exists x2. unfold bstay. csplit; congruence. Qed.
  Lemma bkeep_refl bs c : bkeep bs bs c.
  Proof. intros x E. exists x. unfold bstay. auto. Qed.
  Lemma chain_mid s a i b : chain s (a ++ i :: b) -> exists x, nth_error (bounds s) i = Some x /\ ob_next x = hd_or b None /\ ob_prev x = last_or None a.
  Proof. intros (_ & C & _). apply bseg_app in C as [_ (x & E & P & Q & _)]. exists x. auto. Qed.
  Lemma dx_up (x y : bound R) d : d = 1 \/ d = -1 -> ob_dx x = d -> ob_dx y = - d -> bound_up x = negb (bound_up y).
  Proof. unfold bound_up. intros [-> | ->] -> ->; reflexivity. Qed.

  Variable pos : nat -> vec2 R.
  Variable X : nat -> R.
  Variable D : nat -> Z.
  Variable d : Z.
  Hypothesis d_pm : d = 1 \/ d = -1.
  Definition closes s s' bl : Prop :=
    exists bl', shrink X bl bl' /\ outs s' pos bl' [] /\ (forall x z, tw (polys s') pos x z = tw (polys s) pos x z) /\
      (forall c, In c bl' -> bkeep (bounds s) (bounds s') c) /\ (forall i c, ebof (edges s') i = Some c <-> ebof (edges s) i = Some c /\ In c bl').
  Lemma closes_refl s bl : outs s pos bl [] -> closes s s bl.
  Proof. intros O. exists bl. csplit; auto using bkeep_refl; [constructor|]. intros i c. split; [|tauto]. intros H. split; auto. apply (os_live _ _ _ _ O) in H. now rewrite app_nil_r in H. Qed.
  Lemma close_loop_run fuel : forall s y c n don rest, outs s pos (don ++ c :: rest) [] -> n = hd_or rest None -> reads (bounds s) X D (don ++ c :: rest) ->
    altf D d (don ++ c :: rest) -> (forall a b, In a (don ++ c :: rest) -> In b (don ++ c :: rest) -> X a = X b -> pos a = pos b) ->
    runs (length rest <= fuel)%nat (fun s' => closes s s' (don ++ c :: rest)) (close_loop fuel s y c n).
  Proof.
    induction fuel; intros s y c n don rest O Hn RD AL PO; (destruct rest as [|nx rest]; cbn [hd_or] in Hn; subst n; cbn [close_loop]; [now apply closes_refl|]); [cbn; lia|].
    assert (Ic : In c (don ++ c :: nx :: rest)) by (apply in_or_app; right; now left). assert (In_ : In nx (don ++ c :: nx :: rest)) by (apply in_or_app; right; right; now left).
    destruct (RD c Ic) as (bc & Ec & Xc & Dc). destruct (RD nx In_) as (bn & En & Xn & Dn).
    rewrite (proj2 (at_ok _ _ _) En), (proj2 (at_ok _ _ _) Ec). cbn [bind].
    assert (NX : ob_next bn = hd_or rest None).
    { assert (C := os_chain _ _ _ _ O). change (c :: nx :: rest) with ([c] ++ nx :: rest) in C. rewrite app_assoc in C. destruct (chain_mid _ _ _ _ C) as (x & E & F & _). congruence. }
    rewrite NX.
    destruct (n_eqb (ob_stop_x bc) (ob_stop_x bn)) eqn:Q.
    - assert (Qx : ob_stop_x bc = ob_stop_x bn) by (rops; now rbool). pose proof (altf_drop _ _ _ _ _ _ AL) as [AL' DD].
      assert (PM : D c = 1 \/ D c = -1) by exact (altf_pm D d _ d_pm AL c Ic).
      destruct (join_run s pos don c nx rest [] bc bn y O Ec En Qx) as (s1 & F & O' & TW & KP & EB & _).
      { apply (dx_up bc bn (D c)); auto. congruence. }
      { apply PO; auto. congruence. }
      rewrite F. cbn [bind].
      assert (Nd : NoDup (don ++ c :: nx :: rest)) by apply (os_chain _ _ _ _ O).
      assert (Sub : forall k, In k (don ++ rest) -> In k (don ++ c :: nx :: rest) /\ k <> c /\ k <> nx).
      { intros k Hk. assert (N1 : ~ In c (don ++ nx :: rest)) by now apply NoDup_remove_2. assert (N2 : ~ In nx (don ++ rest)) by (apply NoDup_remove_1 in Nd; now apply NoDup_remove_2 in Nd).
        rewrite in_app_iff in *. cbn in *. csplit; [tauto| |]; intros ->; tauto. }
      assert (STEP : forall s2, closes s1 s2 (don ++ rest) -> closes s s2 (don ++ c :: nx :: rest)).
      { intros s2 (bl' & A1 & A2 & A3 & A4 & A5). exists bl'. csplit; auto.
        - apply shr_pair; auto. congruence.
        - intros x z. rewrite A3. apply TW.
        - intros k Hk. eapply bkeep_trans; [|apply A4; auto]. apply (shrink_in _ _ _ A1) in Hk. apply KP; now apply Sub.
        - intros i k. rewrite A5, EB. split; [tauto|]. intros [K1 K2]. csplit; auto; apply (shrink_in _ _ _ A1) in K2; now apply Sub. }
      destruct rest as [|c' rest]; cbn [hd_or]; [apply STEP, closes_refl, O'|].
      destruct (chain_mid _ _ _ _ (os_chain _ _ _ _ O')) as (x & E1 & F1 & _). rewrite (proj2 (at_ok _ _ _) E1). cbn [bind].
      eapply runs_weak; [eapply IHfuel; [exact O'|exact F1| |exact AL'|]|intros s2 _; apply STEP|cbn; lia].
      + eapply reads_keep; [| |exact RD]; [intros k Hk; now apply Sub|intros k Hk; apply KP; now apply Sub].
      + intros a b Ha Hb. apply PO; now apply Sub.
    - cbn [bind]. destruct rest as [|c' rest]; cbn [hd_or]; [now apply closes_refl|].
      assert (SH : don ++ c :: nx :: c' :: rest = (don ++ [c; nx]) ++ c' :: rest) by (rewrite <- app_assoc; reflexivity). rewrite SH in *.
      destruct (chain_mid _ _ _ _ (os_chain _ _ _ _ O)) as (x & E1 & F1 & _). rewrite (proj2 (at_ok _ _ _) E1). cbn [bind]. eapply runs_weak; [eapply IHfuel; eauto|auto|cbn; lia].
  Qed.
  Lemma close_output_run n s y bl : outs s pos bl [] -> reads (bounds s) X D bl -> altf D d bl -> (forall a b, In a bl -> In b bl -> X a = X b -> pos a = pos b) ->
    runs (length bl <= n)%nat (fun s' => closes s s' bl) (close_output n s y).
  Proof.
    intros O RD AL PO. unfold close_output. pose proof (os_chain _ _ _ _ O) as (C1 & _). rewrite C1. destruct bl as [|c bl]; cbn [hd_or].
    - now apply closes_refl.
    - destruct (chain_mid s [] c bl (os_chain _ _ _ _ O)) as (x & E1 & F1 & _). rewrite (proj2 (at_ok _ _ _) E1). cbn [bind].
      eapply runs_weak; [eapply (close_loop_run n s y c (ob_next x) [] bl); eauto|auto|cbn; lia].
  Qed.
End Close.
