(** Proofs about rect. *)
From Coq Require Import Bool List Reals Lra.
From Verif Require Import Outcome Num Order Rmath RectSpec.
Import ListNotations.

Section Proofs.
  Context {T : Type} {N : Num T} {O : OrdNum T}.

  Lemma fold_min l : forall acc, nvalid acc -> (forall x, In x l -> nvalid x) ->
    let m := fold_left n_min l acc in
    nvalid m /\ nle m acc /\ (forall x, In x l -> nle m x) /\
    (m = acc \/ In m l).
  Proof.
    induction l as [|x l IH]; intros acc Ha Hl; cbn.
    - repeat split; auto using nle_refl. intros ? [].
    - assert (Hx : nvalid x) by (apply Hl; left; auto).
      destruct (nmin_spec acc x Ha Hx) as (H1 & H2 & H3 & H4).
      destruct (IH (n_min acc x) H3) as (K1 & K2 & K3 & K4); [intros; apply Hl; right; auto|].
      repeat split; auto.
      + eapply nle_trans; [..|exact K2|exact H1]; auto.
      + intros y [<-|Hy]; auto. eapply nle_trans; [..|exact K2|exact H2]; auto.
      + destruct K4 as [->|K4]; [|right; right; auto].
        destruct H4 as [->| ->]; auto.
  Qed.

  Lemma fold_max l : forall acc, nvalid acc -> (forall x, In x l -> nvalid x) ->
    let m := fold_left n_max l acc in
    nvalid m /\ nle acc m /\ (forall x, In x l -> nle x m) /\
    (m = acc \/ In m l).
  Proof.
    induction l as [|x l IH]; intros acc Ha Hl; cbn.
    - repeat split; auto using nle_refl. intros ? [].
    - assert (Hx : nvalid x) by (apply Hl; left; auto).
      destruct (nmax_spec acc x Ha Hx) as (H1 & H2 & H3 & H4).
      destruct (IH (n_max acc x) H3) as (K1 & K2 & K3 & K4); [intros; apply Hl; right; auto|].
      repeat split; auto.
      + eapply nle_trans; [..|exact H1|exact K2]; auto.
      + intros y [<-|Hy]; auto. eapply nle_trans; [..|exact H2|exact K2]; auto.
      + destruct K4 as [->|K4]; [|right; right; auto].
        destruct H4 as [->| ->]; auto.
  Qed.

  Lemma rect_from_folds l : forall r,
    fold_left rect_from_step l r =
    Rect (V2 (fold_left n_min (map vx l) (vx (rmin r))) (fold_left n_min (map vy l) (vy (rmin r))))
         (V2 (fold_left n_max (map vx l) (vx (rmax r))) (fold_left n_max (map vy l) (vy (rmax r)))).
  Proof.
    induction l as [|p l IH]; intros r; cbn [fold_left map].
    - destruct r as [[? ?] [? ?]]; reflexivity.
    - rewrite IH. reflexivity.
  Qed.

  (** C06 *)
  Lemma C06_lemma (l : list (vec2 T)) :
    l <> [] -> (forall p, In p l -> finite_point p) ->
    rect_wf (rect_from l) /\
    (forall p, In p l -> inbox (rect_from l) p) /\
    (forall r, rvalid r -> (forall p, In p l -> inbox r p) -> rect_le (rect_from l) r).
  Proof.
    intros Hne Hf. unfold rect_from. rewrite rect_from_folds. cbn [rmin rmax vx vy].
    assert (Vx : forall x, In x (map vx l) -> nvalid x).
    { intros x Hx. apply in_map_iff in Hx as (p & <- & Hp). apply Hf; auto. }
    assert (Vy : forall x, In x (map vy l) -> nvalid x).
    { intros x Hx. apply in_map_iff in Hx as (p & <- & Hp). apply Hf; auto. }
    destruct (fold_min (map vx l) n_huge nvalid_huge Vx) as (A1 & A2 & A3 & A4).
    destruct (fold_min (map vy l) n_huge nvalid_huge Vy) as (B1 & B2 & B3 & B4).
    destruct (fold_max (map vx l) (n_neg n_huge) nvalid_nhuge Vx) as (C1 & C2 & C3 & C4).
    destruct (fold_max (map vy l) (n_neg n_huge) nvalid_nhuge Vy) as (D1 & D2 & D3 & D4).
    set (a := fold_left n_min (map vx l) n_huge) in *.
    set (b := fold_left n_min (map vy l) n_huge) in *.
    set (c := fold_left n_max (map vx l) (n_neg n_huge)) in *.
    set (d := fold_left n_max (map vy l) (n_neg n_huge)) in *.
    clearbody a b c d.
    destruct l as [|p0 l]; [congruence|]. clear Hne.
    assert (H0 : finite_point p0) by (apply Hf; left; auto).
    assert (E0x : In (vx p0) (map vx (p0 :: l))) by (left; auto).
    assert (E0y : In (vy p0) (map vy (p0 :: l))) by (left; auto).
    split; [|split].
    - repeat split; cbn; auto.
      + eapply nle_trans; [..|apply A3; exact E0x|apply C3; exact E0x]; auto.
      + eapply nle_trans; [..|apply B3; exact E0y|apply D3; exact E0y]; auto.
    - intros p Hp. repeat split; cbn; [apply A3|apply C3|apply B3|apply D3];
        apply in_map; auto.
    - intros r [[R1 R2] [R3 R4]] Hr. destruct (Hf p0 (or_introl eq_refl)) as ((V1 & V2) & F1 & F2 & F3 & F4).
      destruct (Hr p0 (or_introl eq_refl)) as (I1 & I2 & I3 & I4).
      repeat split; cbn.
      + destruct A4 as [->|A4].
        * eapply nle_trans; [..|exact I1|exact F2]; auto using nvalid_huge.
        * apply in_map_iff in A4 as (p & <- & Hp). apply Hr; auto.
      + destruct C4 as [->|C4].
        * eapply nle_trans; [..|exact F1|exact I2]; auto using nvalid_nhuge.
        * apply in_map_iff in C4 as (p & <- & Hp). apply Hr; auto.
      + destruct B4 as [->|B4].
        * eapply nle_trans; [..|exact I3|exact F4]; auto using nvalid_huge.
        * apply in_map_iff in B4 as (p & <- & Hp). apply Hr; auto.
      + destruct D4 as [->|D4].
        * eapply nle_trans; [..|exact F3|exact I4]; auto using nvalid_nhuge.
        * apply in_map_iff in D4 as (p & <- & Hp). apply Hr; auto.
  Qed.

  (** C07 *)
  Lemma rect_intersect_conj (a r : rect T) : rvalid a -> rvalid r ->
    rect_intersect a r = true <->
    nle (vx (rmin r)) (vx (rmax a)) /\ nle (vx (rmin a)) (vx (rmax r)) /\
    nle (vy (rmin r)) (vy (rmax a)) /\ nle (vy (rmin a)) (vy (rmax r)).
  Proof.
    intros [[? ?] [? ?]] [[? ?] [? ?]]. unfold rect_intersect.
    rewrite negb_true_iff, !orb_false_iff, !nle_not_lt by auto. tauto.
  Qed.

  Lemma C07_lemma (a b : rect T) : rect_wf a -> rect_wf b ->
    (rect_intersect a b = true <-> exists p, vvalid p /\ inbox a p /\ inbox b p).
  Proof.
    intros (Va & Wx & Wy) (Vb & Wx' & Wy'). rewrite rect_intersect_conj by auto.
    pose proof Va as [[? ?] [? ?]]. pose proof Vb as [[? ?] [? ?]].
    split.
    - intros (K1 & K2 & K3 & K4).
      destruct (nmax_spec (vx (rmin a)) (vx (rmin b))) as (X1 & X2 & X3 & X4); auto.
      destruct (nmax_spec (vy (rmin a)) (vy (rmin b))) as (Y1 & Y2 & Y3 & Y4); auto.
      exists (V2 (n_max (vx (rmin a)) (vx (rmin b))) (n_max (vy (rmin a)) (vy (rmin b)))).
      repeat split; cbn; auto;
        first [ destruct X4 as [-> | ->]; assumption | destruct Y4 as [-> | ->]; assumption ].
    - intros (p & [Vp1 Vp2] & (A1 & A2 & A3 & A4) & (B1 & B2 & B3 & B4)).
      repeat split.
      + eapply nle_trans; [..|exact B1|exact A2]; auto.
      + eapply nle_trans; [..|exact A1|exact B2]; auto.
      + eapply nle_trans; [..|exact B3|exact A4]; auto.
      + eapply nle_trans; [..|exact A3|exact B4]; auto.
  Qed.

  Lemma C07_sym_lemma (a b : rect T) : rvalid a -> rvalid b ->
    rect_intersect a b = rect_intersect b a.
  Proof.
    intros Va Vb. apply Bool.eq_true_iff_eq. rewrite !rect_intersect_conj by auto. tauto.
  Qed.
End Proofs.
