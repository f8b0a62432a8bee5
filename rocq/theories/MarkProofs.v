(** Marking the local extrema of a cyclic sequence of heights. *)
From Coq Require Import ZArith Bool List Lia.
From Verif Require Import Outcome Num Order Rmath Segment Path PathSpec VState VPath AelSpec VAelRun RingSpec.
Import ListNotations.

Lemma last_cons {A} (a : list A) : forall c v, last (c :: a) v = last a c.
Proof.
  induction a as [|x a IH]; intros c v; [reflexivity|].
  change (last (x :: a) v = last (x :: a) c). now rewrite !IH.
Qed.
Section Marks.
  Context {T : Type} {N : Num T}.
  Variable Y : nat -> T.
  (** The pass of mark_extrema: [(v, true)] a minimum, [(v, false)] a maximum *)
  Fixpoint marks (g : bool) (prev : nat) (cs : list nat) : list (nat * bool) * bool :=
    match cs with
    | [] => ([], g)
    | c :: r =>
      if n_ltb (Y prev) (Y c) && g then let '(m, d) := marks false c r in ((prev, true) :: m, d)
      else if n_ltb (Y c) (Y prev) && negb g then let '(m, d) := marks true c r in ((prev, false) :: m, d)
      else marks g c r
    end.
  Definition toggled (g : bool) (n : nat) : bool := xorb g (Nat.odd n).
  Lemma marks_alternate cs : forall g v m d, marks g v cs = (m, d) ->
    alternate g (map snd m) /\ d = toggled g (length m).
  Proof.
    unfold toggled. induction cs as [|c r IH]; simpl; intros g v m d H.
    - injection H as <- <-. simpl. split; auto. now destruct g.
    - destruct (n_ltb (Y v) (Y c) && g) eqn:E1; [|destruct (n_ltb (Y c) (Y v) && negb g) eqn:E2].
      + destruct (marks false c r) as [m' d'] eqn:M. injection H as <- <-. apply IH in M as [M1 M2].
        apply andb_prop in E1 as [_ ->]. cbn [map snd alternate length]. split; auto.
        rewrite Nat.odd_succ, <- Nat.negb_odd, M2. now destruct (Nat.odd (length m')).
      + destruct (marks true c r) as [m' d'] eqn:M. injection H as <- <-. apply IH in M as [M1 M2].
        apply andb_prop in E2 as [_ E2]. destruct g; [discriminate|]. cbn [map snd alternate length]. split; auto.
        rewrite Nat.odd_succ, <- Nat.negb_odd, M2. now destruct (Nat.odd (length m')).
      + eauto.
  Qed.
  Lemma marks_subseq cs : forall g v m d, marks g v cs = (m, d) -> subseq (map fst m) (v :: removelast cs).
  Proof.
    induction cs as [|c r IH]; intros g v m d H.
    - injection H as <- <-. simpl. apply sub_skip. constructor.
    - assert (K : forall m', subseq m' (c :: removelast r) -> r <> [] -> subseq m' (removelast (c :: r))).
      { intros m' Hm Hr. simpl. destruct r; [congruence|exact Hm]. }
      assert (K2 : forall g m' d', marks g c r = (m', d') -> subseq (map fst m') (removelast (c :: r))).
      { intros g' m' d' H'. destruct r as [|x r]; [injection H' as <- <-; constructor|].
        apply K; [eauto|discriminate]. }
      cbn [marks] in H.
      destruct (n_ltb (Y v) (Y c) && g); [|destruct (n_ltb (Y c) (Y v) && negb g)].
      + destruct (marks false c r) as [m' d'] eqn:M. injection H as <- <-. simpl map. apply sub_keep. eauto.
      + destruct (marks true c r) as [m' d'] eqn:M. injection H as <- <-. simpl map. apply sub_keep. eauto.
      + apply sub_skip. eauto.
  Qed.
  Lemma marks_app a : forall g v b, marks g v (a ++ b) =
    let '(m1, g1) := marks g v a in let '(m2, d) := marks g1 (last a v) b in (m1 ++ m2, d).
  Proof.
    induction a as [|c a IH]; intros g v b.
    - simpl. now destruct (marks g v b).
    - cbn [app marks]. rewrite last_cons.
      destruct (n_ltb (Y v) (Y c) && g); [|destruct (n_ltb (Y c) (Y v) && negb g)]; rewrite IH;
        destruct (marks _ c a) as [m1 g1]; destruct (marks g1 (last a c) b) as [m2 d]; reflexivity.
  Qed.
End Marks.

Lemma marks_ext {T} {N : Num T} (Y Z : nat -> T) cs : forall g v, (forall i, In i (v :: cs) -> Z i = Y i) -> marks Z g v cs = marks Y g v cs.
Proof.
  induction cs as [|c cs IH]; intros g v E; [reflexivity|]. cbn [marks].
  rewrite (E v), (E c) by (simpl; auto). rewrite !IH by (intros i Hi; apply E; now right). reflexivity.
Qed.
Section Ordered.
  Context {T : Type} {N : Num T} {O : OrdNum T}.
  Variable Y : nat -> T.
  Notation ok l := (forall i, In i l -> nvalid (Y i)).

  Lemma lt_asym a b : nvalid a -> nvalid b -> n_ltb a b = true -> n_ltb b a = false.
  Proof. intros A B H. apply nle_not_lt; auto. now apply nlt_le. Qed.
  Lemma lt_neq a b : nvalid a -> nvalid b -> n_ltb a b = true -> n_eqb a b = false.
  Proof. intros A B H. rewrite neq_le by auto. rewrite (nle_negb b a) by auto. rewrite H. apply andb_false_r. Qed.
  Lemma cmp a b : nvalid a -> nvalid b -> n_ltb a b = true \/ n_ltb b a = true \/ n_eqb a b = true.
  Proof.
    intros A B. rewrite neq_le by auto. rewrite !nle_negb by auto.
    destruct (n_ltb a b), (n_ltb b a); simpl; auto.
  Qed.
  Lemma eq_not_lt a b : nvalid a -> nvalid b -> n_eqb a b = true -> n_ltb a b = false /\ n_ltb b a = false.
  Proof.
    intros A B H. rewrite neq_le in H by auto. apply andb_prop in H as [H1 H2]. split; now apply nle_not_lt.
  Qed.
  Lemma arrives_fun g h v pre : nvalid (Y v) -> ok pre -> arrives Y g v pre -> arrives Y h v pre -> g = h.
  Proof.
    intros V. induction pre as [|x pre IH]; intros P (e & p & q & E & F & L) (e' & p' & q' & E' & F' & L').
    - now destruct e.
    - assert (Vx : nvalid (Y x)) by (apply P; now left).
      destruct e as [|y e]; destruct e' as [|y' e']; simpl in *; injection E as -> ->; injection E' as <- E'; subst.
      + destruct g, h; auto; rewrite (lt_asym _ _) in L'; auto; discriminate.
      + inversion F' as [|? ? F1 _]; subst. apply eq_not_lt in F1 as [F1 F2]; auto. destruct g; congruence.
      + inversion F as [|? ? F1 _]; subst. apply eq_not_lt in F1 as [F1 F2]; auto. destruct h; congruence.
      + inversion F; inversion F'; subst. apply IH; [intros; apply P; now right| |].
        * exists e, p, q. auto.
        * exists e', p', q'. auto.
  Qed.
  Lemma arrives_more g v a b : arrives Y g v a -> arrives Y g v (a ++ b).
  Proof. intros (e & p & q & -> & F & L). exists e, p, (q ++ b). rewrite <- app_assoc. auto. Qed.
  Lemma arrives_less g v a b : Forall (fun i => n_eqb (Y i) (Y v) = true) b -> nvalid (Y v) -> ok b ->
    arrives Y g v (a ++ b) -> arrives Y g v a.
  Proof.
    intros FB V B. induction a as [|x a IH]; intros (e & p & q & E & F & L).
    - simpl in E. subst b. assert (Vp : nvalid (Y p)) by (apply B; apply in_or_app; right; now left).
      apply Forall_app in FB as [_ FB]. inversion FB as [|? ? K _]; subst. apply eq_not_lt in K as [K1 K2]; auto. destruct g; congruence.
    - destruct e as [|y e]; simpl in E; injection E as -> E.
      + subst. exists [], p, a. auto.
      + inversion F; subst. destruct IH as (e' & p' & q' & E' & F' & L'). { exists e, p, q. auto. }
        exists (y :: e'), p', q'. subst. simpl. auto.
  Qed.
  (** One step along the ring: from [v], with [pre] before it, to [c]. *)
  Lemma arrives_step g v c pre : nvalid (Y v) -> nvalid (Y c) -> ok pre -> arrives Y g v pre ->
    arrives Y (if n_ltb (Y v) (Y c) && g then false else if n_ltb (Y c) (Y v) && negb g then true else g) c (v :: pre).
  Proof.
    intros V C P A. destruct (cmp (Y v) (Y c) V C) as [L|[L|L]].
    - pose proof (lt_asym _ _ V C L) as L'. rewrite L, L'. simpl.
      exists [], v, pre. destruct g; simpl; auto.
    - pose proof (lt_asym _ _ C V L) as L'. rewrite L, L'. simpl.
      exists [], v, pre. destruct g; simpl; auto.
    - destruct (eq_not_lt _ _ V C L) as [L1 L2]. rewrite L1, L2. simpl.
      destruct A as (e & p & q & -> & F & G). exists (v :: e), p, q. simpl. split; auto.
      assert (Vp : nvalid (Y p)) by (apply P; apply in_or_app; right; now left).
      split.
      + constructor; auto. rewrite Forall_forall in *. intros i Hi. eapply neq_trans; eauto.
      + destruct g.
        * rewrite neq_sym in L. eapply neq_lt_trans; [..|exact G]; eauto.
        * eapply nlt_eq_trans; [..|exact L]; eauto.
  Qed.
End Ordered.
