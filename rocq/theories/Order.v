(** Consequences of the order laws of [OrdNum]. *)
From Coq Require Import Bool.
From Verif Require Import Num.

Section Order.
  Context {T : Type} {N : Num T} {O : OrdNum T}.

  Definition nle (a b : T) : Prop := n_leb a b = true.
  Definition nlt (a b : T) : Prop := n_ltb a b = true.

  Lemma nle_not_lt a b : nvalid a -> nvalid b -> nle a b <-> n_ltb b a = false.
  Proof. intros Ha Hb. unfold nle. rewrite nle_negb by auto. apply negb_true_iff. Qed.

  Lemma nle_refl a : nvalid a -> nle a a.
  Proof. intros H. apply nle_not_lt; auto. apply nlt_irrefl. Qed.

  Lemma nlt_le a b : nvalid a -> nvalid b -> nlt a b -> nle a b.
  Proof.
    intros Ha Hb H. apply nle_not_lt; auto.
    destruct (n_ltb b a) eqn:E; auto.
    pose proof (nlt_trans a b a Ha Hb Ha H E) as K. rewrite nlt_irrefl in K. discriminate.
  Qed.

  Lemma nle_cases a b : nvalid a -> nvalid b -> nle a b -> nlt a b \/ n_eqb a b = true.
  Proof.
    intros Ha Hb H. unfold nlt. destruct (n_ltb a b) eqn:E; auto. right.
    rewrite neq_le by auto. rewrite H. apply nle_not_lt in E; auto.
  Qed.

  Lemma neq_nle a b : nvalid a -> nvalid b -> n_eqb a b = true -> nle a b.
  Proof. intros Ha Hb H. rewrite neq_le in H by auto. apply andb_prop in H as [H _]; auto. Qed.

  Lemma nle_lt_trans a b c : nvalid a -> nvalid b -> nvalid c -> nle a b -> nlt b c -> nlt a c.
  Proof.
    intros Ha Hb Hc H1 H2. apply nle_cases in H1 as [H1|H1]; auto; unfold nlt in *.
    - eapply nlt_trans; [..|exact H2]; auto.
    - eapply neq_lt_trans; [..|exact H2]; auto.
  Qed.

  Lemma nlt_le_trans a b c : nvalid a -> nvalid b -> nvalid c -> nlt a b -> nle b c -> nlt a c.
  Proof.
    intros Ha Hb Hc H1 H2. apply nle_cases in H2 as [H2|H2]; auto; unfold nlt in *.
    - eapply nlt_trans; [..|exact H2]; auto.
    - eapply nlt_eq_trans; [..|exact H2]; auto.
  Qed.

  Lemma nle_trans a b c : nvalid a -> nvalid b -> nvalid c -> nle a b -> nle b c -> nle a c.
  Proof.
    intros Ha Hb Hc H1 H2. apply nle_cases in H1 as [H1|H1]; auto.
    - apply nlt_le; auto. eapply nlt_le_trans; [..|exact H2]; auto.
    - apply nle_cases in H2 as [H2|H2]; auto.
      + apply nlt_le; auto. eapply neq_lt_trans; [..|exact H2]; auto.
      + apply neq_nle; auto. eapply neq_trans; eauto.
  Qed.

  Lemma nlt_or_le a b : nvalid a -> nvalid b -> nlt a b \/ nle b a.
  Proof.
    intros Ha Hb. unfold nlt. destruct (n_ltb a b) eqn:E; auto. right. apply nle_not_lt; auto.
  Qed.

  Lemma nmin_spec a b : nvalid a -> nvalid b ->
    nle (n_min a b) a /\ nle (n_min a b) b /\ nvalid (n_min a b) /\ (n_min a b = a \/ n_min a b = b).
  Proof.
    intros Ha Hb. unfold n_min. destruct (n_ltb b a) eqn:E; repeat split; auto using nle_refl, nlt_le.
    apply nle_not_lt; auto.
  Qed.
  Lemma nmax_spec a b : nvalid a -> nvalid b ->
    nle a (n_max a b) /\ nle b (n_max a b) /\ nvalid (n_max a b) /\ (n_max a b = a \/ n_max a b = b).
  Proof.
    intros Ha Hb. unfold n_max. destruct (n_ltb a b) eqn:E; repeat split; auto using nle_refl, nlt_le.
    apply nle_not_lt; auto.
  Qed.
End Order.
