(** A tactic for chains of comparisons between valid numbers. *)
From Coq Require Import Bool List.
From Verif Require Import Num Order.

Section Facts.
  Context {T : Type} {N : Num T} {O : OrdNum T}.
  Lemma ord_lt_false (a b : T) : nvalid a -> nvalid b -> n_ltb a b = false -> nle b a.
  Proof. intros A B. now apply nle_not_lt. Qed.
  Lemma ord_le_false (a b : T) : nvalid a -> nvalid b -> n_leb a b = false -> nlt b a.
  Proof. intros A B H. rewrite nle_negb in H by auto. unfold nlt. now destruct (n_ltb b a). Qed.
  Lemma ord_eq_true (a b : T) : nvalid a -> nvalid b -> n_eqb a b = true -> nle a b /\ nle b a.
  Proof. intros A B H. rewrite neq_le in H by auto. now apply andb_prop in H. Qed.
  Lemma ord_eq_false (a b : T) : nvalid a -> nvalid b -> n_eqb a b = false -> nlt a b \/ nlt b a.
  Proof.
    intros A B H. rewrite neq_le in H by auto. apply andb_false_iff in H as [H|H]; apply ord_le_false in H; auto.
  Qed.
  Lemma ord_eq_goal (a b : T) : nvalid a -> nvalid b -> nle a b -> nle b a -> n_eqb a b = true.
  Proof. intros A B H K. rewrite neq_le by auto. unfold nle in *. now rewrite H, K. Qed.
  Lemma ord_absurd (a : T) : nlt a a -> False.
  Proof. unfold nlt. rewrite nlt_irrefl. discriminate. Qed.
  Lemma ord_cross (a b : T) : nvalid a -> nvalid b -> nlt a b -> nle b a -> False.
  Proof. intros A B L K. apply (ord_absurd a). apply (nlt_le_trans a b a); auto. Qed.
End Facts.

Ltac ord_valid := solve [assumption | eauto 4 with nv].
Ltac ord_prep :=
  repeat match goal with
  | H : n_ltb ?a ?b = true |- _ => change (nlt a b) in H
  | H : n_leb ?a ?b = true |- _ => change (nle a b) in H
  | H : n_ltb ?a ?b = false |- _ => apply ord_lt_false in H; [|ord_valid|ord_valid]
  | H : n_leb ?a ?b = false |- _ => apply ord_le_false in H; [|ord_valid|ord_valid]
  | H : n_eqb ?a ?b = true |- _ => apply ord_eq_true in H; [destruct H|ord_valid|ord_valid]
  | H : n_eqb ?a ?b = false |- _ => apply ord_eq_false in H; [destruct H|ord_valid|ord_valid]
  end.
Ltac ord_sat :=
  repeat first
  [ match goal with
    | H : nlt ?a ?a |- _ => exfalso; exact (ord_absurd a H)
    | H : nlt ?a ?b, K : nle ?b ?a |- _ => exfalso; apply (ord_cross a b); [ord_valid|ord_valid|exact H|exact K]
    end
  | match goal with
    | H : nle ?a ?b, K : nle ?b ?c |- _ =>
        lazymatch goal with _ : nle a c |- _ => fail | _ : nlt a c |- _ => fail
        | _ => tryif constr_eq a c then fail else assert (nle a c) by (apply (nle_trans a b c); [ord_valid|ord_valid|ord_valid|exact H|exact K]) end
    | H : nlt ?a ?b, K : nle ?b ?c |- _ =>
        lazymatch goal with _ : nlt a c |- _ => fail
        | _ => assert (nlt a c) by (apply (nlt_le_trans a b c); [ord_valid|ord_valid|ord_valid|exact H|exact K]) end
    | H : nle ?a ?b, K : nlt ?b ?c |- _ =>
        lazymatch goal with _ : nlt a c |- _ => fail
        | _ => assert (nlt a c) by (apply (nle_lt_trans a b c); [ord_valid|ord_valid|ord_valid|exact H|exact K]) end
    | H : nlt ?a ?b, K : nlt ?b ?c |- _ =>
        lazymatch goal with _ : nlt a c |- _ => fail
        | _ => assert (nlt a c) by (apply (nlt_trans a b c); [ord_valid|ord_valid|ord_valid|exact H|exact K]) end
    end ].
(** Goals: a comparison, or False *)
Ltac ord :=
  unfold nlt, nle in *;
  lazymatch goal with
  | |- n_eqb ?a ?b = true => apply ord_eq_goal; [ord_valid|ord_valid|ord|ord]
  | |- n_ltb ?a ?b = true => let E := fresh in destruct (n_ltb a b) eqn:E; [reflexivity|exfalso; first [discriminate|ord_prep; ord_sat]]
  | |- n_ltb ?a ?b = false => let E := fresh in destruct (n_ltb a b) eqn:E; [exfalso; first [discriminate|ord_prep; ord_sat]|reflexivity]
  | |- n_leb ?a ?b = true => let E := fresh in destruct (n_leb a b) eqn:E; [reflexivity|exfalso; first [discriminate|ord_prep; ord_sat]]
  | |- n_leb ?a ?b = false => let E := fresh in destruct (n_leb a b) eqn:E; [exfalso; first [discriminate|ord_prep; ord_sat]|reflexivity]
  | |- n_eqb ?a ?b = false => let E := fresh in destruct (n_eqb a b) eqn:E; [exfalso; first [discriminate|ord_prep; ord_sat]|reflexivity]
  | |- False => ord_prep; ord_sat
  end.
Create HintDb nv.

Section Test.
  Context {T : Type} {N : Num T} {O : OrdNum T}.
  Example ord_test (a b c d : T) : nvalid a -> nvalid b -> nvalid c -> nvalid d ->
    n_eqb a b = true -> n_ltb b c = true -> n_leb c d = true -> n_ltb a d = true /\ n_eqb a c = false /\ n_leb b d = true.
  Proof. intros. split; [ord|split; ord]. Qed.
End Test.
