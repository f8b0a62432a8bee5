(** Lists ordered by x with alternating directions, and their numbers left of an x. *)
From Coq Require Import ZArith Bool List Reals Lra Lia Permutation.
From Verif Require Import Outcome Num Rmath RTac VState VLemmas VAelProofs AelSpec.
Import ListNotations.
Local Open Scope Z_scope.

(** Goes well, given enough fuel *)
Definition runs {A} (enough : Prop) (Q : A -> Prop) (o : outcome A) : Prop := match o with Ok x => Q x | NoFuel => ~ enough | _ => False end.
Lemma runs_bind {A B} (E : Prop) P (Q : B -> Prop) (o : outcome A) f : runs E P o -> (forall x, o = Ok x -> P x -> runs E Q (f x)) -> runs E Q (bind o f).
Proof. destruct o; cbn; auto. Qed.
Lemma runs_weak {A} (E F : Prop) (P Q : A -> Prop) o : runs E P o -> (forall x, o = Ok x -> P x -> Q x) -> (F -> E) -> runs F Q o.
Proof. destruct o; cbn; auto. Qed.

Definition below (X : nat -> R) (l : list nat) (x : R) : nat := length (filter (fun i => Rltb (X i) x) l).
Definition par (X : nat -> R) (E : list nat) (X' : nat -> R) (B : list nat) : Prop := forall x, Nat.odd (below X E x) = Nat.odd (below X' B x).
Definition upward (X : nat -> R) (l : list nat) : Prop := ForallOrdPairs (fun i j => (X i <= X j)%R) l.
Fixpoint altf (D : nat -> Z) (d : Z) (l : list nat) : Prop := match l with [] => True | i :: r => D i = d /\ altf D (- d) r end.

Lemma below_cons X a l x : below X (a :: l) x = ((if Rltb (X a) x then 1 else 0) + below X l x)%nat.
Proof. unfold below. cbn. destruct (Rltb (X a) x); reflexivity. Qed.
Lemma below_app X l l' x : below X (l ++ l') x = (below X l x + below X l' x)%nat.
Proof. unfold below. now rewrite filter_app, app_length. Qed.
Lemma below_ext X X' l x : (forall i, In i l -> X i = X' i) -> below X l x = below X' l x.
Proof. induction l as [|a l IH]; intros H; auto. rewrite !below_cons, (H a (or_introl eq_refl)), IH; auto. intros i Hi. apply H. now right. Qed.
Lemma odd_same n m k : Nat.odd (k + n) = Nat.odd (k + m) -> Nat.odd n = Nat.odd m.
Proof. rewrite !Nat.odd_add. destruct (Nat.odd k), (Nat.odd n), (Nat.odd m); cbn; congruence. Qed.
Lemma par_both X e E X' b B : X e = X' b -> par X (e :: E) X' (b :: B) -> par X E X' B.
Proof. intros Q H x. specialize (H x). rewrite !below_cons, Q in H. now apply odd_same in H. Qed.
Lemma below_pair X a b l1 l2 x : X a = X b -> Nat.odd (below X (l1 ++ a :: b :: l2) x) = Nat.odd (below X (l1 ++ l2) x).
Proof. intros Q. rewrite !below_app, !below_cons, Q. destruct (Rltb (X b) x); cbn; rewrite ?Nat.add_succ_r; cbn; rewrite ?Nat.odd_succ, ?Nat.even_succ; reflexivity. Qed.
Lemma par_sym X E X' B : par X E X' B -> par X' B X E.
Proof. intros H x. symmetry. apply H. Qed.
Lemma gap_above (L : list R) x : (forall r, In r L -> (x < r)%R) -> exists x0, (x < x0)%R /\ forall r, In r L -> (x0 <= r)%R.
Proof.
  induction L as [|a L IH]; intros H; [exists (x + 1)%R; split; [lra|intros r []]|]. destruct IH as (x0 & A & B); [intros r Hr; apply H; now right|].
  assert (x < a)%R by (apply H; now left). exists (Rmin x0 a). split; [apply Rmin_glb_lt; auto|]. intros r [<-|Hr]; [apply Rmin_r|]. eapply Rle_trans; [apply Rmin_l|auto].
Qed.
Lemma below_none X l x : (forall i, In i l -> (x <= X i)%R) -> below X l x = 0%nat.
Proof.
  induction l as [|a l IH]; intros H; auto. rewrite below_cons, IH by (intros i Hi; apply H; now right). assert (x <= X a)%R by (apply H; now left).
  assert (Q : Rltb (X a) x = false) by (apply Rltb_false; lra). rewrite Q. reflexivity.
Qed.
Lemma upward_tail X a l : upward X (a :: l) -> upward X l /\ forall i, In i l -> (X a <= X i)%R.
Proof. intros H. inversion H as [|? ? A B]; subst. split; auto. intros i Hi. rewrite Forall_forall in A. auto. Qed.
(** Where there is one and nothing on the other side, there is a second one. *)
Lemma par_second X e E X' B : upward X (e :: E) -> par X (e :: E) X' B -> (forall b, In b B -> (X e < X' b)%R) -> exists f E', E = f :: E' /\ X f = X e /\ par X E' X' B.
Proof.
  intros U H K. apply upward_tail in U as [U U'].
  assert (Q : exists f E', E = f :: E' /\ X f = X e).
  { destruct E as [|f E]; [|exists f, E; split; auto; destruct (Req_EM_T (X f) (X e)) as [Q|Q]; auto; exfalso].
    - destruct (gap_above (map X' B) (X e)) as (x0 & A & C); [intros r Hr; apply in_map_iff in Hr as (b & <- & Hb); auto|].
      specialize (H x0). rewrite below_cons, (below_none X' B) in H by (intros i Hi; apply C, in_map; auto). apply Rltb_true in A. rewrite A in H. discriminate.
    - assert (L : forall i, In i (f :: E) -> (X e < X i)%R).
      { apply upward_tail in U as [_ U]. assert (X e <= X f)%R by (apply U'; now left). intros i [<-|Hi]; [lra|]. specialize (U i Hi). lra. }
      destruct (gap_above (map X' B ++ map X (f :: E)) (X e)) as (x0 & A & C).
      { intros r Hr. apply in_app_or in Hr as [Hr|Hr]; apply in_map_iff in Hr as (b & <- & Hb); auto. }
      specialize (H x0). rewrite below_cons, (below_none X' B), (below_none X (f :: E)) in H by (intros i Hi; apply C, in_or_app; auto using in_map). apply Rltb_true in A. rewrite A in H. discriminate. }
  destruct Q as (f & E' & -> & Q). exists f, E'. csplit; auto. intros x. specialize (H x). rewrite <- H. symmetry. apply (below_pair X e f [] E' x). auto.
Qed.
Lemma par_nil X E X' : par X E X' [] -> upward X E -> E = [] \/ exists e f E', E = e :: f :: E' /\ X f = X e.
Proof.
  intros H U. destruct E as [|e E]; auto. right. destruct (par_second X e E X' [] U H) as (f & E' & -> & Q & _); [intros b []|]. exists e, f, E'. auto.
Qed.
(** Neighbours at the same x are taken out. *)
Inductive shrink (X : nat -> R) : list nat -> list nat -> Prop :=
| shr_same l : shrink X l l
| shr_pair l1 a b l2 l' : X a = X b -> shrink X (l1 ++ l2) l' -> shrink X (l1 ++ a :: b :: l2) l'.
Lemma shrink_par X l l' : shrink X l l' -> forall x, Nat.odd (below X l x) = Nat.odd (below X l' x).
Proof. induction 1 as [|l1 a b l2 l' Q H IH]; auto. intros x. rewrite below_pair; auto. Qed.
Lemma shrink_in X l l' : shrink X l l' -> forall c, In c l' -> In c l.
Proof. induction 1 as [|l1 a b l2 l' Q H IH]; auto. intros c Hc. apply IH in Hc. rewrite in_app_iff in *. cbn. tauto. Qed.
Lemma fop_drop {A} (Q : A -> A -> Prop) l1 a b l2 : ForallOrdPairs Q (l1 ++ a :: b :: l2) -> ForallOrdPairs Q (l1 ++ l2).
Proof.
  induction l1 as [|c l1 IH]; cbn; intros H.
  - inversion H as [|? ? _ H2]. now inversion H2.
  - inversion H as [|? ? H1 H2]; subst. constructor; auto. rewrite Forall_forall in *. intros z Hz. apply H1. rewrite in_app_iff in *. cbn. tauto.
Qed.
Lemma shrink_length X l l' : shrink X l l' -> (length l' <= length l)%nat.
Proof. induction 1 as [|l1 a b l2 l' Q H IH]; auto. rewrite app_length in *. cbn. lia. Qed.
Lemma shrink_upward X l l' : shrink X l l' -> upward X l -> upward X l'.
Proof. induction 1 as [|l1 a b l2 l' Q H IH]; auto. intros U. apply IH. eapply fop_drop. exact U. Qed.
Lemma altf_app D l : forall d r, altf D d (l ++ r) <-> altf D d l /\ altf D (if Nat.odd (length l) then - d else d) r.
Proof.
  induction l as [|i l IH]; intros d r; [simpl; tauto|]. cbn [app altf length]. rewrite IH, Nat.odd_succ, <- Nat.negb_odd.
  destruct (Nat.odd (length l)); cbn [negb]; [rewrite Z.opp_involutive|]; tauto.
Qed.
Lemma altf_drop D d l1 a b l2 : altf D d (l1 ++ a :: b :: l2) -> altf D d (l1 ++ l2) /\ D b = - D a.
Proof. rewrite !altf_app. cbn [altf]. intros (A & B & C & E). rewrite Z.opp_involutive in E. split; [auto|lia]. Qed.
Lemma shrink_altf X D l l' : shrink X l l' -> forall d, altf D d l -> altf D d l'.
Proof. induction 1 as [|l1 a b l2 l' Q H IH]; auto. intros d K. apply altf_drop in K as [K _]. auto. Qed.
Lemma altf_ext D D' l : forall d, (forall i, In i l -> D i = D' i) -> altf D d l -> altf D' d l.
Proof. induction l as [|a l IH]; intros d H; cbn; auto. intros [A B]. split; [rewrite <- H; auto; now left|apply IH; auto; intros i Hi; apply H; now right]. Qed.
Lemma altf_pm D d l : (d = 1 \/ d = -1) -> altf D d l -> forall i, In i l -> D i = 1 \/ D i = -1.
Proof. revert d. induction l as [|a l IH]; intros d Hd H i Hi; cbn in Hi; [tauto|]. destruct H as [A B]. destruct Hi as [<-|Hi]; [lia|]. apply (IH (- d)); auto. lia. Qed.
