(** Sorting and removing duplicates. *)
From Coq Require Import ZArith Bool List Permutation Sorted Lia.
From Verif Require Import Outcome Num Order VState.
Import ListNotations.

Section Sort.
  Context {A : Type} (lt : A -> A -> bool).
  Lemma insert_by_perm x l : Permutation (x :: l) (insert_by lt x l).
  Proof.
    induction l as [|y r IH]; simpl; auto. destruct (lt x y); auto.
    etransitivity; [apply perm_swap|]. now constructor.
  Qed.
  Lemma sort_acc_perm l : forall acc, Permutation (l ++ acc) (fold_left (fun a x => insert_by lt x a) l acc).
  Proof.
    induction l as [|x r IH]; simpl; intros acc; auto. rewrite <- IH, <- insert_by_perm.
    apply Permutation_middle.
  Qed.
  Lemma sort_by_perm l : Permutation l (sort_by lt l).
  Proof. unfold sort_by. rewrite <- sort_acc_perm, app_nil_r. auto. Qed.

  (** [le] is the order of the comparison [lt] on the values [V]. *)
  Context (V : A -> Prop) (le : A -> A -> Prop).
  Hypothesis le_trans : forall a b c, V a -> V b -> V c -> le a b -> le b c -> le a c.
  Hypothesis lt_le : forall a b, V a -> V b -> if lt a b then le a b else le b a.
  Lemma insert_by_sorted x l : V x -> Forall V l -> StronglySorted le l -> StronglySorted le (insert_by lt x l).
  Proof.
    intros Hx. induction l as [|y r IH]; intros HV HS; simpl; [repeat constructor|].
    inversion HV as [|? ? V1 V2]; inversion HS as [|? ? S1 S2]; subst.
    pose proof (lt_le x y Hx V1) as K. destruct (lt x y).
    - constructor; auto. constructor; auto. rewrite Forall_forall in *. intros z Hz. eauto.
    - constructor; auto. rewrite Forall_forall in *. intros z Hz.
      apply (Permutation_in _ (Permutation_sym (insert_by_perm x r))) in Hz as [<-|Hz]; auto.
  Qed.
  Lemma sort_acc_sorted l : forall acc, Forall V l -> Forall V acc -> StronglySorted le acc ->
    StronglySorted le (fold_left (fun a x => insert_by lt x a) l acc).
  Proof.
    induction l as [|x r IH]; simpl; intros acc H1 H2 H3; auto. inversion H1; subst. apply IH; auto.
    - eapply Permutation_Forall; [apply insert_by_perm|]. auto.
    - now apply insert_by_sorted.
  Qed.
  Lemma sort_by_sorted l : Forall V l -> StronglySorted le (sort_by lt l).
  Proof. intros H. apply sort_acc_sorted; auto; constructor. Qed.
End Sort.

Section Unique.
  Context {A : Type} (eq : A -> A -> bool).
  Lemma unique_from_sub x l : forall p, In x (unique_from eq p l) -> In x l.
  Proof.
    induction l as [|y r IH]; simpl; auto. intros p. destruct (eq p y); intros H; [right; eauto|].
    destruct H as [H|H]; [now left|right; eauto].
  Qed.
  Lemma unique_by_sub x l : In x (unique_by eq l) -> In x l.
  Proof. destruct l as [|y r]; simpl; auto. intros [H|H]; [now left|right; eapply unique_from_sub; eauto]. Qed.
  Lemma unique_from_rep (P : A -> Prop) l : (forall a b, eq a b = true -> P b -> P a) ->
    forall p, (P p \/ exists x, In x l /\ P x) -> P p \/ exists x, In x (unique_from eq p l) /\ P x.
  Proof.
    intros HP. induction l as [|y r IH]; simpl; intros p HE; [destruct HE as [H|(x & [] & _)]; auto|].
    destruct HE as [H|(x & [<-|Hx] & H)]; auto.
    - destruct (eq p y) eqn:E; [left; eauto|]. right. exists y. split; auto. now left.
    - destruct (eq p y) eqn:E; [apply IH; eauto|].
      destruct (IH y) as [K|(z & Hz & K)]; [eauto|right; exists y; split; [now left|auto]|].
      right. exists z. split; [now right|auto].
  Qed.
  Lemma unique_by_rep (P : A -> Prop) l x : (forall a b, eq a b = true -> P b -> P a) -> In x l -> P x ->
    exists z, In z (unique_by eq l) /\ P z.
  Proof.
    intros HP Hx H. destruct l as [|y r]; [contradiction|]. simpl.
    destruct (unique_from_rep P r HP y) as [K|(z & Hz & K)].
    - destruct Hx as [<-|Hx]; eauto.
    - exists y. auto.
    - exists z. auto.
  Qed.
  Lemma unique_from_sorted (R : A -> A -> Prop) l : forall p, StronglySorted R l -> StronglySorted R (unique_from eq p l).
  Proof.
    induction l as [|y r IH]; simpl; intros p H; auto. inversion H; subst. destruct (eq p y); auto.
    constructor; auto. rewrite Forall_forall in *. intros z Hz. apply unique_from_sub in Hz. auto.
  Qed.
  Lemma unique_by_sorted (R : A -> A -> Prop) l : StronglySorted R l -> StronglySorted R (unique_by eq l).
  Proof.
    destruct l as [|y r]; simpl; auto. intros H. inversion H; subst. constructor.
    - now apply unique_from_sorted.
    - rewrite Forall_forall in *. intros z Hz. apply unique_from_sub in Hz. auto.
  Qed.
End Unique.

Section SortNum.
  Context {T : Type} {N : Num T} {O : OrdNum T}.
  Lemma sort_num_sorted (l : list T) : Forall nvalid l -> StronglySorted nle (sort_by n_ltb l).
  Proof.
    apply (sort_by_sorted n_ltb nvalid nle).
    - intros a b c. apply nle_trans.
    - intros a b Ha Hb. destruct (n_ltb a b) eqn:E; [now apply nlt_le|now apply nle_not_lt].
  Qed.
End SortNum.
