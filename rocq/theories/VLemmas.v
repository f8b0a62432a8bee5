(** Lemmas about the store operations of VState.v. *)
From Coq Require Import ZArith Bool List Lia.
From Verif Require Import Outcome Num Rmath Segment VState.
Import ListNotations.
Local Open Scope out.

Lemma at_ok {A} (l : list A) i x : at_ l i = Ok x <-> nth_error l i = Some x.
Proof. unfold at_, of_opt. destruct (nth_error l i); split; congruence. Qed.
Lemma deref_ok p i : deref p = Ok i <-> p = Some i.
Proof. unfold deref, of_opt. destruct p; split; congruence. Qed.

Lemma length_upd {A} (l : list A) i f : length (upd l i f) = length l.
Proof. revert i; induction l; destruct i; simpl; auto. Qed.
Lemma nth_upd_same {A} (l : list A) i f x :
  nth_error l i = Some x -> nth_error (upd l i f) i = Some (f x).
Proof. revert i; induction l; destruct i; simpl; try discriminate; auto. congruence. Qed.
Lemma nth_upd_other {A} (l : list A) i j f :
  i <> j -> nth_error (upd l i f) j = nth_error l j.
Proof. revert i j; induction l; destruct i, j; simpl; auto; try lia. Qed.
Lemma nth_upd {A} (l : list A) i j f :
  nth_error (upd l i f) j = if Nat.eqb i j then option_map f (nth_error l j) else nth_error l j.
Proof.
  destruct (Nat.eqb i j) eqn:E.
  - apply Nat.eqb_eq in E; subst j. destruct (nth_error l i) eqn:H; simpl.
    + now apply nth_upd_same.
    + revert i H; induction l; destruct i; simpl; auto; discriminate.
  - apply nth_upd_other. now apply Nat.eqb_neq.
Qed.
Lemma upd_upd_same {A} (l : list A) i f g : upd (upd l i f) i g = upd l i (fun x => g (f x)).
Proof. revert i; induction l; destruct i; simpl; auto. now rewrite IHl. Qed.

Lemma upd_comm {A} (l : list A) i j f g : i <> j -> upd (upd l j f) i g = upd (upd l i g) j f.
Proof. revert i j; induction l; destruct i, j; simpl; intros; auto; try lia. f_equal. apply IHl. lia. Qed.

Lemma nth_lt {A} (l : list A) i x : nth_error l i = Some x -> i < length l.
Proof. intros H. apply nth_error_Some. congruence. Qed.
Lemma nth_some {A} (l : list A) i : i < length l -> exists x, nth_error l i = Some x.
Proof. intros H. apply nth_error_Some in H. destruct (nth_error l i); eauto; congruence. Qed.
Lemma nth_snoc_last {A} (l : list A) x : nth_error (l ++ [x]) (length l) = Some x.
Proof. rewrite nth_error_app2 by lia. now rewrite Nat.sub_diag. Qed.

Lemma ptr_eqb_eq a b : ptr_eqb a b = true <-> a = b.
Proof.
  destruct a, b; simpl; split; try congruence.
  - intros H; apply Nat.eqb_eq in H; congruence.
  - intros H; injection H; intros; apply Nat.eqb_eq; auto.
Qed.

(** Inversion of a run that ends in [Ok]. *)
Ltac binv H :=
  let x := fresh "x" in let H1 := fresh "E" in
  apply bind_ok in H as (x & H1 & H); cbn beta in H.
Ltac binvs :=
  repeat match goal with
  | H : bind _ _ = Ok _ |- _ => binv H
  | H : (let '(_, _) := ?x in _) = Ok _ |- _ => destruct x
  | H : at_ _ _ = Ok _ |- _ => apply at_ok in H
  | H : deref _ = Ok _ |- _ => apply deref_ok in H
  | H : of_opt _ _ = Ok _ |- _ => apply of_opt_ok in H
  | H : Ok _ = Ok _ |- _ => injection H; clear H; intros; subst
  | H : Some _ = Some _ |- _ => injection H; clear H; intros; subst
  | H : (_, _) = (_, _) |- _ => injection H; clear H; intros; subst
  end.

Section Mods.
  Context {T : Type}.
  Implicit Types s : clipper T.
  Lemma vmod_ok s i f s' : vmod s i f = Ok s' ->
    (exists v, nth_error (verts s) i = Some v) /\ s' = w_verts s (upd (verts s) i f).
  Proof. unfold vmod. intros H. binvs. eauto. Qed.
  Lemma emod_ok s i f s' : emod s i f = Ok s' ->
    (exists v, nth_error (edges s) i = Some v) /\ s' = w_edges s (upd (edges s) i f).
  Proof. unfold emod. intros H. binvs. eauto. Qed.
  Lemma bmod_ok s i f s' : bmod s i f = Ok s' ->
    (exists v, nth_error (bounds s) i = Some v) /\ s' = w_bounds s (upd (bounds s) i f).
  Proof. unfold bmod. intros H. binvs. eauto. Qed.
  Lemma pmod_ok s i f s' : pmod s i f = Ok s' ->
    (exists v, nth_error (polys s) i = Some v) /\ s' = w_polys s (upd (polys s) i f).
  Proof. unfold pmod. intros H. binvs. eauto. Qed.
  Lemma vmod_run s i f v : nth_error (verts s) i = Some v -> vmod s i f = Ok (w_verts s (upd (verts s) i f)).
  Proof. unfold vmod. intros H. apply at_ok in H. now rewrite H. Qed.
  Lemma emod_run s i f v : nth_error (edges s) i = Some v -> emod s i f = Ok (w_edges s (upd (edges s) i f)).
  Proof. unfold emod. intros H. apply at_ok in H. now rewrite H. Qed.
  Lemma bmod_run s i f v : nth_error (bounds s) i = Some v -> bmod s i f = Ok (w_bounds s (upd (bounds s) i f)).
  Proof. unfold bmod. intros H. apply at_ok in H. now rewrite H. Qed.
  Lemma pmod_run s i f v : nth_error (polys s) i = Some v -> pmod s i f = Ok (w_polys s (upd (polys s) i f)).
  Proof. unfold pmod. intros H. apply at_ok in H. now rewrite H. Qed.
End Mods.

Ltac mods :=
  repeat match goal with
  | H : vmod _ _ _ = Ok _ |- _ => apply vmod_ok in H as [[? ?] ?]; subst
  | H : emod _ _ _ = Ok _ |- _ => apply emod_ok in H as [[? ?] ?]; subst
  | H : bmod _ _ _ = Ok _ |- _ => apply bmod_ok in H as [[? ?] ?]; subst
  | H : pmod _ _ _ = Ok _ |- _ => apply pmod_ok in H as [[? ?] ?]; subst
  end.

Ltac splits := repeat match goal with H : _ /\ _ |- _ => destruct H end.
(** Apply a lemma to whichever hypothesis it fits. *)
Ltac use L := match goal with K : _ |- _ => apply L in K end; splits.

(** Runs that never exhaust their fuel. *)
Lemma bind_fuel {A B} (o : outcome A) (f : A -> outcome B) :
  o <> NoFuel -> (forall x, o = Ok x -> f x <> NoFuel) -> bind o f <> NoFuel.
Proof. destruct o; simpl; intros; try discriminate; auto. Qed.
Lemma at_fuel {A} (l : list A) i : at_ l i <> NoFuel.
Proof. unfold at_, of_opt. destruct (nth_error l i); discriminate. Qed.
Lemma deref_fuel p : deref p <> NoFuel.
Proof. destruct p; discriminate. Qed.
Lemma of_opt_fuel {A} u (o : option A) : of_opt u o <> NoFuel.
Proof. destruct o; discriminate. Qed.
Section ModsFuel.
  Context {T : Type}.
  Implicit Types s : clipper T.
  Lemma vmod_fuel s i f : vmod s i f <> NoFuel.
  Proof. apply bind_fuel; [apply at_fuel|discriminate]. Qed.
  Lemma emod_fuel s i f : emod s i f <> NoFuel.
  Proof. apply bind_fuel; [apply at_fuel|discriminate]. Qed.
  Lemma bmod_fuel s i f : bmod s i f <> NoFuel.
  Proof. apply bind_fuel; [apply at_fuel|discriminate]. Qed.
  Lemma pmod_fuel s i f : pmod s i f <> NoFuel.
  Proof. apply bind_fuel; [apply at_fuel|discriminate]. Qed.
  Lemma emod_opt_fuel s p f : emod_opt s p f <> NoFuel.
  Proof. destruct p; [apply emod_fuel|discriminate]. Qed.
  Lemma bmod_opt_fuel s p f : bmod_opt s p f <> NoFuel.
  Proof. destruct p; [apply bmod_fuel|discriminate]. Qed.
End ModsFuel.
Create HintDb fuel.
#[export] Hint Resolve at_fuel deref_fuel of_opt_fuel vmod_fuel emod_fuel bmod_fuel pmod_fuel emod_opt_fuel bmod_opt_fuel : fuel.
#[export] Hint Extern 1 (Ok _ <> NoFuel) => discriminate : fuel.
#[export] Hint Extern 1 (UB _ <> NoFuel) => discriminate : fuel.
#[export] Hint Extern 1 (Throw <> NoFuel) => discriminate : fuel.
(** Walk through a run to its non-trivial parts. *)
Ltac nofuel :=
  repeat (first
  [ solve [auto with fuel]
  | simple apply bind_fuel; [|intros ? ?]
  | match goal with |- (match ?x with _ => _ end) <> NoFuel => destruct x eqn:? end
  | match goal with |- (if ?x then _ else _) <> NoFuel => destruct x eqn:? end ]).
(** [split] at conjunctions only. *)
Ltac csplit := repeat match goal with |- _ /\ _ => split end.
