(** More fuel changes nothing but [NoFuel]. *)
From Coq Require Import ZArith Bool List Lia.
From Verif Require Import Outcome Num Rmath Segment VState VPath VBreak VAel VOut VMain VLemmas VFrame.
Import ListNotations.
Local Open Scope out.

(** [a] gave up or is [b]. *)
Definition out_le {A} (a b : outcome A) : Prop := a = NoFuel \/ a = b.
Lemma out_le_refl {A} (a : outcome A) : out_le a a.
Proof. now right. Qed.
Lemma out_le_trans {A} (a b c : outcome A) : out_le a b -> out_le b c -> out_le a c.
Proof. intros [->| ->] H; [now left|auto]. Qed.
Lemma bind_le {A B} (a b : outcome A) (f g : A -> outcome B) :
  out_le a b -> (forall x, out_le (f x) (g x)) -> out_le (bind a f) (bind b g).
Proof. intros [->| ->] H; [now left|]. destruct b; simpl; auto; now right. Qed.
Lemma out_le_ok {A} (a b : outcome A) x : out_le a b -> a = Ok x -> b = Ok x.
Proof. intros [->| ->]; [discriminate|auto]. Qed.
Lemma out_le_nofuel {A} (a b : outcome A) : out_le a b -> b = NoFuel -> a = NoFuel.
Proof. intros [->| ->]; auto. Qed.

Section Fuel.
  Context {T : Type} {N : Num T}.
  Implicit Types s : clipper T.
  Lemma sbl_bounds_le n : forall m s c k, n <= m -> out_le (sbl_bounds n s c k) (sbl_bounds m s c k).
  Proof.
    induction n as [|n IH]; intros m s c k L; destruct c as [i|]; [now left|destruct m; now right| |destruct m; now right].
    destruct m as [|m]; [lia|]. cbn [sbl_bounds]. apply bind_le; [apply out_le_refl|]. intros b.
    apply bind_le; [apply IH; lia|]. intros t. apply out_le_refl.
  Qed.
  Lemma update_output_bound_le n m s y : n <= m -> out_le (update_output_bound n s y) (update_output_bound m s y).
  Proof.
    intros L. unfold update_output_bound. destruct (changes s); [apply out_le_refl|].
    apply bind_le; [apply out_le_refl|]. intros be. apply bind_le; [apply out_le_refl|]. intros [s1 lft].
    apply bind_le; [apply out_le_refl|]. intros se. apply bind_le; [now apply sbl_bounds_le|]. intros sb. apply out_le_refl.
  Qed.
  Lemma close_loop_le n : forall m s y c x, n <= m -> out_le (close_loop n s y c x) (close_loop m s y c x).
  Proof.
    induction n as [|n IH]; intros m s y c x L; destruct x as [i|]; [now left|destruct m; now right| |destruct m; now right].
    destruct m as [|m]; [lia|]. cbn [close_loop]. apply bind_le; [apply out_le_refl|]. intros bn.
    apply bind_le; [apply out_le_refl|]. intros bc. apply bind_le; [apply out_le_refl|]. intros s1.
    destruct (ob_next bn); [|apply out_le_refl]. apply bind_le; [apply out_le_refl|]. intros b. apply IH. lia.
  Qed.
  Lemma close_output_le n m s y : n <= m -> out_le (close_output n s y) (close_output m s y).
  Proof.
    intros L. unfold close_output. destruct (obl s); [|apply out_le_refl].
    apply bind_le; [apply out_le_refl|]. intros b. now apply close_loop_le.
  Qed.
  Lemma scan_at_le n m s y : n <= m -> out_le (scan_at n s y) (scan_at m s y).
  Proof.
    intros L. unfold scan_at. apply bind_le; [apply out_le_refl|]. intros s1. apply bind_le; [apply out_le_refl|].
    intros s2. now apply update_output_bound_le.
  Qed.
  Lemma beam_le n m s y : n <= m -> out_le (beam n s y) (beam m s y).
  Proof.
    intros L. unfold beam. apply bind_le; [apply out_le_refl|]. intros s1. apply bind_le; [now apply close_output_le|].
    intros s2. apply out_le_refl.
  Qed.
  Lemma sweep_le n m f : forall g s y, n <= m -> f <= g -> out_le (sweep n f s y) (sweep m g s y).
  Proof.
    induction f as [|f IH]; intros g s y L L'; [now left|]. destruct g as [|g]; [lia|]. cbn [sweep].
    apply bind_le; [now apply scan_at_le|]. intros s1. destruct (pop_scanline s1 y) as [[y'|] s2]; [|apply out_le_refl].
    apply bind_le; [now apply beam_le|]. intros s3. apply IH; lia.
  Qed.
  (** A run that answers gives the same answer with more fuel. *)
  Lemma process_le en n m s op fill : n <= m -> out_le (process en n s op fill) (process en m s op fill).
  Proof.
    intros L. unfold process. apply bind_le; [apply out_le_refl|]. intros s1. apply bind_le; [apply out_le_refl|].
    intros s2. destruct (pop_scanline s2 _) as [[y|] s3]; [|apply out_le_refl].
    apply bind_le; [now apply sweep_le|]. intros s4. apply out_le_refl.
  Qed.

  (** Two output bounds that follow each other. *)
  Lemma close_loop_cycle s y c d : forall bc bd, nth_error (bounds s) c = Some bc -> nth_error (bounds s) d = Some bd ->
    ob_next bc = Some d -> ob_next bd = Some c -> n_eqb (ob_stop_x bc) (ob_stop_x bd) = false ->
    forall n, close_loop n s y c (Some d) = NoFuel.
  Proof.
    intros bc bd C D NC ND NE n. induction n as [|n IH]; auto. cbn [close_loop]. unfold at_. rewrite C, D. cbn [of_opt bind].
    rewrite NE. cbn [bind]. rewrite ND. unfold of_opt. rewrite C. cbn [bind]. rewrite NC. exact IH.
  Qed.
End Fuel.
