(** The pieces of a broken segment trace it, over the reals. *)
From Coq Require Import ZArith Bool List Reals Lra Lia Sorted Permutation.
From Verif Require Import Outcome Num Order Rmath Segment RTac VState VPath VBreak SortProofs RingSpec BezierSpec BezierR BreakSpec.
Import ListNotations.
Local Open Scope R_scope.

Lemma vec_eq (a b : vec2 R) : vx a = vx b -> vy a = vy b -> a = b.
Proof. destruct a, b; simpl; congruence. Qed.
Lemma curve_start z : curve z 0 = b0 z.
Proof. apply vec_eq; unfold curve, bern; cbn [vx vy]; ring. Qed.
Lemma curve_end z : curve z 1 = b3 z.
Proof. apply vec_eq; unfold curve, bern; cbn [vx vy]; ring. Qed.
Lemma bez_eta (z : bezier R) : Bez (b0 z) (b1 z) (b2 z) (b3 z) = z.
Proof. now destruct z. Qed.

Lemma sort_sorted {A} (lt : A -> A -> bool) l : StronglySorted (fun a b => lt b a = false) l -> sort_by lt l = l.
Proof.
  intros H. unfold sort_by. enough (G : forall l acc, StronglySorted (fun a b => lt b a = false) (acc ++ l) ->
    fold_left (fun a x => insert_by lt x a) l acc = acc ++ l) by (exact (G l [] H)).
  clear l H. induction l as [|x l IH]; intros acc S; simpl; [now rewrite app_nil_r|].
  assert (E : insert_by lt x acc = acc ++ [x]).
  { clear IH. induction acc as [|y acc IH]; [reflexivity|]. cbn [app] in S. inversion S as [|? ? S1 S2]; subst. cbn [insert_by].
    rewrite Forall_forall in S2. rewrite (S2 x); [|apply in_or_app; right; now left]. simpl. now rewrite IH. }
  rewrite E. replace (acc ++ x :: l) with ((acc ++ [x]) ++ l) in * by (now rewrite <- app_assoc). now apply IH.
Qed.
Lemma increasing_lt l : forall lo hi, increasing lo l hi -> lo < hi /\ Forall (fun t => lo < t < hi) l.
Proof.
  induction l as [|t l IH]; simpl; intros lo hi H; auto. destruct H as [H1 H2]. destruct (IH _ _ H2) as [A B]. split; [lra|].
  constructor; [lra|]. eapply Forall_impl; [|exact B]. simpl. intros; lra.
Qed.
Lemma increasing_sorted l : forall lo hi, increasing lo l hi -> StronglySorted Rlt l.
Proof.
  induction l as [|t l IH]; simpl; intros lo hi H; constructor; destruct H as [H1 H2]; eauto.
  destruct (increasing_lt _ _ _ H2) as [_ B]. eapply Forall_impl; [|exact B]. simpl. intros; lra.
Qed.
Lemma sorted_increasing l : forall lo hi, StronglySorted Rlt l -> Forall (fun t => lo < t < hi) l -> lo < hi -> increasing lo l hi.
Proof.
  induction l as [|t l IH]; simpl; intros lo hi S F L; auto. inversion S; inversion F; subst. split; [lra|]. apply IH; auto; [|lra].
  rewrite Forall_forall in *. intros x Hx. match goal with H : forall x, In x l -> lo < x < hi |- _ => specialize (H x Hx) end.
  match goal with H : forall x, In x l -> t < x |- _ => specialize (H x Hx) end. lra.
Qed.
Lemma sort_breaks (bs : list (break_info R)) : StronglySorted Rlt (map br_t bs) ->
  sort_by (fun l r => n_ltb (br_t l) (br_t r)) bs = bs.
Proof.
  intros S. apply sort_sorted. induction bs as [|b bs IH]; [constructor|]. cbn [map] in S. inversion S as [|? ? S1 S2]; subst.
  constructor; auto. rewrite Forall_forall in *. intros c Hc. cbn [n_ltb R_num]. apply Rltb_false. left. apply S2. now apply in_map.
Qed.

Lemma line_follows p q bs : forall p0 lo, p0 = seg_at p (SLine q) lo ->
  Forall (fun b => br_pt b = seg_at p (SLine q) (br_t b)) bs ->
  follows p0 p (SLine q) lo (map br_t bs) (map (fun b => SLine (br_pt b)) bs ++ [SLine q]).
Proof.
  induction bs as [|b bs IH]; intros p0 lo E F; cbn [map app follows].
  - intros u. subst p0. apply vec_eq; cbn [seg_at vx vy]; ring.
  - inversion F as [|? ? F1 F2]; subst. split; [|apply IH; auto]. intros u. rewrite F1. apply vec_eq; cbn [seg_at vx vy]; ring.
Qed.
Lemma cubic_follows p c1 c2 q (bs : list (break_info R)) : forall ps p0 lo, let z := Bez p c1 c2 q in
  pieces_of z lo (map br_t bs) ps -> p0 = curve z lo -> Forall (fun b => br_pt b = curve z (br_t b)) bs ->
  follows p0 p (SCubic c1 c2 q) lo (map br_t bs) (moved ps bs q).
Proof.
  induction bs as [|b bs IH]; intros [|z0 ps] p0 lo z H E F; try contradiction; cbn [map pieces_of] in H.
  - destruct ps; [|contradiction]. cbn [map moved follows]. intros u. cbn [seg_at].
    assert (E0 : p0 = b0 z0) by (rewrite E, <- curve_start, (H 0); f_equal; ring).
    assert (E1 : q = b3 z0).
    { rewrite <- curve_end, (H 1). replace (lo + (1 - lo) * 1) with 1 by ring. rewrite curve_end. reflexivity. }
    rewrite E0. rewrite E1 at 1. rewrite bez_eta. apply H.
  - destruct H as [H1 H2]. inversion F as [|? ? F1 F2]; subst. cbn [map moved follows].
    assert (E0 : curve z lo = b0 z0) by (rewrite <- curve_start, (H1 0); f_equal; ring).
    assert (E1 : br_pt b = b3 z0).
    { rewrite F1. rewrite <- (curve_end z0), (H1 1). f_equal. ring. }
    split.
    + intros u. cbn [seg_at]. rewrite E0, E1, bez_eta. apply H1.
    + cbn [seg_target]. apply IH; auto.
Qed.

Lemma cut_follows p g (bs : list (break_info R)) : drawable g -> bs <> [] -> increasing 0 (map br_t bs) 1 ->
  Forall (fun b => br_pt b = seg_at p g (br_t b)) bs -> follows p p g 0 (map br_t bs) (cut p g bs).
Proof.
  intros D NE I F. destruct g as [q|q|c q l|c1 c2 q]; try contradiction; cbn [cut].
  - apply line_follows; auto. apply vec_eq; cbn [seg_at vx vy]; ring.
  - rewrite sort_breaks by (eapply increasing_sorted; exact I).
    apply cubic_follows; auto.
    + apply C10_lemma; auto. intros K. apply map_eq_nil in K. contradiction.
    + now rewrite curve_start.
Qed.
