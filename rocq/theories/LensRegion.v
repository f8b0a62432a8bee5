(** The points inside a traced polygon. *)
From Coq Require Import ZArith Bool List Lia Reals Lra Sorted Permutation.
From Verif Require Import Outcome Num Order Rmath Segment Path PathSpec RTac VState VPath VBreak VLemmas VAel VOut VMain RingSpec MarkProofs BreakSpec LineSpec LineR
  VBroken BoxSpec ClipSpec LensSpec Lens LensR LensRun.
Import ListNotations.

Notation hit p := (fun c => match c with LineTo a b => ClipSpec.crosses p a b | _ => false end).
Definition hits (p : vec2 R) (l : list (call (T := R))) : nat := length (filter (hit p) l).
Lemma hits_app p l1 l2 : hits p (l1 ++ l2) = hits p l1 + hits p l2.
Proof. unfold hits. now rewrite filter_app, app_length. Qed.
Lemma crosses_sym (p a b : vec2 R) : ClipSpec.crosses p a b = ClipSpec.crosses p b a.
Proof.
  apply eq_true_iff_eq. unfold ClipSpec.crosses. rops. rewrite !orb_true_iff, !andb_true_iff, !Rltb_true, !Rleb_true. split; intros [((A & B) & C)|((A & B) & C)]; [right|left|right|left]; (csplit; auto; nra).
Qed.
Lemma hits_one p a b : hits p [LineTo a b] = if ClipSpec.crosses p a b then 1 else 0.
Proof. unfold hits. cbn. now destruct (ClipSpec.crosses p a b). Qed.
Lemma hits_cons p c l : hits p (c :: l) = hits p [c] + hits p l.
Proof. exact (hits_app p [c] l). Qed.
Lemma hits_rev p l : forall a b, hits p (lines_to a (l ++ [b])) = hits p (lines_to b (rev l ++ [a])).
Proof.
  induction l as [|q l IH]; intros a b; cbn [app rev lines_to].
  - now rewrite !hits_one, crosses_sym.
  - rewrite hits_cons, IH, hits_one. rewrite (lines_app (rev l ++ [q]) b [a]), hits_app, last_last. cbn [lines_to]. rewrite hits_one, crosses_sym. lia.
Qed.
(** A rising line is hit where it is left of the point. *)
Lemma crosses_up (p a b : vec2 R) : (vy a < vy b)%R -> ClipSpec.crosses p a b = true <-> (vy a <= vy p < vy b /\ chord_x a b (vy p) < vx p)%R.
Proof.
  intros U. unfold ClipSpec.crosses. rops. rewrite !orb_true_iff, !andb_true_iff, !Rltb_true, !Rleb_true. unfold chord_x. rops.
  set (h := (vy b - vy a)%R) in *. assert (0 < h)%R by (unfold h; lra).
  assert (E : forall z, ((z / h + vx a < vx p) <-> (z < (vx p - vx a) * h))%R).
  { intros z. split; intros H1.
    - apply Rmult_lt_reg_r with (/ h)%R; [now apply Rinv_0_lt_compat|]. rewrite Rmult_assoc, Rinv_r by lra. unfold Rdiv in H1. lra.
    - assert (K : (z / h < vx p - vx a)%R); [|lra]. apply Rmult_lt_reg_r with h; auto. unfold Rdiv. rewrite Rmult_assoc, Rinv_l by lra. lra. }
  rewrite E. unfold h. split.
  - intros [((A & B) & C)|((A & B) & C)]; [|lra]. csplit; auto. lra.
  - intros ((A & B) & C). left. csplit; auto. lra.
Qed.
Lemma crossed_edge (a b : vec2 R) t x y : (vy a < vy b)%R -> pt a b t = V2 x y -> x = chord_x a b y.
Proof. intros U E. pose proof (pt_x a b t U) as K. rewrite E in K. exact K. Qed.
Lemma no_hit p l : forall a, strictly_up (a :: l) -> (vy p < vy a \/ vy (last l a) <= vy p)%R -> hits p (lines_to a l) = 0%nat.
Proof.
  induction l as [|b l IH]; intros a U O; [reflexivity|]. cbn [lines_to]. rewrite hits_cons, hits_one. inversion U as [|? ? U' HD]; subst. inversion HD; subst.
  rewrite MarkProofs.last_cons in O. rewrite IH; auto; [|destruct O as [O|O]; [left; lra|now right]]. destruct (ClipSpec.crosses p a b) eqn:E; auto. exfalso.
  apply crosses_up in E as [E _]; auto. destruct O as [O|O]; [lra|].
  pose proof (sorted_heights _ U') as S. destruct (last_in l b) as [K|K]; [rewrite <- K in O; lra|]. inversion S as [|? ? _ F]; subst. rewrite Forall_forall in F. specialize (F _ K). lra.
Qed.
Lemma crossed_above l : forall a y x, strictly_up (a :: l) -> crossed_at (a :: l) y x -> (vy a <= y)%R.
Proof.
  intros a y x U (p & c & b & q & t & E & T & P). pose proof (sorted_heights _ U) as S. rewrite E in S.
  assert (CB : (vy c < vy b)%R). { apply (sorted_app (fun a b : vec2 R => vy a < vy b)%R (p ++ [c]) (b :: q)); [now rewrite <- app_assoc|apply in_or_app; right; now left|now left]. }
  assert (AC : (vy a <= vy c)%R).
  { destruct p as [|z p]; cbn in E; injection E as -> E; [lra|]. left. apply (sorted_app (fun a b : vec2 R => vy a < vy b)%R (z :: p) (c :: b :: q)); auto; now left. }
  pose proof (pt_y c b t CB T) as K. rewrite P in K. cbn [vy] in K. lra.
Qed.
Lemma one_hit p l : forall a x, strictly_up (a :: l) -> (vy a <= vy p < vy (last l a))%R -> crossed_at (a :: l) (vy p) x ->
  hits p (lines_to a l) = if Rltb x (vx p) then 1 else 0.
Proof.
  induction l as [|b l IH]; intros a x U B C; [cbn in B; lra|]. cbn [lines_to]. rewrite hits_cons, hits_one. inversion U as [|? ? U' HD]; subst. inversion HD as [|? ? AB]; subst.
  rewrite MarkProofs.last_cons in B. destruct (Rlt_dec (vy p) (vy b)) as [LT|GE].
  - rewrite (no_hit p l b) by auto. rewrite Nat.add_0_r.
    assert (X : x = chord_x a b (vy p)).
    { destruct C as (u & c & d & q & t & E & T & P). destruct u as [|z u].
      - cbn in E. injection E as <- <- _. eapply crossed_edge; eauto.
      - exfalso. cbn in E. injection E as _ E. assert (K : crossed_at (b :: l) (vy p) x) by (exists u, c, d, q, t; auto). apply crossed_above in K; auto. lra. }
    subst x. destruct (Rltb (chord_x a b (vy p)) (vx p)) eqn:E.
    + rewrite (proj2 (crosses_up p a b AB)); auto. rbool. split; [lra|]. exact E.
    + destruct (ClipSpec.crosses p a b) eqn:F; auto. apply crosses_up in F as [_ F]; auto. rbool. lra.
  - replace (ClipSpec.crosses p a b) with false by (symmetry; apply not_true_is_false; intros F; apply crosses_up in F as [F _]; auto; lra).
    cbn [Nat.add]. apply IH; auto; [lra|]. destruct C as (u & c & d & q & t & E & T & P). destruct u as [|z u].
    + cbn in E. injection E as <- <- E. pose proof (pt_y a b t AB T) as K. rewrite P in K. cbn [vy] in K.
      assert (KY : vy p = vy b) by lra. assert (KX : x = vx b). { apply crossed_edge in P; auto. rewrite P, KY. now apply chord_end. }
      destruct l as [|d l]; [cbn in B; lra|]. exists [], b, d, l, 0%R. csplit; auto; try lra. rewrite pt_0, KX, KY. now destruct b.
    + cbn in E. injection E as _ E. exists u, c, d, q, t. auto.
Qed.
Lemma is_crossed l : forall a y, strictly_up (a :: l) -> (vy a <= y < vy (last l a))%R -> exists x, crossed_at (a :: l) y x.
Proof.
  induction l as [|b l IH]; intros a y U B; [cbn in B; lra|]. inversion U as [|? ? U' HD]; subst. inversion HD as [|? ? AB]; subst. rewrite MarkProofs.last_cons in B.
  destruct (Rlt_dec y (vy b)) as [LT|GE].
  - destruct (proj1 (chord_on a b y AB ltac:(lra))) as (t & T & P). exists (chord_x a b y), [], a, b, l, t. auto.
  - destruct (IH b y U' ltac:(lra)) as (x & u & c & d & q & t & E & T & P). exists x, (a :: u), c, d, q, t. rewrite E. auto.
Qed.
Lemma at_bottom l a x : strictly_up (a :: l) -> crossed_at (a :: l) (vy a) x -> x = vx a.
Proof.
  intros U (u & c & d & q & t & E & T & P). destruct u as [|z u].
  - cbn in E. injection E as <- ->. inversion U as [|? ? _ HD]; subst. inversion HD; subst. apply crossed_edge in P; auto. rewrite P. unfold chord_x. rops. field. lra.
  - exfalso. cbn in E. injection E as <- E. destruct l as [|b l]; [destruct u; discriminate|]. inversion U as [|? ? U' HD]; subst. inversion HD; subst.
    assert (K : crossed_at (b :: l) (vy a) x) by (exists u, c, d, q, t; auto). apply crossed_above in K; auto. lra.
Qed.
Lemma lens_inside bot top right left p : lens bot top right left -> inside p (traced (around bot top right left)) = true <-> between bot top right left p.
Proof.
  intros LN. unfold inside. change (length (filter (hit p) (traced (around bot top right left)))) with (hits p (traced (around bot top right left))).
  unfold traced, around. rewrite hits_cons. change (hits p [MoveTo (V2 0 0)%R bot]) with 0%nat. cbn [Nat.add].
  replace ((right ++ top :: rev left) ++ [bot]) with ((right ++ [top]) ++ (rev left ++ [bot])) by now rewrite <- !app_assoc.
  rewrite lines_app, hits_app, last_last. rewrite <- hits_rev.
  pose proof (lens_right _ _ _ _ LN) as UR. pose proof (lens_left _ _ _ _ LN) as UL. unfold between.
  destruct (Rle_dec (vy bot) (vy p)) as [B1|B1]; [destruct (Rlt_dec (vy p) (vy top)) as [B2|B2]|].
  - destruct (is_crossed (left ++ [top]) bot (vy p) UL) as (xl & CL); [rewrite last_last; lra|]. destruct (is_crossed (right ++ [top]) bot (vy p) UR) as (xr & CR); [rewrite last_last; lra|].
    assert (LE : (xl <= xr)%R).
    { destruct B1 as [B1|B1]; [left; apply (lens_sides _ _ _ _ LN (vy p)); auto|]. rewrite <- B1 in *. apply at_bottom in CL; auto. apply at_bottom in CR; auto. lra. }
    rewrite (one_hit p _ bot xr UR), (one_hit p _ bot xl UL) by (auto; rewrite last_last; lra). split.
    + intros H. split; [lra|]. exists xl, xr. csplit; auto; destruct (Rltb xr (vx p)) eqn:E1, (Rltb xl (vx p)) eqn:E2; try discriminate; rbool; lra.
    + intros (_ & x & x' & C1 & C2 & H).
      pose proof (one_hit p _ bot x UL ltac:(rewrite last_last; lra) C1) as H1. rewrite (one_hit p _ bot xl UL) in H1 by (auto; rewrite last_last; lra).
      pose proof (one_hit p _ bot x' UR ltac:(rewrite last_last; lra) C2) as H2. rewrite (one_hit p _ bot xr UR) in H2 by (auto; rewrite last_last; lra).
      rewrite H1, H2. replace (Rltb x (vx p)) with true by (symmetry; apply Rltb_true; lra). replace (Rltb x' (vx p)) with false by (symmetry; apply Rltb_false; lra). reflexivity.
  - rewrite (no_hit p _ bot UR), (no_hit p _ bot UL) by (right; rewrite last_last; lra). split; [discriminate|]. intros (H & _). lra.
  - rewrite (no_hit p _ bot UR), (no_hit p _ bot UL) by (left; lra). split; [discriminate|]. intros (H & _). lra.
Qed.
