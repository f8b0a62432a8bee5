(** What is drawn for polygons in general position does not depend on which of them are the subject. *)
From Coq Require Import ZArith Bool List Reals Lia Permutation.
From Verif Require Import Outcome Num Order Rmath Segment Path PathSpec VState VPath VBreak VAel VOut VMain RingSpec LineSpec BreakSpec ClipSpec AelSpec WindSpec ClimbSpec SpanSpec PlaneSpec OutSpec OutRun OutEven LayoutSpec SwapSpec.
Import ListNotations.
Local Open Scope Z_scope.

Notation paths := (list (path_type * list (list (outline (T := R))))).
Lemma swapped_outlines (ps : paths) : all_outlines (swapped ps) = all_outlines ps.
Proof. unfold all_outlines, swapped. induction ps as [|x ps IH]; cbn; auto. now rewrite IH. Qed.
Lemma swapped_contours (ps : paths) : contours (swapped ps) = map (fun it => (other (fst it), snd it)) (contours ps).
Proof.
  unfold contours, swapped. induction ps as [|[t oss] ps IH]; cbn [map flat_map fst snd]; auto. rewrite !filter_app, map_app, IH. f_equal.
  induction (concat oss) as [|o l IHl]; cbn [map filter snd]; auto. destruct (accepted _); cbn [map fst snd]; now rewrite IHl.
Qed.
Lemma swapped_sides (ps : paths) : PlaneSpec.all_sides (swapped ps) = PlaneSpec.all_sides ps.
Proof. unfold PlaneSpec.all_sides. rewrite swapped_contours. induction (contours ps) as [|x l IH]; cbn [map flat_map fst snd]; [auto|f_equal; exact IH]. Qed.
Lemma swapped_typed (ps : paths) t : typed_sides (swapped ps) t = typed_sides ps (other t).
Proof.
  unfold typed_sides. rewrite swapped_contours. induction (contours ps) as [|[k g] l IH]; cbn [map flat_map fst snd]; auto. rewrite IH. f_equal. destruct k, t; reflexivity.
Qed.
Lemma swapped_result (ps : paths) op fill x z : symmetric op -> result (swapped ps) op fill x z = result ps op fill x z.
Proof.
  intros S. unfold result. rewrite !swapped_typed. cbn [other]. destruct op; cbn; auto; try apply andb_comm; try apply orb_comm; try apply xorb_comm. now elim S.
Qed.
Lemma swapped_consistent (ps : paths) d op fill : symmetric op -> consistent d ps op fill -> consistent d (swapped ps) op fill.
Proof.
  intros S (D & C). split; auto. intros x x' z. rewrite !swapped_typed, !swapped_result by auto. cbn [other]. intros A B. now apply C.
Qed.
Lemma swap_run en en' ps (s s2 : clipper R) : lawful en -> lawful en' ->
  Forall polygon (all_outlines ps) -> Forall above_end (all_outlines ps) -> generic (PlaneSpec.all_sides ps) ->
  add_all clipper0 ps = Ok s -> add_all clipper0 (swapped ps) = Ok s2 ->
  exists k, forall n op fill d, symmetric op -> consistent d ps op fill ->
    ((k <= n)%nat -> (exists x cs, process en n s op fill = Ok (x, cs)) /\ exists x cs, process en' n s2 op fill = Ok (x, cs)) /\
    forall m x x' cs cs', process en n s op fill = Ok (x, cs) -> process en' m s2 op fill = Ok (x', cs') ->
      forall u v, winding (lines_of cs') u v = winding (lines_of cs) u v /\ ClipSpec.inside (V2 u v) cs' = ClipSpec.inside (V2 u v) cs.
Proof.
  intros (P1 & A1) (P2 & A2) PO AE GE L L2.
  destruct (polygons_out en ps s P1 A1 PO AE GE L) as (k1 & K1).
  assert (PO2 : Forall polygon (all_outlines (swapped ps))) by (rewrite swapped_outlines; auto).
  assert (AE2 : Forall above_end (all_outlines (swapped ps))) by (rewrite swapped_outlines; auto).
  assert (GE2 : generic (PlaneSpec.all_sides (swapped ps))) by (rewrite swapped_sides; auto).
  destruct (polygons_out en' (swapped ps) s2 P2 A2 PO2 AE2 GE2 L2) as (k2 & K2).
  exists (Nat.max k1 k2). intros n op fill d S C. pose proof (swapped_consistent ps d op fill S C) as C2. destruct (K1 n op fill d C) as (E1 & _ & W1). split.
  - intros N. destruct (K2 n op fill d C2) as (E2 & _). split; [apply E1|apply E2]; lia.
  - intros m x x' cs cs' R R' u v. destruct (K2 m op fill d C2) as (_ & _ & W2). destruct (W1 _ _ R) as (_ & _ & W1'). destruct (W2 _ _ R') as (_ & _ & W2').
    assert (W : winding (lines_of cs') u v = winding (lines_of cs) u v) by (rewrite W1', W2', swapped_result; auto). split; auto. rewrite !inside_odd. now rewrite W.
Qed.
(** union and intersection together *)
Lemma both_runs en ps (s : clipper R) : lawful en ->
  Forall polygon (all_outlines ps) -> Forall above_end (all_outlines ps) -> generic (PlaneSpec.all_sides ps) -> add_all clipper0 ps = Ok s ->
  forall fill d n m x x' cu ci, consistent d ps op_union fill -> consistent d ps op_intersection fill ->
    process en n s op_union fill = Ok (x, cu) -> process en m s op_intersection fill = Ok (x', ci) ->
    forall u v, (winding (lines_of ci) u v <> 0 -> winding (lines_of cu) u v <> 0) /\
      winding (lines_of cu) u v + winding (lines_of ci) u v =
        (if in_fill fill (winding (typed_sides ps subject) u v) then d else 0) + (if in_fill fill (winding (typed_sides ps clip) u v) then d else 0).
Proof.
  intros (P1 & A1) PO AE GE L fill d n m x x' cu ci C1 C2 R1 R2 u v. destruct (polygons_out en ps s P1 A1 PO AE GE L) as (k & K).
  destruct (K n op_union fill d C1) as (_ & _ & W1). destruct (K m op_intersection fill d C2) as (_ & _ & W2). destruct (W1 _ _ R1) as (_ & _ & W1'). destruct (W2 _ _ R2) as (_ & _ & W2').
  rewrite W1', W2'. unfold result. destruct C1 as (D & _). destruct (in_fill fill (winding (typed_sides ps subject) u v)), (in_fill fill (winding (typed_sides ps clip) u v)); cbn [bool_op orb andb]; split; intros; lia.
Qed.
