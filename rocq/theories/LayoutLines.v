(** For polygons the output of [process] depends on nothing but the contours. *)
From Coq Require Import ZArith Bool List Reals Permutation.
From Verif Require Import Outcome Num Order Rmath Segment Path PathSpec ScanLine VState VPath VBreak VAel VOut VMain VLemmas
  RingSpec BreakSpec VRing VBuild VAdd VBroken LineSpec BreakStatements BreakLines BreakDrawn EquiMap Layout.
Import ListNotations.
Local Open Scope out.

Lemma polygon_drawing ps : Forall polygon (all_outlines ps) -> drawable_paths ps.
Proof. unfold drawable_paths. intros H. eapply Forall_impl; [|exact H]. intros o (_ & K). eapply Forall_impl; [|exact K]. intros [] ?; try contradiction; exact I. Qed.
Lemma drawn_polygons en en' n ps (s : clipper R) op fill : Forall polygon (all_outlines ps) -> add_all clipper0 ps = Ok s -> en_fuel en = en_fuel en' ->
  (forall l, Permutation (en_order en l) l) -> (forall l, Permutation (en_order en' l) l) ->
  (forall i j, en_addr en i = en_addr en j -> i = j) -> (forall i j, en_addr en' i = en_addr en' j -> i = j) ->
  omap snd (process en n s op fill) = omap snd (process en' n s op fill).
Proof.
  intros PG E EF PO PO' J J'. pose proof (polygon_drawing _ PG) as D. destruct (drawn_state ps s D E) as (ls & RG & ST & LM & NE & H).
  destruct (find_breaks_lines en s ls PO RG ST) as (bs & FB & EX & _); [eapply drawn_straight; eauto|].
  apply (process_orders (T := R) (O := R_ord) (fun t _ => I) en en' n s ls op fill bs); auto. intros b c B C V T. rewrite Forall_forall in EX.
  cbn in T. apply Reqb_true in T. pose proof (exact_same _ b c (EX b B) (EX c C) V T). destruct b, c; cbn in *; congruence.
Qed.
