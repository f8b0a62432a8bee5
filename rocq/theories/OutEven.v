(** The even-odd rule for what is drawn. *)
From Coq Require Import ZArith Bool List Reals Lra Lia Permutation.
From Verif Require Import Outcome Num Order Rmath RTac Segment Path PathSpec VState VPath VOut VMain VBreak VAel RingSpec LineSpec BreakSpec ClipSpec AelSpec WindSpec ClimbSpec VPairs SpanSpec PlaneSpec OutSpec OutRun ClipCases SpanCases PlaneCases.
Import ListNotations.
Local Open Scope Z_scope.
Local Open Scope out.

Lemma xat_cross a b x z : (vy a < vy b)%R -> Rltb (xat a b z) x = Rltb ((vx b - vx a) * (z - vy a) - (x - vx a) * (vy b - vy a))%R 0%R.
Proof.
  intros H. unfold xat. assert (K : ((vx a + (vx b - vx a) * ((z - vy a) / (vy b - vy a)) - x) * (vy b - vy a) = (vx b - vx a) * (z - vy a) - (x - vx a) * (vy b - vy a))%R) by (field; lra).
  rewrite <- K. set (u := (vx a + _)%R). destruct (Rltb u x) eqn:E; rbool; symmetry; [apply Rltb_true|apply Rltb_false]; nra.
Qed.
Lemma xat_cross' a b x z : (vy b < vy a)%R -> Rltb (xat a b z) x = Rltb 0%R ((vx b - vx a) * (z - vy a) - (x - vx a) * (vy b - vy a))%R.
Proof.
  intros H. unfold xat. assert (K : ((vx a + (vx b - vx a) * ((z - vy a) / (vy b - vy a)) - x) * (vy b - vy a) = (vx b - vx a) * (z - vy a) - (x - vx a) * (vy b - vy a))%R) by (field; lra).
  rewrite <- K. set (u := (vx a + _)%R). destruct (Rltb u x) eqn:E; rbool; symmetry; [apply Rltb_true|apply Rltb_false]; nra.
Qed.
Lemma crosses_passes (a b : vec2 R) x z : Z.odd (passes a b x z) = crosses (V2 x z) a b.
Proof.
  unfold crosses, passes. cbn [vx vy]. rops. change (n_ofZ 0) with 0%R.
  destruct (Rleb (vy a) z) eqn:A1, (Rltb z (vy b)) eqn:A2, (Rleb (vy b) z) eqn:B1, (Rltb z (vy a)) eqn:B2; cbn [andb orb]; rbool; try lra; try reflexivity.
  - rewrite xat_cross by lra. destruct (Rltb _ 0%R); reflexivity.
  - rewrite xat_cross' by lra. destruct (Rltb 0%R _); reflexivity.
Qed.
Lemma inside_odd cs x z : ClipSpec.inside (V2 x z) cs = Z.odd (winding (lines_of cs) x z).
Proof.
  unfold ClipSpec.inside. induction cs as [|c cs IH]; [reflexivity|]. destruct c as [p q|a b|a b c d]; cbn [lines_of flat_map app filter]; auto.
  unfold winding in *. cbn [map fold_right fst snd]. rewrite Z.odd_add, crosses_passes. destruct (crosses (V2 x z) a b); cbn [length]; [rewrite Nat.odd_succ, <- Nat.negb_odd, IH; reflexivity|rewrite IH; now destruct (Z.odd _)].
Qed.
Lemma polygons_even en ps (s : clipper R) : (forall l, Permutation (en_order en l) l) -> (forall i j, en_addr en i = en_addr en j -> i = j) ->
  Forall polygon (all_outlines ps) -> Forall above_end (all_outlines ps) -> generic (all_sides ps) -> add_all clipper0 ps = Ok s ->
  forall n op fill d s' cs, consistent d ps op fill -> process en n s op fill = Ok (s', cs) ->
  forall x z, ClipSpec.inside (V2 x z) cs = result ps op fill x z.
Proof.
  intros PO AI POL AE GE ADD n op fill d s' cs CO H x z. destruct (polygons_out en ps s PO AI POL AE GE ADD) as (k & K).
  destruct (K n op fill d CO) as (_ & _ & W). destruct (W s' cs H) as (_ & _ & W').
  rewrite inside_odd, W'. destruct (result _ _ _ _ _); [|reflexivity]. destruct CO as [[-> | ->] _]; reflexivity.
Qed.

(** *** Results that go with the winding numbers *)
Ltac signs := repeat match goal with
  | |- context [?a <? ?b] => destruct (Z.ltb_spec a b)
  | |- context [?a =? ?b] => destruct (Z.eqb_spec a b)
  end.
Lemma consistent_turn ps op fill : op = op_union \/ op = op_intersection ->
  let S := winding (typed_sides ps subject) in let C := winding (typed_sides ps clip) in
  consistent 1 ps op positive /\ consistent (-1) ps op negative /\
  ((forall x z, 0 <= S x z /\ 0 <= C x z) -> consistent 1 ps op non_zero) /\ ((forall x z, S x z <= 0 /\ C x z <= 0) -> consistent (-1) ps op non_zero) /\
  ((forall x z, 0 <= S x z <= 1 /\ 0 <= C x z <= 1) -> consistent 1 ps op even_odd) /\ ((forall x z, -1 <= S x z <= 0 /\ -1 <= C x z <= 0) -> consistent (-1) ps op even_odd) /\
  consistent 1 ps op_none fill /\
  ((forall x z, 0 <= S x z /\ C x z <= 0) -> consistent 1 ps op_difference non_zero) /\ ((forall x z, S x z <= 0 /\ 0 <= C x z) -> consistent (-1) ps op_difference non_zero) /\
  ((forall x z, 0 <= S x z <= 1 /\ -1 <= C x z <= 0) -> consistent 1 ps op_difference even_odd) /\ ((forall x z, -1 <= S x z <= 0 /\ 0 <= C x z <= 1) -> consistent (-1) ps op_difference even_odd).
Proof.
  intros OP S C.
  assert (ODD : forall w, 0 <= w <= 1 -> Z.odd w = (w =? 1)) by (intros w H; assert (w = 0 \/ w = 1) as [-> | ->] by lia; reflexivity).
  assert (ODD' : forall w, -1 <= w <= 0 -> Z.odd w = (w =? -1)) by (intros w H; assert (w = 0 \/ w = -1) as [-> | ->] by lia; reflexivity).
  split; [|split; [|split; [|split; [|split; [|split; [|split; [|split; [|split; [|split]]]]]]]]];
    try intros H; (split; [now (left + right)|]); intros x x' z L1 L2; fold (S x z) in L1; fold (S x' z) in L1; fold (C x z) in L2; fold (C x' z) in L2;
    cbn [Z.eqb Pos.eqb]; unfold result; fold (S x z) (S x' z) (C x z) (C x' z); try pose proof (H x z); try pose proof (H x' z); cbn [bool_op].
  7: discriminate.
  all: try (destruct OP as [-> | ->]); cbn [bool_op in_fill]; repeat match goal with |- context [Z.odd ?w] => first [rewrite (ODD w) by lia|rewrite (ODD' w) by lia] end.
  all: signs; cbn; try discriminate; try lia; auto.
Qed.

(** *** Two triangles *)
Lemma tri_winding x z : 0 <= winding (typed_sides ps_plane subject) x z <= 1 /\ 0 <= winding (typed_sides ps_plane clip) x z <= 1.
Proof.
  destruct ps_typed as [-> ->]. unfold winding, passes, xat, BreakCases.ptR. cbn [map fst snd vx vy fold_right].
  split; repeat match goal with
  | |- context [Rleb ?a ?b] => destruct (Rleb a b) eqn:?; rbool; cbn [andb]
  | |- context [Rltb ?a ?b] => destruct (Rltb a b) eqn:?; rbool; cbn [andb]
  end; try lra; cbn; lia.
Qed.
Lemma out_case : consistent 1 ps_plane op_union positive /\ consistent 1 ps_plane op_intersection non_zero /\ consistent 1 ps_plane op_union even_odd /\
  result ps_plane op_intersection non_zero 4 3 = true /\ result ps_plane op_union even_odd 8 4 = true /\ result ps_plane op_intersection non_zero 8 4 = false.
Proof.
  destruct (consistent_turn ps_plane op_union positive (or_introl eq_refl)) as (A & _ & _ & _ & B & _).
  destruct (consistent_turn ps_plane op_intersection positive (or_intror eq_refl)) as (_ & _ & C & _).
  destruct ps_winding as (W1 & W2 & W3 & W4 & _). unfold result. rewrite W1, W2, W3, W4.
  split; [exact A|split; [apply C; intros x z; pose proof (tri_winding x z); lia|split; [apply B; intros x z; apply tri_winding|repeat split]]].
Qed.
Lemma out_run : exists s n s' cs, add_all clipper0 ps_plane = Ok s /\ process env0 n s op_intersection non_zero = Ok (s', cs) /\
  ClipSpec.inside (V2 4%R 3%R) cs = true /\ ClipSpec.inside (V2 8%R 4%R) cs = false.
Proof.
  destruct plane_case as (POL & AE & GE & PO & AI & s & ADD). destruct out_case as (_ & CO & _ & R1 & _ & R2).
  destruct (polygons_out env0 ps_plane s PO AI POL AE GE ADD) as (k & K). destruct (K k op_intersection non_zero 1 CO) as (T & _).
  destruct (T (le_n _)) as (s' & cs & H). exists s, k, s', cs. split; [exact ADD|split; [exact H|]].
  rewrite !(polygons_even env0 ps_plane s PO AI POL AE GE ADD k op_intersection non_zero 1 s' cs CO H). auto.
Qed.
