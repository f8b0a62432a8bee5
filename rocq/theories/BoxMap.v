(** Increasing maps from the grid of BoxZ.v to given real coordinates. *)
From Coq Require Import ZArith Bool List Reals Lra Lia.
From Verif Require Import Outcome Num Rmath Segment RTac EquiMap BoxSpec BoxZ.
Import ListNotations.
Local Open Scope R_scope.

Definition increasing9 (vs : list R) : Prop :=
  match vs with
  | [v0; v1; v2; v3; v4; v5; v6; v7; v8] => - R_huge < v0 /\ v0 < v1 /\ v1 < v2 /\ v2 < v3 /\ v3 < v4 /\ v4 < v5 /\ v5 < v6 /\ v6 < v7 /\ v7 < v8 /\ v8 < R_huge
  | _ => False
  end.
Definition ext (vs : list R) (z : Z) : R :=
  if (z <? 0)%Z then nth 0 vs 0 + IZR z * ((nth 0 vs 0 + R_huge) / 100)
  else if (z <=? 8)%Z then nth (Z.to_nat z) vs 0
  else nth 8 vs 0 + IZR (z - 8) * ((R_huge - nth 8 vs 0) / 92).

Record good (f : Z -> R) : Prop := { g_lt : forall a b, (a < b)%Z -> f a < f b; g_hi : f 100%Z = R_huge; g_lo : f (-100)%Z = - R_huge }.

Lemma step_lt (f : Z -> R) : (forall z, f z < f (z + 1)%Z) -> forall a b, (a < b)%Z -> f a < f b.
Proof.
  intros H a b L. replace b with (a + 1 + Z.of_nat (Z.to_nat (b - a - 1)))%Z by lia. generalize (Z.to_nat (b - a - 1)) as n.
  induction n as [|n IH]; [rewrite Z.add_0_r; apply H|]. eapply Rlt_trans; [exact IH|].
  replace (a + 1 + Z.of_nat (S n))%Z with (a + 1 + Z.of_nat n + 1)%Z by lia. apply H.
Qed.
Lemma ext_good vs : increasing9 vs -> good (ext vs).
Proof.
  destruct vs as [|v0 [|v1 [|v2 [|v3 [|v4 [|v5 [|v6 [|v7 [|v8 [|? ?]]]]]]]]]]; try contradiction. cbn [increasing9]. intros H. constructor.
  - apply step_lt. intros z. unfold ext. cbn [nth].
    assert (C : (z < -1 \/ z = -1 \/ z = 0 \/ z = 1 \/ z = 2 \/ z = 3 \/ z = 4 \/ z = 5 \/ z = 6 \/ z = 7 \/ z = 8 \/ 8 < z)%Z) by lia.
    destruct C as [C|[->|[->|[->|[->|[->|[->|[->|[->|[->|[->|C]]]]]]]]]]]; try (cbv - [IZR R_huge Rlt Rplus Rmult Rdiv Rminus Ropp]; lra).
    + replace (z <? 0)%Z with true by (symmetry; apply Z.ltb_lt; lia). replace (z + 1 <? 0)%Z with true by (symmetry; apply Z.ltb_lt; lia).
      rewrite plus_IZR. lra.
    + replace (z <? 0)%Z with false by (symmetry; apply Z.ltb_ge; lia). replace (z + 1 <? 0)%Z with false by (symmetry; apply Z.ltb_ge; lia).
      replace (z <=? 8)%Z with false by (symmetry; apply Z.leb_gt; lia). replace (z + 1 <=? 8)%Z with false by (symmetry; apply Z.leb_gt; lia).
      replace (z + 1 - 8)%Z with (z - 8 + 1)%Z by lia. rewrite (plus_IZR (z - 8)). lra.
  - unfold ext. cbn - [IZR R_huge]. change (IZR (100 - 8)) with 92. lra.
  - unfold ext. cbn - [IZR R_huge]. lra.
Qed.

Section Good.
  Variable f : Z -> R.
  Hypothesis G : good f.
  Lemma g_ltb a b : Rltb (f a) (f b) = Z.ltb a b.
  Proof.
    destruct (Z.ltb a b) eqn:E.
    - apply Rltb_true. apply (g_lt f G). now apply Z.ltb_lt.
    - apply Rltb_false. apply Z.ltb_ge in E. apply Rle_not_gt || idtac. destruct (Z.eq_dec a b) as [->|N]; [lra|]. pose proof (g_lt f G b a ltac:(lia)). lra.
  Qed.
  Lemma g_inj a b : f a = f b -> a = b.
  Proof. intros E. destruct (Ztrichotomy a b) as [L|[L|L]]; auto; [pose proof (g_lt f G a b L)|pose proof (g_lt f G b a ltac:(lia))]; lra. Qed.
  Lemma g_eqb a b : Reqb (f a) (f b) = Z.eqb a b.
  Proof.
    destruct (Z.eqb a b) eqn:E.
    - apply Z.eqb_eq in E. subst. now apply Reqb_true.
    - apply Z.eqb_neq in E. apply Reqb_false. intros K. apply E. now apply g_inj.
  Qed.
  Lemma g_leb a b : Rleb (f a) (f b) = Z.leb a b.
  Proof.
    destruct (Z.leb a b) eqn:E.
    - apply Rleb_true. apply Z.leb_le in E. destruct (Z.eq_dec a b) as [->|N]; [lra|]. pose proof (g_lt f G a b ltac:(lia)). lra.
    - apply Rleb_false. apply (g_lt f G). apply Z.leb_gt in E. auto.
  Qed.
End Good.

Lemma good_maps fx fy : good fx -> good fy -> maps (N1 := Z_num) (N2 := R_num) fx fy.
Proof.
  intros X Y. constructor; [constructor| | | | | |]; intros; try apply (g_ltb _ X); try apply (g_eqb _ X); try apply (g_ltb _ Y); try apply (g_eqb _ Y); try apply (g_hi _ X);
    try apply (g_lo _ X); try apply (g_hi _ Y); try apply (g_lo _ Y).
  - unfold chord_x. cbn. reflexivity.
  - destruct H as [H|H]; cbn [n_eqb Z_num] in H; apply Z.eqb_eq in H; unfold chord_x, fp; cbn [vx vy]; rewrite H; rops; unfold Rdiv.
    + rewrite Rminus_diag_eq by auto. lra.
    + rewrite (Rminus_diag_eq (fy (vy t)) (fy (vy t))) by auto. rewrite Rinv_0. lra.
Qed.

(** Coordinates [a] < [c], [a'] < [c'] and one more *)
Lemma four_knots w x y z p : - R_huge < w -> w < x -> x < y -> y < z -> z < R_huge -> moderate p ->
  exists f n, good f /\ f 1%Z = w /\ f 3%Z = x /\ f 5%Z = y /\ f 7%Z = z /\ In n grid /\ f n = p.
Proof.
  intros A B C D E (P1 & P2).
  set (h0 := (w - R_huge) / 2). set (h2 := (w + x) / 2). set (h4 := (x + y) / 2). set (h6 := (y + z) / 2). set (h8 := (z + R_huge) / 2).
  assert (T : p < w \/ p = w \/ w < p < x \/ p = x \/ x < p < y \/ p = y \/ y < p < z \/ p = z \/ z < p) by lra.
  destruct T as [T|[T|[T|[T|[T|[T|[T|[T|T]]]]]]]];
    [exists (ext [p; w; h2; x; h4; y; h6; z; h8]), 0%Z|exists (ext [h0; w; h2; x; h4; y; h6; z; h8]), 1%Z|exists (ext [h0; w; p; x; h4; y; h6; z; h8]), 2%Z
    |exists (ext [h0; w; h2; x; h4; y; h6; z; h8]), 3%Z|exists (ext [h0; w; h2; x; p; y; h6; z; h8]), 4%Z|exists (ext [h0; w; h2; x; h4; y; h6; z; h8]), 5%Z
    |exists (ext [h0; w; h2; x; h4; y; p; z; h8]), 6%Z|exists (ext [h0; w; h2; x; h4; y; h6; z; h8]), 7%Z|exists (ext [h0; w; h2; x; h4; y; h6; z; p]), 8%Z];
    (split; [apply ext_good; cbn; unfold h0, h2, h4, h6, h8; lra|]); cbn; auto 15.
Qed.
Lemma place_axis a c a' c' p : a < c -> a' < c' -> a <> a' -> a <> c' -> c <> a' -> c <> c' ->
  moderate a -> moderate c -> moderate a' -> moderate c' -> moderate p ->
  exists f i j i' j' n, In (i, j, i', j') places /\ good f /\ f i = a /\ f j = c /\ f i' = a' /\ f j' = c' /\ In n grid /\ f n = p.
Proof.
  intros A C N1 N2 N3 N4 (M1 & _) (_ & M2) (M3 & _) (_ & M4) P. unfold places.
  assert (T : c < a' \/ (a < a' /\ a' < c /\ c < c') \/ (a < a' /\ c' < c) \/ (a' < a /\ c < c') \/ (a' < a /\ a < c' /\ c' < c) \/ c' < a) by lra.
  destruct T as [T|[T|[T|[T|[T|T]]]]].
  - destruct (four_knots a c a' c' p) as (f & n & G & K1 & K2 & K3 & K4 & I & K); try lra; auto. exists f, 1%Z, 3%Z, 5%Z, 7%Z, n. cbn [In]. auto 15.
  - destruct (four_knots a a' c c' p) as (f & n & G & K1 & K2 & K3 & K4 & I & K); try lra; auto. exists f, 1%Z, 5%Z, 3%Z, 7%Z, n. cbn [In]. auto 15.
  - destruct (four_knots a a' c' c p) as (f & n & G & K1 & K2 & K3 & K4 & I & K); try lra; auto. exists f, 1%Z, 7%Z, 3%Z, 5%Z, n. cbn [In]. auto 15.
  - destruct (four_knots a' a c c' p) as (f & n & G & K1 & K2 & K3 & K4 & I & K); try lra; auto. exists f, 3%Z, 5%Z, 1%Z, 7%Z, n. cbn [In]. auto 15.
  - destruct (four_knots a' a c' c p) as (f & n & G & K1 & K2 & K3 & K4 & I & K); try lra; auto. exists f, 3%Z, 7%Z, 1%Z, 5%Z, n. cbn [In]. auto 15.
  - destruct (four_knots a' c' a c p) as (f & n & G & K1 & K2 & K3 & K4 & I & K); try lra; auto. exists f, 5%Z, 7%Z, 1%Z, 3%Z, n. cbn [In]. auto 15.
Qed.
