(** Abscissae, reversal, line/cubic intersection and the circle over the reals. *)
From Coq Require Import ZArith Bool List Reals Lra Lia Psatz.
From Verif Require Import Outcome Num Rmath RTac Segment SegSpec BezierSpec BezierR LineSpec LineR.
From Verif Require Import MonotoneR EquationSpec EquationR ClearR.
Import ListNotations.
Local Open Scope R_scope.

Lemma Rabs_def2' x e : Rabs x <= e -> - e <= x <= e.
Proof. intros H. unfold Rabs in H. destruct (Rcase_abs x); lra. Qed.

(** ** C36 *)
Lemma C36_twice_lemma {T} (s : seg T) (from : vec2 T) :
  seg_reverse (seg_reverse s from) (seg_target s) = s /\
  seg_target (seg_reverse s from) = from /\ seg_kind (seg_reverse s from) = seg_kind s.
Proof. destruct s; cbn; auto. Qed.

Lemma C36_trace_lemma (s : seg R) (from : vec2 R) (t : R) :
  seg_point (seg_reverse s from) (seg_target s) t = seg_point s from (1 - t).
Proof.
  destruct s; cbn; auto; f_equal; apply vec_eq; unfold pt, curve, bern; cbn; ring.
Qed.

(** ** C15 *)
Lemma C15_line_lemma (from target : vec2 R) (y : R) : vy from <> vy target ->
  (vy from <= y <= vy target \/ vy target <= y <= vy from) ->
  exists x, seg_curr_x (SLine target) from y = Ok x /\ on_segment (V2 x y) from target /\
    forall p, on_segment p from target -> vy p = y -> vx p = x.
Proof.
  intros Hn Hy. exists (chord_x from target y). split; [reflexivity|].
  unfold chord_x, on_segment, pt. rops.
  destruct from as [fx fy], target as [tx ty]. cbn [vx vy] in *.
  assert (Hd : ty - fy <> 0) by lra. split.
  - exists ((y - fy) / (ty - fy)). split.
    + destruct Hy as [Hy|Hy].
      * assert (0 < ty - fy) by lra. split.
        -- apply Rmult_le_pos; [lra|]. apply Rlt_le, Rinv_0_lt_compat; lra.
        -- apply Rmult_le_reg_r with (ty - fy); auto. unfold Rdiv. rewrite Rmult_assoc, Rinv_l by auto. lra.
      * assert (0 < fy - ty) by lra.
        replace ((y - fy) / (ty - fy)) with ((fy - y) / (fy - ty)) by (field; lra). split.
        -- apply Rmult_le_pos; [lra|]. apply Rlt_le, Rinv_0_lt_compat; lra.
        -- apply Rmult_le_reg_r with (fy - ty); auto. unfold Rdiv. rewrite Rmult_assoc, Rinv_l by lra. lra.
    + f_equal; field; auto.
  - intros p (t & Ht & ->). cbn [vx vy]. intros E. rewrite <- E. field. auto.
Qed.

(** point_at_y keeps the roots in [0,1]. *)
Definition in01c {T} {N : Num T} (t : T) : bool := (n_leb (n_ofZ 0) t && n_leb t (n_ofZ 1))%bool.

Lemma push_fold {T} {N : Num T} (l : list T) (acc : list T) :
  (length acc + length l <= 3)%nat ->
  fold_left (fun acc t => bind acc (fun l => push_if (in01c t) 3 l t)) l (Ok acc) =
  Ok (acc ++ filter in01c l).
Proof.
  revert acc. induction l as [|t l IH]; intros acc H; cbn [fold_left filter].
  - rewrite app_nil_r; auto.
  - cbn [length] in H.
    assert (E : bind (Ok acc) (fun l0 => push_if (in01c t) 3 l0 t) = Ok (acc ++ if in01c t then [t] else [])).
    { cbn [bind]. unfold push_if, push_res.
      replace (Nat.ltb (length acc) 3) with true by (symmetry; apply Nat.ltb_lt; lia).
      destruct (in01c t); rewrite ?app_nil_r; auto. }
    rewrite E, IH.
    + destruct (in01c t); rewrite <- app_assoc; reflexivity.
    + rewrite app_length. destruct (in01c t); cbn; lia.
Qed.

Lemma point_at_y_eq {T} {N : Num T} (z : bezier T) (y : T) :
  point_at_y z y = Ok (filter in01c
    (resolv_cubic_equa (vy (coef3 z)) (vy (coef2 z)) (vy (coef1 z)) (n_add (vy (b0 z)) (n_neg y)))).
Proof.
  unfold point_at_y. apply (push_fold _ []). cbn. apply cubic_length.
Qed.

Lemma in01c_R (t : R) : in01c t = true <-> 0 <= t <= 1.
Proof. unfold in01c. rops. rewrite andb_true_iff, !Rleb_true. tauto. Qed.

Lemma height_cubic (z : bezier R) y t :
  vy (curve z t) - y = cubic (pw3 (vy (b0 z)) (vy (b1 z)) (vy (b2 z)) (vy (b3 z)))
    (pw2 (vy (b0 z)) (vy (b1 z)) (vy (b2 z))) (pw1 (vy (b0 z)) (vy (b1 z))) (vy (b0 z) - y) t.
Proof. cbn. unfold bern, cubic, pw3, pw2, pw1. ring. Qed.

Lemma point_at_y_R (z : bezier R) y :
  point_at_y z y = Ok (filter in01c (resolv_cubic_equa
    (pw3 (vy (b0 z)) (vy (b1 z)) (vy (b2 z)) (vy (b3 z)))
    (pw2 (vy (b0 z)) (vy (b1 z)) (vy (b2 z))) (pw1 (vy (b0 z)) (vy (b1 z))) (vy (b0 z) - y))).
Proof.
  rewrite point_at_y_eq. do 3 f_equal; unfold pw3, pw2, pw1; destruct z; rn; ring.
Qed.

Lemma point_at_y_solves z y : y_solvable z y ->
  exists l, point_at_y z y = Ok l /\ NoDup l /\
    forall t, In t l <-> 0 <= t <= 1 /\ vy (curve z t) = y.
Proof.
  unfold y_solvable, y_coefs. intros [H1 H2]. rewrite point_at_y_R. eexists. split; [reflexivity|].
  destruct (C14_clear_lemma _ _ _ _ H1 H2) as [ND S]. split.
  - apply NoDup_filter; auto.
  - intros t. rewrite filter_In, in01c_R, S, <- height_cubic. split; intros; split; try tauto; lra.
Qed.

(** Several crossings, or none: the chord. *)
Lemma C15_several_lemma (c1 c2 target from : vec2 R) (y : R) : let z := Bez from c1 c2 target in
  y_solvable z y -> ~ (exists t, 0 <= t <= 1 /\ vy (curve z t) = y /\ forall u, 0 <= u <= 1 -> vy (curve z u) = y -> u = t) ->
  seg_curr_x (SCubic c1 c2 target) from y = seg_curr_x (SLine target) from y.
Proof.
  intros z HS NO. cbn [seg_curr_x]. unfold cubic_from. fold z. destruct (point_at_y_solves z y HS) as (l & -> & ND & Hl). cbn [bind].
  destruct l as [|a [|b l']]; [reflexivity| |reflexivity]. exfalso. apply NO. exists a. destruct (proj1 (Hl a)) as [A1 A2]; [now left|].
  repeat split; try apply A1; auto. intros u U E. destruct (proj2 (Hl u) (conj U E)) as [<-|[]]. reflexivity.
Qed.

Lemma C15_cubic_lemma (c1 c2 target from : vec2 R) (y t : R) :
  let z := Bez from c1 c2 target in
  y_solvable z y -> 0 <= t <= 1 -> vy (curve z t) = y ->
  (forall u, 0 <= u <= 1 -> vy (curve z u) = y -> u = t) ->
  seg_curr_x (SCubic c1 c2 target) from y = Ok (vx (curve z t)).
Proof.
  intros z HS Ht Hy Hu. cbn [seg_curr_x]. unfold cubic_from. fold z.
  destruct (point_at_y_solves z y HS) as (l & -> & ND & Hl). cbn [bind].
  assert (In t l) by (apply Hl; auto).
  assert (forall u, In u l -> u = t) by (intros u Hin; apply Hl in Hin as []; auto).
  destruct l as [|a [|b l']].
  - contradiction.
  - rewrite point_at_curve. rewrite (H0 a); auto. left; auto.
  - exfalso. inversion ND; subst. apply H3. left.
    rewrite (H0 b), (H0 a); cbn; auto.
Qed.

(** Three real parameters at that height, one of them inside [0,1] and the
    others outside, each by more than the solver's error: the abscissa is that
    of a point of the curve whose parameter is off by at most that error. *)
Lemma C15_three_lemma (c1 c2 target from : vec2 R) (y : R) :
  let z := Bez from c1 c2 target in
  let '(a3, a2, a1, a0) := y_coefs z y in
  a3 <> 0 -> clear a3 -> disc a3 a2 a1 a0 < 0 -> clear (disc a3 a2 a1 a0) -> cub_q a3 a2 a1 a0 <> 0 ->
  exists r0 r1 r2, (forall t, vy (curve z t) = y <-> t = r0 \/ t = r1 \/ t = r2) /\
    let eps := / 10000000000 * (Rabs (r0 - r1) + Rabs (r1 - r2) + Rabs (r2 - r0)) in
    forall r, (forall t, In t [r0; r1; r2] -> if Req_EM_T t r then eps <= t <= 1 - eps
                                              else t < - eps \/ 1 + eps < t) ->
      In r [r0; r1; r2] -> r0 <> r1 -> r1 <> r2 -> r0 <> r2 ->
      exists t', Rabs (t' - r) <= eps /\ 0 <= t' <= 1 /\
        seg_curr_x (SCubic c1 c2 target) from y = Ok (vx (curve z t')).
Proof.
  intros z. unfold y_coefs.
  set (a3 := pw3 _ _ _ _). set (a2 := pw2 _ _ _). set (a1 := pw1 _ _).
  intros H1 H2 H3 H4 H5.
  destruct (C14_three_clear_lemma a3 a2 a1 (vy (b0 z) - y) H1 H2 H3 H4 H5)
    as (x0 & x1 & x2 & r0 & r1 & r2 & E & F & -> & N1 & N2).
  exists r0, r1, r2. split.
  { intros t. pose proof (height_cubic z y t) as HC. fold a3 a2 a1 in HC. rewrite F in HC. split.
    - intros Hy. assert (Z : a3 * (t - r0) * (t - r1) * (t - r2) = 0) by lra.
      apply Rmult_integral in Z as [Z|Z]; [|lra].
      apply Rmult_integral in Z as [Z|Z]; [|lra].
      apply Rmult_integral in Z as [Z|Z]; [contradiction|lra].
    - intros Hr. assert (Z : a3 * (t - r0) * (t - r1) * (t - r2) = 0)
        by (destruct Hr as [->|[->| ->]]; ring). lra. }
  cbv zeta. unfold near in N1, N2.
  set (eps := / 10000000000 * _) in *.
  assert (He : 0 <= eps).
  { unfold eps. pose proof (Rabs_pos (r0 - r1)). pose proof (Rabs_pos (r1 - r2)). pose proof (Rabs_pos (r2 - r0)). lra. }
  clearbody eps.
  intros r Hm Hr D1 D2 D3. pose proof (Hm r0 ltac:(cbn; auto)) as M0.
  pose proof (Hm r1 ltac:(cbn; auto)) as M1. pose proof (Hm r2 ltac:(cbn; auto)) as M2. clear Hm.
  cbn [seg_curr_x]. unfold cubic_from. fold z. rewrite point_at_y_R. fold a3 a2 a1. rewrite E.
  apply Rabs_def2' in N1. apply Rabs_def2' in N2.
  assert (IN : forall x, 0 <= x <= 1 -> in01c x = true) by (intros; apply in01c_R; auto).
  assert (OUT : forall x, ~ 0 <= x <= 1 -> in01c x = false)
    by (intros x Hx; destruct (in01c x) eqn:G; auto; apply in01c_R in G; contradiction).
  destruct Hr as [<-|[<-|[<-|[]]]].
  - exists r0. destruct (Req_EM_T r0 r0); [|lra]. destruct (Req_EM_T r1 r0); [lra|]. destruct (Req_EM_T r2 r0); [lra|].
    split; [rewrite Rminus_diag_eq, Rabs_R0 by auto; lra|]. split; [lra|].
    cbn [filter]. rewrite (IN r0) by lra. rewrite (OUT x1) by lra. rewrite (OUT x2) by lra.
    cbn [bind]. rewrite point_at_curve. reflexivity.
  - exists x1. destruct (Req_EM_T r0 r1); [lra|]. destruct (Req_EM_T r1 r1); [|lra]. destruct (Req_EM_T r2 r1); [lra|].
    split; [apply Rabs_le; lra|]. split; [lra|].
    cbn [filter]. rewrite (OUT r0) by lra. rewrite (IN x1) by lra. rewrite (OUT x2) by lra.
    cbn [bind]. rewrite point_at_curve. reflexivity.
  - exists x2. destruct (Req_EM_T r0 r2); [lra|]. destruct (Req_EM_T r1 r2); [lra|]. destruct (Req_EM_T r2 r2); [|lra].
    split; [apply Rabs_le; lra|]. split; [lra|].
    cbn [filter]. rewrite (OUT r0) by lra. rewrite (OUT x1) by lra. rewrite (IN x2) by lra.
    cbn [bind]. rewrite point_at_curve. reflexivity.
Qed.

(** ** C18 *)
Lemma push_fold_gen {A X} (f : X -> option A) (l : list X) (acc : list A) (n : nat) :
  (length acc + length l <= n)%nat ->
  fold_left (fun acc t => bind acc (fun r => match f t with Some x => push_res n r x | None => Ok r end)) l (Ok acc) =
  Ok (acc ++ flat_map (fun t => match f t with Some x => [x] | None => [] end) l).
Proof.
  revert acc. induction l as [|t l IH]; intros acc H; cbn [fold_left flat_map].
  - rewrite app_nil_r; auto.
  - cbn [length bind] in *. destruct (f t) as [x|] eqn:E.
    + unfold push_res. replace (Nat.ltb (length acc) n) with true by (symmetry; apply Nat.ltb_lt; lia).
      rewrite IH by (rewrite app_length; cbn; lia). rewrite <- app_assoc. reflexivity.
    + rewrite IH by lia. reflexivity.
Qed.

(** What is reported for a root t of the combined equation. *)
Definition lc_hit {T} {N : Num T} (s0 s1 : vec2 T) (z : bezier T) (t : T) : option (isect T) :=
  if in01c t then
    if point_between_two_point (point_at z t) s0 s1 then
      Some (Isect (point_at z t)
              (if n_eqb (vy (vsub s1 s0)) (n_ofZ 0) then n_div (vx (vsub (point_at z t) s0)) (vx (vsub s1 s0))
               else n_div (vy (vsub (point_at z t) s0)) (vy (vsub s1 s0))) t)
    else None
  else None.

Definition lc_roots {T} {N : Num T} (s0 s1 : vec2 T) (z : bezier T) : list T :=
  let '(A, B, C) := general_from s0 s1 in
  resolv_cubic_equa (n_add (n_mul A (vx (coef3 z))) (n_mul B (vy (coef3 z))))
    (n_add (n_mul A (vx (coef2 z))) (n_mul B (vy (coef2 z))))
    (n_add (n_mul A (vx (coef1 z))) (n_mul B (vy (coef1 z))))
    (n_add (n_add (n_mul A (vx (b0 z))) (n_mul B (vy (b0 z)))) C).

Lemma line_cubic_eq {T} {N : Num T} (s0 s1 : vec2 T) (z : bezier T) :
  intersect_line_cubic s0 s1 z =
  Ok (flat_map (fun t => match lc_hit s0 s1 z t with Some x => [x] | None => [] end) (lc_roots s0 s1 z)).
Proof.
  unfold intersect_line_cubic, lc_roots. destruct (general_from s0 s1) as [[A B] C].
  cbv zeta.
  match goal with |- context [resolv_cubic_equa ?a ?b ?c ?d] =>
    pose proof (push_fold_gen (lc_hit s0 s1 z) (resolv_cubic_equa a b c d) [] 3) as P end.
  cbn [app length Nat.add] in P. rewrite <- P by apply cubic_length. clear P. generalize (@Ok (list (isect T)) []).
  match goal with |- context [resolv_cubic_equa ?a ?b ?c ?d] => generalize (resolv_cubic_equa a b c d) end.
  induction l as [|t l IH]; intros o; cbn [fold_left]; auto. rewrite IH. f_equal.
  destruct o as [r| | |]; cbn [bind]; auto. unfold lc_hit, in01c, push_if.
  destruct (n_leb (n_ofZ 0) t && n_leb t (n_ofZ 1))%bool; auto.
  destruct (point_between_two_point (point_at z t) s0 s1); auto.
Qed.

Lemma C18_any_lemma {T} {N : Num T} (s0 s1 : vec2 T) (z : bezier T) :
  exists l, intersect_line_cubic s0 s1 z = Ok l /\ (length l <= 3)%nat /\
    forall i, In i l -> ip i = point_at z (it1 i) /\
      n_leb (n_ofZ 0) (it1 i) = true /\ n_leb (it1 i) (n_ofZ 1) = true.
Proof.
  rewrite line_cubic_eq. eexists. split; [reflexivity|]. split.
  - apply Nat.le_trans with (length (lc_roots s0 s1 z)).
    + induction (lc_roots s0 s1 z) as [|t l IH]; cbn [flat_map length]; auto.
      destruct (lc_hit s0 s1 z t); cbn; lia.
    + unfold lc_roots. destruct (general_from s0 s1) as [[A B] C]. apply cubic_length.
  - intros i Hi. apply in_flat_map in Hi as (t & _ & Hi). unfold lc_hit in Hi.
    destruct (in01c t) eqn:E; [|contradiction].
    destruct (point_between_two_point _ _ _); [|contradiction].
    destruct Hi as [<-|[]]. cbn. apply andb_prop in E as []. auto.
Qed.

Lemma line_coefs_eval A B C (z : bezier R) t :
  let '(a3, a2, a1, a0) := line_coefs A B C z in
  cubic a3 a2 a1 a0 t = A * vx (curve z t) + B * vy (curve z t) + C.
Proof. cbn. unfold cubic, bern, pw3, pw2, pw1. ring. Qed.

Lemma lc_roots_R s0 s1 (z : bezier R) :
  lc_roots s0 s1 z = let '(A, B, C) := general_from s0 s1 in
    let '(a3, a2, a1, a0) := line_coefs A B C z in resolv_cubic_equa a3 a2 a1 a0.
Proof.
  unfold lc_roots, line_coefs. destruct (general_from s0 s1) as [[A B] C].
  f_equal; unfold pw3, pw2, pw1; destruct z as [[] [] [] []]; rn; ring.
Qed.

Lemma lc_hit_R (s0 s1 : vec2 R) (z : bezier R) (t s : R) : s0 <> s1 -> fin s0 -> fin s1 ->
  curve z t = pt s0 s1 s -> 0 <= t <= 1 ->
  lc_hit s0 s1 z t = if Rle_dec 0 s then if Rle_dec s 1 then Some (Isect (curve z t) s t) else None else None.
Proof.
  intros Hne F0 F1 E Ht. unfold lc_hit. rewrite (proj2 (in01c_R t)) by auto.
  rewrite point_at_curve, E.
  pose proof (between_line s0 s1 s 0 1 Hne ltac:(lra)) as BL. rewrite pt_0, pt_1 in BL.
  specialize (BL F0 F1). unfold btw in BL.
  destruct (point_between_two_point (pt s0 s1 s) s0 s1) eqn:EB.
  - assert (0 <= s <= 1) by (destruct BL as [BL _]; specialize (BL eq_refl); lra).
    destruct (Rle_dec 0 s); [|lra]. destruct (Rle_dec s 1); [|lra]. f_equal. f_equal.
    destruct s0 as [ax ay], s1 as [bx by']. unfold pt. rn. cbn [vx vy].
    destruct (Reqb _ _) eqn:EQ; rbool.
    + assert (bx - ax <> 0) by (intros Z; apply Hne; f_equal; lra). field. auto.
    + field. auto.
  - destruct (Rle_dec 0 s), (Rle_dec s 1); auto.
    destruct BL as [_ BL]. specialize (BL ltac:(lra)). discriminate.
Qed.

Lemma C18_exact_lemma (s0 s1 : vec2 R) (z : bezier R) : s0 <> s1 -> fin s0 -> fin s1 ->
  (forall A B C, general_from s0 s1 = (A, B, C) ->
     let '(a3, a2, a1, a0) := line_coefs A B C z in
     cubic_clear a3 a2 a1 a0 /\ (a3 <> 0 -> 0 <= disc a3 a2 a1 a0)) ->
  exists l, intersect_line_cubic s0 s1 z = Ok l /\ NoDup l /\
    forall i, In i l <-> 0 <= it0 i <= 1 /\ 0 <= it1 i <= 1 /\
                         ip i = curve z (it1 i) /\ ip i = pt s0 s1 (it0 i).
Proof.
  intros Hne F0 F1 HC. rewrite line_cubic_eq. eexists. split; [reflexivity|].
  rewrite lc_roots_R. destruct (general_from s0 s1) as [[A B] C] eqn:EG.
  specialize (HC A B C eq_refl). pose proof (line_coefs_eval A B C z) as EV.
  destruct (line_coefs A B C z) as [[[a3 a2] a1] a0]. destruct HC as [H1 H2].
  destruct (C14_clear_lemma _ _ _ _ H1 H2) as [ND S].
  set (roots := resolv_cubic_equa a3 a2 a1 a0) in *. clearbody roots.
  assert (ON : forall t, In t roots <-> on_line (curve z t) s0 s1).
  { intros t. rewrite S, EV. pose proof (C39_exact_lemma s0 s1 (curve z t) Hne) as G. rewrite EG in G. auto. }
  split.
  - clear S. induction roots as [|t l IH]; cbn [flat_map]; [constructor|].
    inversion ND; subst.
    assert (IHl : NoDup (flat_map (fun t => match lc_hit s0 s1 z t with Some x => [x] | None => [] end) l)).
    { clear IH. assert (forall x, In x (flat_map (fun t => match lc_hit s0 s1 z t with Some x => [x] | None => [] end) l) -> In (it1 x) l) as HI.
      { intros x Hx. apply in_flat_map in Hx as (u & Hu & Hx). unfold lc_hit in Hx.
        destruct (in01c u); [|contradiction]. destruct (point_between_two_point _ _ _); [|contradiction].
        destruct Hx as [<-|[]]. auto. }
      clear ON H3 HI ND. induction l as [|u l IH]; cbn [flat_map]; [constructor|].
      inversion H4; subst. destruct (lc_hit s0 s1 z u) as [x|] eqn:EH; cbn [app]; auto.
      constructor; auto. intros Hx. apply in_flat_map in Hx as (v & Hv & Hx).
      assert (it1 x = u).
      { unfold lc_hit in EH. destruct (in01c u); [|discriminate]. destruct (point_between_two_point _ _ _); [|discriminate].
        inversion EH; auto. }
      assert (it1 x = v).
      { unfold lc_hit in Hx. destruct (in01c v); [|contradiction]. destruct (point_between_two_point _ _ _); [|contradiction].
        destruct Hx as [<-|[]]; auto. }
      congruence. }
    destruct (lc_hit s0 s1 z t) as [x|] eqn:EH; cbn [app]; auto.
    constructor; auto. intros Hx. apply in_flat_map in Hx as (v & Hv & Hx).
    assert (it1 x = t).
    { unfold lc_hit in EH. destruct (in01c t); [|discriminate]. destruct (point_between_two_point _ _ _); [|discriminate].
      inversion EH; auto. }
    assert (it1 x = v).
    { unfold lc_hit in Hx. destruct (in01c v); [|contradiction]. destruct (point_between_two_point _ _ _); [|contradiction].
      destruct Hx as [<-|[]]; auto. }
    congruence.
  - intros i. rewrite in_flat_map. split.
    + intros (t & Ht & Hi). apply ON in Ht as (s & Es).
      assert (T01 : 0 <= t <= 1).
      { unfold lc_hit in Hi. destruct (in01c t) eqn:E; [|contradiction]. apply in01c_R; auto. }
      rewrite (lc_hit_R s0 s1 z t s) in Hi; auto.
      destruct (Rle_dec 0 s); [|contradiction]. destruct (Rle_dec s 1); [|contradiction].
      destruct Hi as [<-|[]]. cbn. repeat split; auto; lra.
    + intros (T0 & T1 & E1 & E2). exists (it1 i). split.
      * apply ON. exists (it0 i). congruence.
      * rewrite (lc_hit_R s0 s1 z (it1 i) (it0 i)); auto; [|congruence].
        destruct (Rle_dec 0 (it0 i)); [|lra]. destruct (Rle_dec (it0 i) 1); [|lra].
        left. destruct i; cbn in *. congruence.
Qed.
