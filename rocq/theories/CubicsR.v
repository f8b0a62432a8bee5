(** Cubic/cubic intersection by subdivision. *)
From Coq Require Import ZArith Bool List Reals Lra Lia Psatz Permutation Sorting.
From Verif Require Import Outcome Num Order Rmath RTac RectSpec RectProofs BezierSpec BezierR MonotoneR LineSpec LineR.
Import ListNotations.
Local Open Scope list_scope.

(** ** Any arithmetic: termination, number of results *)
Section Any.
  Context {T : Type} {N : Num T}.

  (** Steps needed for a pair that may still be split n times. *)
  Fixpoint work (n : nat) : nat := match n with O => 1 | S n => 1 + 4 * work n end.
  Definition cc_fuel (precise : Z) : nat := work (Z.to_nat precise).

  Definition pair_work (precise : Z) (p : cpair (T := T)) : nat := work (Z.to_nat (precise - c_rec (fst p))).
  Definition total_work (precise : Z) (l : list cpair) : nat :=
    fold_right (fun p n => pair_work precise p + n) 0 l.

  Lemma work_pos n : 1 <= work n.
  Proof. destruct n; cbn; lia. Qed.
  Lemma work_mono n m : n <= m -> work n <= work m.
  Proof.
    revert m. induction n as [|n IH]; intros [|m] H; cbn [work]; try lia.
    specialize (IH m ltac:(lia)). lia.
  Qed.

  Lemma check_work precise p0 p1 next out next' out' :
    check_func precise p0 p1 (next, out) = (next', out') ->
    total_work precise next' <= (if (c_rec p0 >? precise)%Z then 0 else pair_work precise (p0, p1)) + total_work precise next.
  Proof.
    unfold check_func. destruct (rect_intersect _ _); destruct (c_rec p0 >? precise)%Z;
    intros E; inversion E; subst; unfold total_work; cbn [fold_right]; lia.
  Qed.

  Lemma step_work precise back rest out pairs' out' :
    cc_step precise back (rest, out) = (pairs', out') ->
    S (total_work precise pairs') <= total_work precise (back :: rest).
  Proof.
    unfold cc_step. unfold subdive.
    destruct (bsplit (c_bez (fst back)) _) as [o1 o2]. destruct (bsplit (c_bez (snd back)) _) as [q1 q2].
    set (p11 := Cell o1 _ _ _ _). set (p12 := Cell o2 _ _ _ _). set (p21 := Cell q1 _ _ _ _). set (p22 := Cell q2 _ _ _ _).
    destruct (check_func precise p11 p21 (rest, out)) as [n1 u1] eqn:E1.
    destruct (check_func precise p11 p22 (n1, u1)) as [n2 u2] eqn:E2.
    destruct (check_func precise p12 p21 (n2, u2)) as [n3 u3] eqn:E3.
    intros E4. apply check_work in E1, E2, E3, E4. cbn [total_work fold_right].
    change (fold_right _ 0 rest) with (total_work precise rest).
    set (r := c_rec (fst back)) in *. unfold pair_work in *. cbn [fst c_rec p11 p12] in *. fold r.
    assert (K : (if (r + 1 >? precise)%Z then 0 else work (Z.to_nat (precise - (r + 1)))) * 4 + 1 <= work (Z.to_nat (precise - r))).
    { destruct (Z.gtb_spec (r + 1) precise).
      - pose proof (work_pos (Z.to_nat (precise - r))). lia.
      - replace (Z.to_nat (precise - r)) with (S (Z.to_nat (precise - (r + 1)))) by lia. cbn [work]. lia. }
    destruct (Z.gtb_spec (r + 1) precise); cbv iota in *; lia.
  Qed.

  Lemma cc_loop_done precise : forall fuel pairs out, total_work precise pairs <= fuel ->
    exists l, forall fuel', fuel <= fuel' -> cc_loop fuel' precise pairs out = Ok l.
  Proof.
    induction fuel as [|fuel IH]; intros pairs out H.
    - destruct pairs as [|p ps].
      + exists out. intros [|f] _; reflexivity.
      + cbn in H. pose proof (work_pos (Z.to_nat (precise - c_rec (fst p)))). unfold pair_work in H. lia.
    - destruct pairs as [|p ps].
      + exists out. intros [|f] _; reflexivity.
      + destruct (cc_step precise p (ps, out)) as [ps' out'] eqn:E.
        pose proof (step_work _ _ _ _ _ _ E) as W.
        destruct (IH ps' out' ltac:(lia)) as (l & Hl). exists l.
        intros [|f] Hf; [lia|]. cbn [cc_loop]. rewrite E. apply Hl. lia.
  Qed.

  Lemma C19_terminates_lemma (z1 z2 : bezier T) (precise : Z) :
    exists l, forall fuel, cc_fuel precise <= fuel -> intersect_cubics fuel z1 z2 precise = Ok l.
  Proof.
    unfold intersect_cubics. cbv zeta. destruct (rect_intersect _ _); cbn [negb].
    2: exists []; auto.
    destruct (cc_loop_done precise (cc_fuel precise)
      [(Cell z1 (rough_rect z1) (n_ofZ 0) (n_ofZ 1) 0, Cell z2 (rough_rect z2) (n_ofZ 0) (n_ofZ 1) 0)] []) as (l & Hl).
    { cbn. unfold pair_work, cc_fuel. cbn [fst c_rec]. replace (precise - 0)%Z with precise by lia. lia. }
    eexists. intros fuel Hf. cbn [c_box]. rewrite (Hl fuel Hf). reflexivity.
  Qed.

  Lemma C19_count_lemma fuel (z1 z2 : bezier T) (precise : Z) l :
    intersect_cubics fuel z1 z2 precise = Ok l ->
    length l <= 9 /\ forall i, In i l -> ip i = point_at z1 (it0 i).
  Proof.
    unfold intersect_cubics. cbv zeta. destruct (rect_intersect _ _); cbn [negb].
    2: { intros E; inversion E; subst. cbn. split; [lia|tauto]. }
    intros E. apply bind_ok in E as (out & _ & E).
    assert (El : l = firstn 9 (map (cc_result z1) (unique_pairs (sort_pairs out)))) by congruence.
    clear E. subst l. split.
    - rewrite firstn_length. lia.
    - intros i Hi.
      assert (Hi2 : In i (map (cc_result z1) (unique_pairs (sort_pairs out)))).
      { rewrite <- (firstn_skipn 9). apply in_or_app. left. exact Hi. }
      apply in_map_iff in Hi2 as (p & <- & _). reflexivity.
  Qed.
End Any.

(** ** Real arithmetic *)
Local Open Scope R_scope.

Definition hw (n : Z) : R := (/ 2) ^ Z.to_nat n.

Record cell_ok (z : bezier R) (D : R) (c : cell R) : Prop := {
  ck_tr : traces (c_bez c) z (c_t0 c) (c_t1 c);
  ck_box : c_box c = rough_rect (c_bez c);
  ck_rec : (0 <= c_rec c)%Z;
  ck_w : c_t1 c - c_t0 c = hw (c_rec c);
  ck_lo : 0 <= c_t0 c;
  ck_hi : c_t1 c <= 1;
  ck_fin : finite_bezier (c_bez c);
  ck_near : near_ctl (c_bez c) (D * hw (c_rec c))
}.

Lemma hw_pos n : 0 < hw n.
Proof. unfold hw. apply pow_lt; lra. Qed.
Lemma hw_succ n : (0 <= n)%Z -> hw (n + 1) = hw n / 2.
Proof. intros H. unfold hw. replace (Z.to_nat (n + 1)) with (S (Z.to_nat n)) by lia. cbn [pow]. lra. Qed.

Lemma abs_half (a b E : R) : Rabs a <= E -> Rabs b <= E -> Rabs ((a + b) / 2) <= E.
Proof.
  intros H1 H2. apply Rabs_le. unfold Rabs in *. destruct (Rcase_abs a), (Rcase_abs b); lra.
Qed.

Lemma near_split z D : near_ctl z D -> near_ctl (fst (bsplit z (1/2))) (D / 2) /\ near_ctl (snd (bsplit z (1/2))) (D / 2).
Proof.
  destruct z as [[x0 y0] [x1 y1] [x2 y2] [x3 y3]].
  unfold near_ctl, bsplit. rn. cbn [fst snd].
  intros ((A0 & A1) & (B0 & B1) & (C0 & C1)).
  assert (M : forall x, Rabs x <= D -> - D <= x <= D) by (intros x Hx; unfold Rabs in Hx; destruct (Rcase_abs x); lra).
  apply M in A0, A1, B0, B1, C0, C1. repeat split; apply Rabs_le; lra.
Qed.

Lemma fin_split z : finite_bezier z -> finite_bezier (fst (bsplit z (1/2))) /\ finite_bezier (snd (bsplit z (1/2))).
Proof.
  destruct z as [[x0 y0] [x1 y1] [x2 y2] [x3 y3]].
  unfold finite_bezier. rewrite !finite_R. unfold bsplit. rn. cbn [fst snd]. intros. repeat split; lra.
Qed.

Lemma subdive_ok z D c o1 o2 : cell_ok z D c -> subdive c = (o1, o2) ->
  cell_ok z D o1 /\ cell_ok z D o2 /\ c_t0 o1 = c_t0 c /\ c_t1 o1 = c_t0 o2 /\ c_t1 o2 = c_t1 c /\
  c_rec o1 = (c_rec c + 1)%Z /\ c_rec o2 = (c_rec c + 1)%Z.
Proof.
  intros [HT HB HR HW HL HH HF HN]. unfold subdive. rops.
  pose proof (C09_lemma (c_bez c) (1/2)) as HS. pose proof (near_split _ _ HN) as [N1 N2].
  pose proof (fin_split _ HF) as [F1 F2].
  destruct (bsplit (c_bez c) (1/2)) as [l r]. cbn [fst snd] in *.
  intros E. inversion E; subst o1 o2; clear E. destruct HS as (T1 & T2 & _).
  pose proof (hw_pos (c_rec c)). pose proof (hw_succ _ HR) as HS.
  split; [|split; [|cbn; repeat split; auto]]; constructor; cbn; auto; try lra; try lia.
  - intros s. rewrite T1, HT. f_equal. field.
  - rewrite HS. replace (D * (hw (c_rec c) / 2)) with (D * hw (c_rec c) / 2) by field. auto.
  - intros s. rewrite T2, HT. f_equal. field.
  - rewrite HS. replace (D * (hw (c_rec c) / 2)) with (D * hw (c_rec c) / 2) by field. auto.
Qed.

Lemma curve_rough z t : finite_bezier z -> 0 <= t <= 1 -> inbox (rough_rect z) (curve z t).
Proof.
  intros HF Ht. unfold rough_rect.
  destruct (C06_lemma [b0 z; b1 z; b2 z; b3 z]) as (_ & HI & _).
  { discriminate. }
  { destruct HF as (?&?&?&?). intros p [<-|[<-|[<-|[<-|[]]]]]; auto. }
  pose proof (HI (b0 z) ltac:(cbn; auto)) as I0. pose proof (HI (b1 z) ltac:(cbn; auto)) as I1.
  pose proof (HI (b2 z) ltac:(cbn; auto)) as I2. pose proof (HI (b3 z) ltac:(cbn; auto)) as I3.
  set (r := rect_from _) in *. clearbody r. unfold inbox in *. rewrite !nle_R in *.
  cbn [curve vx vy].
  pose proof (bern_hull (vx (b0 z)) (vx (b1 z)) (vx (b2 z)) (vx (b3 z)) t (vx (rmin r)) (vx (rmax r)) Ht ltac:(lra) ltac:(lra) ltac:(lra) ltac:(lra)).
  pose proof (bern_hull (vy (b0 z)) (vy (b1 z)) (vy (b2 z)) (vy (b3 z)) t (vy (rmin r)) (vy (rmax r)) Ht ltac:(lra) ltac:(lra) ltac:(lra) ltac:(lra)).
  lra.
Qed.

Lemma rough_wf z : finite_bezier z -> rect_wf (rough_rect z).
Proof.
  intros (?&?&?&?). unfold rough_rect. destruct (C06_lemma [b0 z; b1 z; b2 z; b3 z]) as (HW & _); auto.
  - discriminate.
  - intros p [<-|[<-|[<-|[<-|[]]]]]; auto.
Qed.

(** The point at parameter s of the curve is in the cell's part. *)
Definition holds (s t : R) (p : cpair (T := R)) : Prop :=
  c_t0 (fst p) <= s <= c_t1 (fst p) /\ c_t0 (snd p) <= t <= c_t1 (snd p).

Section Search.
  Variables (z1 z2 : bezier R) (D1 D2 : R) (precise : Z).
  Hypothesis Hprec : (0 <= precise)%Z.

  Record pair_ok (p : cpair (T := R)) : Prop := {
    pk1 : cell_ok z1 D1 (fst p);
    pk2 : cell_ok z2 D2 (snd p);
    pk_rec : c_rec (fst p) = c_rec (snd p)
  }.
  Definition out_ok (p : cpair) : Prop := pair_ok p /\ c_rec (fst p) = (precise + 1)%Z /\
    rect_intersect (c_box (fst p)) (c_box (snd p)) = true.
  Definition in_ok (p : cpair) : Prop := pair_ok p /\ (c_rec (fst p) <= precise)%Z.

  Lemma cell_inbox z D c s : cell_ok z D c -> c_t0 c <= s <= c_t1 c -> inbox (c_box c) (curve z s).
  Proof.
    intros [HT HB HR HW HL HH HF HN] Hs. pose proof (hw_pos (c_rec c)).
    rewrite HB. set (u := (s - c_t0 c) / (c_t1 c - c_t0 c)).
    replace (curve z s) with (curve (c_bez c) u).
    - apply curve_rough; auto. unfold u. split.
      + apply Rmult_le_pos; [lra|]. apply Rlt_le, Rinv_0_lt_compat; lra.
      + apply (Rmult_le_reg_r (c_t1 c - c_t0 c)); [lra|]. unfold Rdiv. rewrite Rmult_assoc, Rinv_l by lra. lra.
    - rewrite HT. f_equal. unfold u. field. lra.
  Qed.

  (** One call of check_func on two cells of the same depth. *)
  Lemma check_ok p0 p1 next out next' out' : pair_ok (p0, p1) -> (c_rec p0 <= precise + 1)%Z ->
    Forall in_ok next -> Forall out_ok out ->
    check_func precise p0 p1 (next, out) = (next', out') ->
    Forall in_ok next' /\ Forall out_ok out' /\ incl next next' /\ incl out out' /\
    (forall s t, curve z1 s = curve z2 t -> holds s t (p0, p1) -> In (p0, p1) next' \/ In (p0, p1) out').
  Proof.
    intros HP HR HN HO. unfold check_func. destruct (rect_intersect (c_box p0) (c_box p1)) eqn:EI.
    - destruct (Z.gtb_spec (c_rec p0) precise) as [G|G]; intros E; inversion E; subst; clear E.
      + split; auto. split.
        { apply Forall_app; split; auto. constructor; auto. split; [|split]; auto. cbn. lia. }
        split; [apply incl_refl|]. split; [apply incl_appl, incl_refl|].
        intros. right. apply in_or_app. right. left; auto.
      + split; [constructor; auto; split; auto|]. split; auto.
        split; [apply incl_tl, incl_refl|]. split; [apply incl_refl|].
        intros. left. left; auto.
    - intros E; inversion E; subst; clear E. split; auto. split; auto. split; [apply incl_refl|]. split; [apply incl_refl|].
      intros s t EC [H1 H2]. exfalso. destruct HP as [K1 K2 _]. cbn [fst snd] in *.
      assert (rect_intersect (c_box p0) (c_box p1) = true); [|congruence].
      apply C07_lemma.
      + rewrite (ck_box _ _ _ K1). apply rough_wf, (ck_fin _ _ _ K1).
      + rewrite (ck_box _ _ _ K2). apply rough_wf, (ck_fin _ _ _ K2).
      + exists (curve z1 s). split; [split; exact I|]. split.
        * eapply cell_inbox; eauto.
        * rewrite EC. eapply cell_inbox; eauto.
  Qed.

  Lemma step_ok back rest out pairs' out' : in_ok back -> Forall in_ok rest -> Forall out_ok out ->
    cc_step precise back (rest, out) = (pairs', out') ->
    Forall in_ok pairs' /\ Forall out_ok out' /\ incl rest pairs' /\ incl out out' /\
    (forall s t, curve z1 s = curve z2 t -> holds s t back ->
       exists p, holds s t p /\ (In p pairs' \/ In p out')).
  Proof.
    intros [[K1 K2 KR] KB] HN HO. unfold cc_step.
    destruct (subdive (fst back)) as [p11 p12] eqn:S1. destruct (subdive (snd back)) as [p21 p22] eqn:S2.
    destruct (subdive_ok _ _ _ _ _ K1 S1) as (A1 & A2 & A3 & A4 & A5 & A6 & A7).
    destruct (subdive_ok _ _ _ _ _ K2 S2) as (B1 & B2 & B3 & B4 & B5 & B6 & B7).
    destruct (check_func precise p11 p21 (rest, out)) as [n1 u1] eqn:E1.
    destruct (check_func precise p11 p22 (n1, u1)) as [n2 u2] eqn:E2.
    destruct (check_func precise p12 p21 (n2, u2)) as [n3 u3] eqn:E3.
    intros E4.
    destruct (check_ok _ _ _ _ _ _ (Build_pair_ok (p11, p21) A1 B1 ltac:(cbn [fst snd]; congruence)) ltac:(rewrite A6; lia) HN HO E1) as (F1 & G1 & I1 & J1 & C1).
    destruct (check_ok _ _ _ _ _ _ (Build_pair_ok (p11, p22) A1 B2 ltac:(cbn [fst snd]; congruence)) ltac:(rewrite A6; lia) F1 G1 E2) as (F2 & G2 & I2 & J2 & C2).
    destruct (check_ok _ _ _ _ _ _ (Build_pair_ok (p12, p21) A2 B1 ltac:(cbn [fst snd]; congruence)) ltac:(rewrite A7; lia) F2 G2 E3) as (F3 & G3 & I3 & J3 & C3).
    destruct (check_ok _ _ _ _ _ _ (Build_pair_ok (p12, p22) A2 B2 ltac:(cbn [fst snd]; congruence)) ltac:(rewrite A7; lia) F3 G3 E4) as (F4 & G4 & I4 & J4 & C4).
    split; auto. split; auto. split; [eauto using incl_tran|]. split; [eauto using incl_tran|].
    intros s t EC [H1 H2].
    destruct (Rle_dec s (c_t1 p11)) as [L1|L1]; destruct (Rle_dec t (c_t1 p21)) as [L2|L2].
    - assert (HH : holds s t (p11, p21)) by (unfold holds; cbn [fst snd]; lra).
      exists (p11, p21). split; auto. destruct (C1 s t EC HH) as [Q|Q]; [left|right]; auto.
    - assert (HH : holds s t (p11, p22)) by (unfold holds; cbn [fst snd]; lra).
      exists (p11, p22). split; auto. destruct (C2 s t EC HH) as [Q|Q]; [left|right]; auto.
    - assert (HH : holds s t (p12, p21)) by (unfold holds; cbn [fst snd]; lra).
      exists (p12, p21). split; auto. destruct (C3 s t EC HH) as [Q|Q]; [left|right]; auto.
    - assert (HH : holds s t (p12, p22)) by (unfold holds; cbn [fst snd]; lra).
      exists (p12, p22). split; auto. exact (C4 s t EC HH).
  Qed.

  Lemma loop_ok fuel : forall pairs out l, Forall in_ok pairs -> Forall out_ok out ->
    cc_loop fuel precise pairs out = Ok l ->
    Forall out_ok l /\ incl out l /\
    (forall s t p, curve z1 s = curve z2 t -> holds s t p -> In p pairs \/ In p out ->
       exists q, holds s t q /\ In q l).
  Proof.
    induction fuel as [|fuel IH]; intros [|back rest] out l HN HO E; cbn [cc_loop] in E; try discriminate.
    - inversion E; subst. split; auto. split; [apply incl_refl|]. intros s t p EC HH [[]|HI]; eauto.
    - inversion E; subst. split; auto. split; [apply incl_refl|]. intros s t p EC HH [[]|HI]; eauto.
    - destruct (cc_step precise back (rest, out)) as [ps' out'] eqn:ES.
      inversion HN; subst.
      destruct (step_ok _ _ _ _ _ H1 H2 HO ES) as (F & G & I1 & J1 & C).
      destruct (IH _ _ _ F G E) as (F' & J' & C').
      split; auto. split; [eauto using incl_tran|].
      intros s t p EC HH [[<-|HI]|HI].
      + destruct (C s t EC HH) as (q & Hq & HI). eapply C'; eauto.
      + apply (C' s t p); auto.
      + apply (C' s t p); auto.
  Qed.
End Search.

(** Sorting and thinning out *)
Lemma insert_pair_in (x p : cpair (T := R)) l : In p (insert_pair x l) <-> p = x \/ In p l.
Proof.
  induction l as [|y l IH]; cbn [insert_pair].
  - cbn. intuition.
  - destruct (n_ltb _ _); cbn; [intuition|]. rewrite IH. intuition.
Qed.
Lemma sort_pairs_in (p : cpair (T := R)) l : In p (sort_pairs l) <-> In p l.
Proof.
  unfold sort_pairs. assert (G : forall acc, In p (fold_left (fun acc x => insert_pair x acc) l acc) <-> In p l \/ In p acc).
  { induction l as [|x l IH]; intros acc; cbn [fold_left]; [cbn; intuition|].
    rewrite IH, insert_pair_in. cbn. intuition. }
  rewrite G. cbn. intuition.
Qed.

Definition key (p : cpair (T := R)) : R := c_t0 (fst p).
Lemma unique_from_in l : forall last p, In p l -> exists q, (q = last \/ In q (unique_from last l)) /\
  Rabs (key q - key p) < / 100000000.
Proof.
  induction l as [|x l IH]; intros last p HI; [contradiction|]. cbn [unique_from]. rops.
  destruct (Rltb _ _) eqn:E.
  - destruct HI as [<-|HI].
    + apply Rltb_true in E. exists last. split; auto. unfold err8 in E. rops. unfold key. lra.
    + apply IH; auto.
  - destruct HI as [<-|HI].
    + exists x. split; [right; left; auto|]. rewrite Rminus_diag_eq, Rabs_R0 by auto. lra.
    + destruct (IH x p HI) as (q & [->|Hq] & K).
      * exists x. split; auto. right; left; auto.
      * exists q. split; auto. right; right; auto.
Qed.
Lemma unique_pairs_in l p : In p l -> exists q, In q (unique_pairs l) /\ Rabs (key q - key p) < / 100000000.
Proof.
  destruct l as [|x l]; [intros []|]. intros [<-|HI].
  - exists x. split; [left; auto|]. rewrite Rminus_diag_eq, Rabs_R0 by auto. lra.
  - destruct (unique_from_in l x p HI) as (q & [->|Hq] & K); [exists x|exists q]; split; cbn; auto.
Qed.
Lemma unique_from_sub l : forall last p, In p (unique_from last l) -> In p l.
Proof.
  induction l as [|x l IH]; intros last p; cbn [unique_from]; auto.
  destruct (n_ltb _ _); cbn; [eauto|]. intros [<-|H]; eauto.
Qed.
Lemma unique_pairs_sub l p : In p (unique_pairs l) -> In p l.
Proof. destruct l as [|x l]; cbn; auto. intros [<-|H]; eauto using unique_from_sub. Qed.

Lemma near_exists z : exists D, near_ctl z D.
Proof.
  exists (Rabs (vx (b1 z) - vx (b0 z)) + Rabs (vy (b1 z) - vy (b0 z)) +
          Rabs (vx (b2 z) - vx (b1 z)) + Rabs (vy (b2 z) - vy (b1 z)) +
          Rabs (vx (b3 z) - vx (b2 z)) + Rabs (vy (b3 z) - vy (b2 z))).
  unfold near_ctl.
  pose proof (Rabs_pos (vx (b1 z) - vx (b0 z))). pose proof (Rabs_pos (vy (b1 z) - vy (b0 z))).
  pose proof (Rabs_pos (vx (b2 z) - vx (b1 z))). pose proof (Rabs_pos (vy (b2 z) - vy (b1 z))).
  pose proof (Rabs_pos (vx (b3 z) - vx (b2 z))). pose proof (Rabs_pos (vy (b3 z) - vy (b2 z))).
  repeat split; lra.
Qed.

Lemma start_ok z D : finite_bezier z -> near_ctl z D -> cell_ok z D (Cell z (rough_rect z) 0 1 0).
Proof.
  intros HF HN. constructor; cbn [c_bez c_box c_t0 c_t1 c_rec]; auto; try lra; try lia.
  - intros s. f_equal. ring.
  - unfold hw. cbn. lra.
  - unfold hw. cbn. rewrite Rmult_1_r. auto.
Qed.

Lemma search_result fuel z1 z2 precise l D1 D2 : (0 <= precise)%Z ->
  finite_bezier z1 -> finite_bezier z2 -> near_ctl z1 D1 -> near_ctl z2 D2 ->
  intersect_cubics fuel z1 z2 precise = Ok l ->
  exists out, Forall (out_ok z1 z2 D1 D2 precise) out /\
    l = firstn 9 (map (cc_result z1) (unique_pairs (sort_pairs out))) /\
    (forall s t, 0 <= s <= 1 -> 0 <= t <= 1 -> curve z1 s = curve z2 t -> exists q, holds s t q /\ In q out).
Proof.
  intros Hp F1 F2 N1 N2. unfold intersect_cubics. cbv zeta. cbn [c_box]. rops.
  pose proof (start_ok _ _ F1 N1) as S1. pose proof (start_ok _ _ F2 N2) as S2.
  set (c1 := Cell z1 _ _ _ _) in *. set (c2 := Cell z2 _ _ _ _) in *.
  destruct (rect_intersect (rough_rect z1) (rough_rect z2)) eqn:EI; cbn [negb].
  - intros E. apply bind_ok in E as (out & EL & E).
    assert (El : l = firstn 9 (map (cc_result z1) (unique_pairs (sort_pairs out)))) by congruence.
    clear E. exists out.
    assert (IN : Forall (in_ok z1 z2 D1 D2 precise) [(c1, c2)]).
    { constructor; auto. split; [constructor; auto|cbn; lia]. }
    destruct (loop_ok _ _ _ _ _ _ _ _ _ IN (Forall_nil _) EL) as (F & _ & C).
    split; auto. split; auto. intros s t Hs Ht EC.
    apply (C s t (c1, c2)); auto; [|left; left; auto]. unfold holds; cbn. lra.
  - intros E; inversion E; subst. exists []. split; [constructor|]. split; [reflexivity|].
    intros s t Hs Ht EC. exfalso.
    assert (rect_intersect (rough_rect z1) (rough_rect z2) = true); [|congruence].
    apply C07_lemma; auto using rough_wf. exists (curve z1 s). split; [split; exact I|].
    split; [apply curve_rough; auto|]. rewrite EC. apply curve_rough; auto.
Qed.

Lemma box_diam z D p q : finite_bezier z -> near_ctl z D ->
  inbox (rough_rect z) p -> inbox (rough_rect z) q ->
  Rabs (vx p - vx q) <= 3 * D /\ Rabs (vy p - vy q) <= 3 * D.
Proof.
  intros HF HN. unfold rough_rect.
  destruct HF as (G0 & G1 & G2 & G3).
  destruct (C06_lemma [b0 z; b1 z; b2 z; b3 z]) as (_ & _ & HM).
  { discriminate. }
  { intros u [<-|[<-|[<-|[<-|[]]]]]; auto. }
  set (r := rect_from _) in *.
  set (bx := Rect (V2 (Rmin (Rmin (vx (b0 z)) (vx (b1 z))) (Rmin (vx (b2 z)) (vx (b3 z))))
                      (Rmin (Rmin (vy (b0 z)) (vy (b1 z))) (Rmin (vy (b2 z)) (vy (b3 z)))))
                  (V2 (Rmax (Rmax (vx (b0 z)) (vx (b1 z))) (Rmax (vx (b2 z)) (vx (b3 z))))
                      (Rmax (Rmax (vy (b0 z)) (vy (b1 z))) (Rmax (vy (b2 z)) (vy (b3 z)))))).
  assert (B : rect_le r bx).
  { apply HM; [repeat split; exact I|]. intros u Hu. unfold inbox. rewrite !nle_R. cbn [bx rmin rmax vx vy].
    destruct Hu as [<-|[<-|[<-|[<-|[]]]]]; unfold Rmin, Rmax; repeat destruct (Rle_dec _ _); lra. }
  clear HM. clearbody r. unfold rect_le in B. rewrite !nle_R in B. cbn [bx rmin rmax vx vy] in B. clear bx.
  unfold inbox. rewrite !nle_R. intros (P1 & P2 & P3 & P4) (Q1 & Q2 & Q3 & Q4).
  destruct HN as ((A1 & A2) & (B1 & B2) & (C1 & C2)). destruct B as (V1 & V2 & V3 & V4).
  assert (W : forall a b c d, Rabs (b - a) <= D -> Rabs (c - b) <= D -> Rabs (d - c) <= D ->
     Rmax (Rmax a b) (Rmax c d) - Rmin (Rmin a b) (Rmin c d) <= 3 * D).
  { intros a b c d H1 H2 H3.
    assert (M : forall x, Rabs x <= D -> - D <= x <= D) by (intros x Hx; unfold Rabs in Hx; destruct (Rcase_abs x); lra).
    apply M in H1, H2, H3. unfold Rmin, Rmax. repeat destruct (Rle_dec _ _); lra. }
  pose proof (W _ _ _ _ A1 B1 C1). pose proof (W _ _ _ _ A2 B2 C2).
  split; apply Rabs_le; lra.
Qed.

(** Each result: parameters in [0,1], and the two curve points close together. *)
Lemma C19_sound_lemma fuel z1 z2 precise l D1 D2 : (0 <= precise)%Z ->
  finite_bezier z1 -> finite_bezier z2 -> near_ctl z1 D1 -> near_ctl z2 D2 ->
  intersect_cubics fuel z1 z2 precise = Ok l ->
  forall i, In i l -> 0 <= it0 i <= 1 /\ 0 <= it1 i <= 1 /\ ip i = curve z1 (it0 i) /\
    let e := 3 * (D1 + D2) * (/ 2) ^ Z.to_nat (precise + 1) in
    Rabs (vx (curve z1 (it0 i)) - vx (curve z2 (it1 i))) <= e /\
    Rabs (vy (curve z1 (it0 i)) - vy (curve z2 (it1 i))) <= e.
Proof.
  intros Hp F1 F2 N1 N2 E i Hi.
  destruct (search_result _ _ _ _ _ _ _ Hp F1 F2 N1 N2 E) as (out & FO & -> & _).
  assert (Hi2 : In i (map (cc_result z1) (unique_pairs (sort_pairs out)))).
  { rewrite <- (firstn_skipn 9). apply in_or_app. left. exact Hi. }
  apply in_map_iff in Hi2 as (p & <- & Hp2). apply unique_pairs_sub in Hp2. rewrite sort_pairs_in in Hp2.
  rewrite Forall_forall in FO. destruct (FO p Hp2) as ([K1 K2 KR] & KE & KI).
  pose proof (ck_w _ _ _ K1) as W1. pose proof (ck_w _ _ _ K2) as W2.
  pose proof (hw_pos (c_rec (fst p))). pose proof (hw_pos (c_rec (snd p))).
  pose proof (ck_lo _ _ _ K1). pose proof (ck_hi _ _ _ K1). pose proof (ck_lo _ _ _ K2). pose proof (ck_hi _ _ _ K2).
  cbn [cc_result it0 it1 ip]. rops. set (s := (c_t0 (fst p) + c_t1 (fst p)) / 2). set (t := (c_t0 (snd p) + c_t1 (snd p)) / 2).
  split; [unfold s; lra|]. split; [unfold t; lra|]. split; [apply point_at_curve|].
  assert (I1 : inbox (c_box (fst p)) (curve z1 s)) by (eapply cell_inbox; eauto; unfold s; lra).
  assert (I2 : inbox (c_box (snd p)) (curve z2 t)) by (eapply cell_inbox; eauto; unfold t; lra).
  rewrite (ck_box _ _ _ K1) in I1, KI. rewrite (ck_box _ _ _ K2) in I2, KI.
  apply C07_lemma in KI as (w & _ & J1 & J2); [|apply rough_wf, (ck_fin _ _ _ K1)|apply rough_wf, (ck_fin _ _ _ K2)].
  pose proof (box_diam _ _ _ _ (ck_fin _ _ _ K1) (ck_near _ _ _ K1) I1 J1) as [A1 A2].
  pose proof (box_diam _ _ _ _ (ck_fin _ _ _ K2) (ck_near _ _ _ K2) J2 I2) as [B1 B2].
  assert (E1 : hw (c_rec (fst p)) = (/ 2) ^ Z.to_nat (precise + 1)) by (rewrite KE; reflexivity).
  assert (E2 : hw (c_rec (snd p)) = (/ 2) ^ Z.to_nat (precise + 1)) by (rewrite <- KR, KE; reflexivity).
  rewrite E1 in A1, A2. rewrite E2 in B1, B2. cbv zeta.
  set (h := (/ 2) ^ Z.to_nat (precise + 1)) in *. clearbody h.
  pose proof (Rabs_triang (vx (curve z1 s) - vx w) (vx w - vx (curve z2 t))) as T1.
  pose proof (Rabs_triang (vy (curve z1 s) - vy w) (vy w - vy (curve z2 t))) as T2.
  replace (vx (curve z1 s) - vx w + (vx w - vx (curve z2 t))) with (vx (curve z1 s) - vx (curve z2 t)) in T1 by ring.
  replace (vy (curve z1 s) - vy w + (vy w - vy (curve z2 t))) with (vy (curve z1 s) - vy (curve z2 t)) in T2 by ring.
  lra.
Qed.

(** Fewer than nine results: every common point is reported, to within the
    cell size plus the merging tolerance in the first parameter. *)
Lemma C19_complete_lemma fuel z1 z2 precise l s t : (0 <= precise)%Z ->
  finite_bezier z1 -> finite_bezier z2 ->
  intersect_cubics fuel z1 z2 precise = Ok l -> (length l < 9)%nat ->
  0 <= s <= 1 -> 0 <= t <= 1 -> curve z1 s = curve z2 t ->
  exists i, In i l /\ Rabs (it0 i - s) <= (/ 2) ^ Z.to_nat (precise + 1) + / 100000000.
Proof.
  intros Hp F1 F2 E HL Hs Ht EC. destruct (near_exists z1) as (D1 & N1). destruct (near_exists z2) as (D2 & N2).
  destruct (search_result _ _ _ _ _ _ _ Hp F1 F2 N1 N2 E) as (out & FO & El & C).
  destruct (C s t Hs Ht EC) as (p & [HH _] & HI).
  assert (HI2 : In p (sort_pairs out)) by (apply sort_pairs_in; auto).
  destruct (unique_pairs_in _ _ HI2) as (q & Hq & K).
  assert (Ho : In q out) by (rewrite <- sort_pairs_in; apply unique_pairs_sub; auto).
  rewrite firstn_all2 in El.
  2: { subst l. rewrite firstn_length in HL. lia. }
  exists (cc_result z1 q). split; [subst l; apply in_map; auto|].
  rewrite Forall_forall in FO. destruct (FO p HI) as ([P1 _ _] & PE & _). destruct (FO q Ho) as ([Q1 _ _] & QE & _).
  pose proof (ck_w _ _ _ P1) as W1. pose proof (ck_w _ _ _ Q1) as W2. rewrite PE in W1. rewrite QE in W2.
  pose proof (hw_pos (precise + 1)). unfold hw in *.
  set (h := (/ 2) ^ Z.to_nat (precise + 1)) in *. clearbody h.
  unfold key in K. cbn [cc_result it0]. rops. apply Rabs_le. unfold Rabs in K. destruct (Rcase_abs _); lra.
Qed.

(** The candidates, before equal ones are dropped and the list is cut to nine. *)
Lemma C19_candidates_lemma fuel z1 z2 precise l s t : (0 <= precise)%Z ->
  finite_bezier z1 -> finite_bezier z2 ->
  intersect_cubics fuel z1 z2 precise = Ok l ->
  0 <= s <= 1 -> 0 <= t <= 1 -> curve z1 s = curve z2 t ->
  exists out c1 c2,
    cc_loop fuel precise [(Cell z1 (rough_rect z1) 0 1 0%Z, Cell z2 (rough_rect z2) 0 1 0%Z)] [] = Ok out /\
    In (c1, c2) out /\ c_t0 c1 <= s <= c_t1 c1 /\ c_t0 c2 <= t <= c_t1 c2 /\
    c_t1 c1 - c_t0 c1 = (/ 2) ^ Z.to_nat (precise + 1) /\ c_t1 c2 - c_t0 c2 = (/ 2) ^ Z.to_nat (precise + 1).
Proof.
  intros Hp F1 F2 E Hs Ht EC. destruct (near_exists z1) as (D1 & N1). destruct (near_exists z2) as (D2 & N2).
  revert E. unfold intersect_cubics. cbv zeta. cbn [c_box]. rops.
  pose proof (start_ok _ _ F1 N1) as S1. pose proof (start_ok _ _ F2 N2) as S2.
  set (c1 := Cell z1 _ _ _ _) in *. set (c2 := Cell z2 _ _ _ _) in *.
  assert (EI : rect_intersect (rough_rect z1) (rough_rect z2) = true).
  { apply C07_lemma; auto using rough_wf. exists (curve z1 s). split; [split; exact I|].
    split; [apply curve_rough; auto|]. rewrite EC. apply curve_rough; auto. }
  rewrite EI. cbn [negb]. intros E. apply bind_ok in E as (out & EL & _).
  assert (IN : Forall (in_ok z1 z2 D1 D2 precise) [(c1, c2)]).
  { constructor; auto. split; [constructor; auto|cbn; lia]. }
  destruct (loop_ok _ _ _ _ _ _ _ _ _ IN (Forall_nil _) EL) as (F & _ & C).
  destruct (C s t (c1, c2)) as ([p q] & [H1 H2] & HI); auto; [unfold holds; cbn; lra|left; left; auto|].
  exists out, p, q. rewrite Forall_forall in F. destruct (F _ HI) as ([P1 P2 P3] & PE & _). cbn [fst snd] in *.
  pose proof (ck_w _ _ _ P1) as W1. pose proof (ck_w _ _ _ P2) as W2. rewrite <- P3, PE in W2. rewrite PE in W1. unfold hw in *. repeat split; auto; lra.
Qed.
