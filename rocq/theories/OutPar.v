(** Which edges are kept, counted from the left. *)
From Coq Require Import ZArith Bool List Reals Lra Lia Permutation Sorted.
From Verif Require Import Outcome Num Order OrdTac Rmath RTac Segment VState VAel VOut VMain VLemmas VFrame AelSpec VAelProofs VEdges VAelRun VRun
  ClipSpec WindSpec VWind VKept VPairs PlaneSpec PlaneTop PlaneCount PlaneWind OutSpec OutPath OutAlt OutList OutClose OutTop OutBeam.
Import ListNotations.
Local Open Scope Z_scope.
Local Open Scope out.
Implicit Types s : clipper R.

(** *** Lists with the same parities from the left *)
Definition tally (X : nat -> R) (l : list nat) (x : R) : nat := length (filter (fun i => Reqb (X i) x) l).
Lemma tally_cons X a l x : tally X (a :: l) x = ((if Reqb (X a) x then 1 else 0) + tally X l x)%nat.
Proof. unfold tally. cbn. destruct (Reqb (X a) x); reflexivity. Qed.
Lemma below_step X l x x0 : (x < x0)%R -> (forall i, In i l -> (x < X i)%R -> (x0 <= X i)%R) -> below X l x0 = (below X l x + tally X l x)%nat.
Proof.
  intros L H. induction l as [|a l IH]; auto. rewrite !below_cons, tally_cons, IH by (intros i Hi; apply H; now right). specialize (H a (or_introl eq_refl)).
  destruct (Rltb (X a) x0) eqn:Q1, (Rltb (X a) x) eqn:Q2, (Reqb (X a) x) eqn:Q3; rbool; try lia; exfalso; try lra.
Qed.
Lemma par_tally X E X' B x : par X E X' B -> Nat.odd (tally X E x) = Nat.odd (tally X' B x).
Proof.
  intros H. destruct (gap_above (filter (fun r => Rltb x r) (map X E ++ map X' B)) x) as (x0 & L & G).
  { intros r Hr. apply filter_In in Hr as [_ Hr]. now rbool. }
  assert (K : forall Z l, (forall i, In i l -> In (Z i) (map X E ++ map X' B)) -> below Z l x0 = (below Z l x + tally Z l x)%nat).
  { intros Z l I. apply below_step; auto. intros i Hi Li. apply G. apply filter_In. split; auto. now apply Rltb_true. }
  pose proof (H x0) as H0. rewrite !K in H0 by (intros i Hi; apply in_or_app; auto using in_map).
  specialize (H x). rewrite !Nat.odd_add in H0. rewrite H in H0. destruct (Nat.odd (below X' B x)), (Nat.odd (tally X E x)), (Nat.odd (tally X' B x)); cbn in H0; congruence.
Qed.
Lemma tally_alone X l i : NoDup l -> (forall j, In j l -> j <> i -> X j <> X i) -> tally X l (X i) = if in_dec Nat.eq_dec i l then 1%nat else 0%nat.
Proof.
  intros ND A. induction l as [|a l IH]; [reflexivity|]. apply NoDup_cons_iff in ND as [N1 N2]. rewrite tally_cons, IH by (auto; intros j Hj; apply A; now right).
  destruct (Nat.eq_dec a i) as [->|NE].
  - rewrite (proj2 (Reqb_true _ _) eq_refl). destruct (in_dec Nat.eq_dec i l); [contradiction|]. destruct (in_dec Nat.eq_dec i (i :: l)) as [|N]; [reflexivity|elim N; now left].
  - rewrite (proj2 (Reqb_false _ _) (A a (or_introl eq_refl) NE)). destruct (in_dec Nat.eq_dec i l), (in_dec Nat.eq_dec i (a :: l)) as [K|K]; cbn in K; intuition.
Qed.
Lemma par_same X E X' B i : par X E X' B -> X i = X' i -> NoDup E -> NoDup B -> (forall j, In j E -> j <> i -> X j <> X i) -> (forall j, In j B -> j <> i -> X' j <> X' i) -> (In i E <-> In i B).
Proof.
  intros P Q N1 N2 A1 A2. pose proof (par_tally X E X' B (X i) P) as K. rewrite tally_alone in K by auto. rewrite Q in K. rewrite tally_alone in K by auto.
  destruct (in_dec Nat.eq_dec i E), (in_dec Nat.eq_dec i B); cbn in K; try discriminate; tauto.
Qed.
(** Strictly ordered on both sides: the same positions. *)
Lemma par_strict X E : forall X' B, upward X E -> upward X' B -> NoDup E -> NoDup B -> (forall e f, In e E -> In f E -> e <> f -> X e <> X f) -> (forall a b, In a B -> In b B -> a <> b -> X' a <> X' b) ->
  par X E X' B -> Forall2 (fun e b => X e = X' b) E B.
Proof.
  induction E as [|e E IH]; intros X' B U1 U2 N1 N2 S1 S2 P.
  - apply par_sym, par_nil in P as [->|(a & b & B' & -> & Q)]; [constructor| |auto]. exfalso. apply NoDup_cons_iff in N2 as [N _].
    apply (S2 a b); cbn; auto. intros ->. apply N. now left.
  - destruct B as [|b B].
    + exfalso. apply par_nil in P as [P|(a & f & E' & P & Q)]; auto; [discriminate|]. injection P as <- ->. apply NoDup_cons_iff in N1 as [N _].
      apply (S1 e f); cbn; auto. intros ->. apply N. now left.
    + pose proof U1 as U1'. pose proof U2 as U2'. apply upward_tail in U1 as [U1 L1]. apply upward_tail in U2 as [U2 L2]. pose proof N1 as N1'. pose proof N2 as N2'. apply NoDup_cons_iff in N1 as [N1 M1]. apply NoDup_cons_iff in N2 as [N2 M2].
      assert (Q : X e = X' b).
      { destruct (Rtotal_order (X e) (X' b)) as [L|[L|L]]; auto; exfalso.
        - destruct (par_second X e E X' (b :: B)) as (f & E' & -> & Q & _); auto; [intros c [<-|Hc]; [auto|specialize (L2 c Hc); lra]|].
          apply (S1 e f); cbn; auto. intros ->. apply N1. now left.
        - apply par_sym in P. destruct (par_second X' b B X (e :: E)) as (f & E' & -> & Q & _); auto; [intros c [<-|Hc]; [auto|specialize (L1 c Hc); lra]|].
          apply (S2 b f); cbn; auto. intros ->. apply N2. now left. }
      constructor; auto. apply IH; auto.
      * intros a c Ha Hc. apply S1; now right.
      * intros a c Ha Hc. apply S2; now right.
      * eapply par_both; eauto.
Qed.

(** *** Kept edges *)
Lemma kept_split s a : forall b k, kept s (a ++ b) k -> exists ka kb, k = ka ++ kb /\ kept s a ka /\ kept s b kb.
Proof.
  induction a as [|i a IH]; cbn; intros b k H; [exists [], k; csplit; auto; constructor|]. inversion H as [|? ? k0 e E C H'|? ? k0 e E C H']; subst.
  - destruct (IH _ _ H') as (ka & kb & -> & A & B). exists (i :: ka), kb. csplit; auto. eapply kept_yes; eauto.
  - destruct (IH _ _ H') as (ka & kb & -> & A & B). exists ka, kb. csplit; auto. eapply kept_no; eauto.
Qed.
Lemma kept_in s l k : kept s l k -> forall i, In i k -> In i l.
Proof. induction 1; cbn; intros j; auto; intros [->|H2]; auto. Qed.
Lemma kept_nodup s l k : kept s l k -> NoDup l -> NoDup k.
Proof. induction 1; intros N; auto; apply NoDup_cons_iff in N as [N1 N2]; auto. constructor; auto. intros K. apply N1. eapply kept_in; eauto. Qed.
Lemma kept_up X s l k : kept s l k -> upward X l -> upward X k.
Proof.
  unfold upward. induction 1 as [|i l k e E C H IH|i l k e E C H IH]; intros U; auto; inversion U as [|? ? U1 U2]; subst; auto. constructor; auto.
  rewrite Forall_forall in *. intros j Hj. apply U1. eapply kept_in; eauto.
Qed.
Lemma kept_rel (Q : edge R -> edge R -> Prop) s s' l k : (forall e f, Q e f -> e_cnt f = e_cnt e /\ e_cnt2 f = e_cnt2 e /\ e_lmin f = e_lmin e) -> erel Q (edges s) (edges s') ->
  lmins s' = lmins s -> cop s' = cop s -> cfill s' = cfill s -> kept s l k -> kept s' l k.
Proof.
  intros K ER L C F. assert (IC : forall e f, Q e f -> is_contributing s' f = is_contributing s e).
  { intros e f H. destruct (K e f H) as (A & B & D). unfold is_contributing, get_polytype. now rewrite A, B, D, L, C, F. }
  induction 1 as [|i l k e E X H IH|i l k e E X H IH]; [constructor| |]; destruct (proj2 ER i e E) as (f & G & QF); [eapply kept_yes|eapply kept_no]; eauto; rewrite (IC e f QF); auto.
Qed.
(** The point at [x] belongs to the result if an odd number of kept edges is left of it. *)
Definition inside lms op fill es X l x : bool := bool_op op (in_fill fill (left_sum X (wtof lms es subject) l x)) (in_fill fill (left_sum X (wtof lms es clip) l x)).
Lemma cut_sum X W l1 l2 x : (forall i, In i l1 -> (X i < x)%R) -> (forall i, In i l2 -> (x <= X i)%R) -> left_sum X W (l1 ++ l2) x = zsum W l1.
Proof.
  intros A B. unfold left_sum. rewrite zsum_app, (zsum_0 _ l2), Z.add_0_r.
  - apply zsum_ext. intros i Hi. unfold before_x. rewrite (proj2 (Rltb_true _ _)); auto.
  - intros i Hi. unfold before_x. rewrite (proj2 (Rltb_false _ _)); auto.
Qed.
Lemma cut_below X l1 l2 x : (forall i, In i l1 -> (X i < x)%R) -> (forall i, In i l2 -> (x <= X i)%R) -> below X (l1 ++ l2) x = length l1.
Proof.
  intros A B. rewrite below_app, (below_none X l2), Nat.add_0_r by auto. induction l1 as [|a l IH]; auto. rewrite below_cons, IH by (intros i Hi; apply A; now right).
  rewrite (proj2 (Rltb_true _ _)); [reflexivity|]. apply A. now left.
Qed.
Lemma below_kept lms X s l k x : lmins s = lms -> directed s l -> all_counted (cfill s) s l -> kept s l k -> upward X l ->
  Nat.odd (below X k x) = inside lms (cop s) (cfill s) (edges s) X l x.
Proof.
  intros HL D C K U. destruct (fop_split X x l U) as (l1 & l2 & -> & A & B). destruct (kept_split _ _ _ _ K) as (k1 & k2 & -> & K1 & K2).
  assert (D1 : directed s l1) by (apply directed_app in D as [D _]; exact D).
  destruct (kept_parity s l1 D1 (all_counted_prefix _ _ _ _ C)) as (k1' & K1' & (w & v & W & W' & E)). rewrite (kept_fun _ _ _ K1 _ K1') in *.
  rewrite cut_below. 2, 3: intros i Hi; eapply kept_in in Hi; eauto. rewrite E. unfold inside. rewrite !cut_sum by auto.
  now rewrite (wind_sum lms s subject l1 w HL W), (wind_sum lms s clip l1 v HL W').
Qed.
Lemma alt_sum D l : forall d, altf D d l -> zsum D l = if Nat.odd (length l) then d else 0.
Proof.
  induction l as [|i l IH]; intros d H; [reflexivity|]. cbn [altf] in H. destruct H as [H1 H2]. rewrite zsum_cons, H1, (IH _ H2). cbn [length]. rewrite Nat.odd_succ, <- Nat.negb_odd.
  destruct (Nat.odd (length l)); cbn; lia.
Qed.
(** Alternating directions left of [x]. *)
Lemma alt_left X D d l x : upward X l -> altf D d l -> left_sum X D l x = if Nat.odd (below X l x) then d else 0.
Proof.
  intros U A. destruct (fop_split X x l U) as (l1 & l2 & -> & L1 & L2). rewrite cut_sum, cut_below by auto. apply altf_app in A as [A _]. now apply alt_sum.
Qed.
Lemma alt_altf es d l : alt es d l -> altf (edx es) d l.
Proof. revert d. induction l as [|i l IH]; intros d; cbn; auto. intros ((e & E & Q) & A). split; auto. unfold edx. now rewrite E. Qed.
Lemma zsum_split {A} (f : A -> Z) (p : A -> bool) l : zsum f l = zsum (fun a => if p a then f a else 0) l + zsum f (filter (fun a => negb (p a)) l).
Proof. induction l as [|a l IH]; [reflexivity|]. cbn [filter]. rewrite !zsum_cons, IH. destruct (p a); cbn [negb]; rewrite ?zsum_cons; lia. Qed.
