(** The paths of the output polygons while they grow. *)
From Coq Require Import ZArith Bool List Reals Lra Lia Permutation.
From Verif Require Import Outcome Num Rmath RTac Segment VState VAel VOut VMain VLemmas PlaneSpec PlaneCount OutSpec.
Import ListNotations.
Local Open Scope Z_scope.
Local Open Scope out.

(** *** Following a list of segments *)
Notation side := (vec2 R * vec2 R)%type.
Definition goes (a : vec2 R) (gs : list (seg R)) : vec2 R := fold_left (fun _ g => seg_target g) gs a.
Fixpoint trail (a : vec2 R) (gs : list (seg R)) : list side :=
  match gs with [] => [] | g :: r => (a, seg_target g) :: trail (seg_target g) r end.
Definition straight (g : seg R) : Prop := exists p, g = SLine p.
Lemma goes_app a g h : goes a (g ++ h) = goes (goes a g) h.
Proof. apply fold_left_app. Qed.
Lemma trail_app g : forall a h, trail a (g ++ h) = trail a g ++ trail (goes a g) h.
Proof. induction g as [|x g IH]; intros a h; cbn; [reflexivity|]. now rewrite IH. Qed.
Lemma winding_app S S' x z : winding (S ++ S') x z = winding S x z + winding S' x z.
Proof. unfold winding. induction S as [|a S IH]; cbn [app map fold_right]; [reflexivity|]. rewrite IH. lia. Qed.
Lemma winding_nil x z : winding [] x z = 0.
Proof. reflexivity. Qed.
Lemma winding_one a b x z : winding [(a, b)] x z = passes a b x z.
Proof. unfold winding. cbn. lia. Qed.

Lemma winding_cons a b S x z : winding ((a, b) :: S) x z = passes a b x z + winding S x z.
Proof. reflexivity. Qed.

(** *** Sums over lists that change in one place *)
Lemma zsum_change {A} (f f' : A -> Z) : forall l l' i a a', nth_error l i = Some a -> nth_error l' i = Some a' -> length l = length l' ->
  (forall j b b', j <> i -> nth_error l j = Some b -> nth_error l' j = Some b' -> f' b' = f b) -> zsum f' l' = zsum f l - f a + f' a'.
Proof.
  assert (AUX : forall l l', length l = length l' -> (forall j b b', nth_error l j = Some b -> nth_error l' j = Some b' -> f' b' = f b) -> zsum f' l' = zsum f l).
  { induction l as [|x l IH]; intros [|x' l'] L H; try discriminate; [reflexivity|]. rewrite !zsum_cons, (H 0%nat x x' eq_refl eq_refl), (IH l'); auto. intros j b b' E E'. exact (H (S j) b b' E E'). }
  induction l as [|x l IH]; intros l' i a a' E E' L H; [now destruct i|]. destruct l' as [|x' l']; [now destruct i|]. rewrite !zsum_cons. destruct i as [|i]; cbn in E, E'.
  - injection E as ->. injection E' as ->. rewrite (AUX l l'); [lia|auto|]. intros j b b' B B'. exact (H (S j) b b' ltac:(lia) B B').
  - rewrite (H 0%nat x x' ltac:(lia) eq_refl eq_refl), (IH l' i a a'); auto; [lia|]. intros j b b' N B B'. exact (H (S j) b b' ltac:(lia) B B').
Qed.
Lemma zsum_upd {A} (f : A -> Z) l i g a : nth_error l i = Some a -> zsum f (upd l i g) = zsum f l - f a + f (g a).
Proof.
  intros E. apply (zsum_change f f l (upd l i g) i); auto; [now apply nth_upd_same|now rewrite length_upd|].
  intros j b b' N B B'. rewrite nth_upd_other in B' by auto. congruence.
Qed.
Lemma zsum_ext_nth {A} (f f' : A -> Z) l : (forall j b, nth_error l j = Some b -> f' b = f b) -> zsum f' l = zsum f l.
Proof. intros H. apply zsum_ext. intros a Ha. apply In_nth_error in Ha as (j & Hj). eauto. Qed.

(** *** The polygons and the bounds that own them *)
Definition setp (pos : nat -> vec2 R) (b : nat) (p : vec2 R) : nat -> vec2 R := fun c => if Nat.eqb c b then p else pos c.
Lemma setp_same pos b p : setp pos b p b = p.
Proof. unfold setp. now rewrite Nat.eqb_refl. Qed.
Lemma setp_other pos b p c : c <> b -> setp pos b p c = pos c.
Proof. unfold setp. intros H. now apply Nat.eqb_neq in H as ->. Qed.

Section Paths.
  Implicit Types (ps : list (poly R)) (bs : list (bound R)) (pos : nat -> vec2 R) (bl : list nat).
  (** The polygon [q] at [o]: either its path is closed, or it goes from the place of its
      down bound by the origin to the place of its up bound. *)
  Definition open_fits bs pos bl (o : nat) (q : poly R) : Prop :=
    exists u d bu bd, o_up_bound q = Some u /\ o_down_bound q = Some d /\ In u bl /\ In d bl /\ nth_error bs u = Some bu /\ nth_error bs d = Some bd /\
      ob_owner bu = Some o /\ ob_owner bd = Some o /\ bound_up bu = true /\ bound_up bd = false /\
      goes (o_origin q) (o_up q) = pos u /\ goes (pos d) (rev (o_down q)) = o_origin q.
  Definition poly_fits bs pos bl (o : nat) (q : poly R) : Prop :=
    Forall straight (o_up q) /\ Forall straight (o_down q) /\
    if o_complete q then goes (o_origin q) (o_up q ++ rev (o_down q)) = o_origin q else open_fits bs pos bl o q.
  Definition owned ps bs (b : nat) : Prop :=
    exists bd o q, nth_error bs b = Some bd /\ ob_owner bd = Some o /\ nth_error ps o = Some q /\ o_complete q = false /\
      (if bound_up bd then o_up_bound q else o_down_bound q) = Some b.
  Record paths ps bs pos bl : Prop := {
    pa_polys : forall o q, nth_error ps o = Some q -> poly_fits bs pos bl o q;
    pa_owned : forall b, In b bl -> owned ps bs b }.

  (** The winding number of what a polygon has drawn so far *)
  Definition pw pos (x z : R) (q : poly R) : Z :=
    if o_complete q then winding (trail (o_origin q) (o_up q ++ rev (o_down q))) x z
    else winding (trail (o_origin q) (o_up q)) x z + match o_down_bound q with Some d => winding (trail (pos d) (rev (o_down q))) x z | None => 0 end.
  Definition tw ps pos (x z : R) : Z := zsum (pw pos x z) ps.

  (** Bounds that differ in links, edge and x only *)
  Definition owner_same (b c : bound R) : Prop := ob_owner c = ob_owner b /\ ob_dx c = ob_dx b.
  Definition owners_same bs bs' : Prop := forall i b, nth_error bs i = Some b -> exists c, nth_error bs' i = Some c /\ owner_same b c.
  Lemma owners_refl bs : owners_same bs bs.
  Proof. intros i b E. exists b. unfold owner_same. auto. Qed.
  Lemma owners_trans b1 b2 b3 : owners_same b1 b2 -> owners_same b2 b3 -> owners_same b1 b3.
  Proof. intros A B i b E. destruct (A i b E) as (c & C & S1 & S2). destruct (B i c C) as (d & D & S3 & S4). exists d. unfold owner_same. split; auto. split; congruence. Qed.
  Lemma owners_upd bs i f : (forall b, owner_same b (f b)) -> owners_same bs (upd bs i f).
  Proof.
    intros H j b E. rewrite nth_upd. destruct (Nat.eqb i j); rewrite E; cbn; eexists; split; eauto. split; reflexivity.
  Qed.
  Lemma owners_app bs l : owners_same bs (bs ++ l).
  Proof. intros j b E. exists b. rewrite nth_error_app1 by (eapply nth_lt; eauto). split; auto. split; reflexivity. Qed.
  Lemma paths_bounds ps bs bs' pos bl : owners_same bs bs' -> paths ps bs pos bl -> paths ps bs' pos bl.
  Proof.
    intros S [A B]. split.
    - intros o q E. destruct (A o q E) as (C1 & C2 & C). split; [auto|]. split; [auto|]. destruct (o_complete q); auto.
      destruct C as (u & d & bu & bd & C3 & C4 & C5 & C6 & C7 & C8 & C9 & C10 & C11 & C12 & C13 & C14).
      destruct (S u bu C7) as (bu' & D1 & D2 & D3). destruct (S d bd C8) as (bd' & D4 & D5 & D6).
      exists u, d, bu', bd'. unfold bound_up in *. rewrite D2, D3, D5, D6. csplit; auto.
    - intros b Hb. destruct (B b Hb) as (bd & o & q & C1 & C2 & C3 & C4 & C5). destruct (S b bd C1) as (bd' & D1 & D2 & D3).
      exists bd', o, q. unfold bound_up in *. rewrite D2, D3. csplit; auto.
  Qed.
  (** Only the places of the bounds in [bl] matter. *)
  Lemma paths_pos ps bs pos pos' bl : (forall b, In b bl -> pos' b = pos b) -> paths ps bs pos bl -> paths ps bs pos' bl /\ forall x z, tw ps pos' x z = tw ps pos x z.
  Proof.
    intros S [A B]. split; [split; auto|].
    - intros o q E. destruct (A o q E) as (C1 & C2 & C). split; [auto|]. split; [auto|]. destruct (o_complete q); auto.
      destruct C as (u & d & bu & bd & C3 & C4 & C5 & C6 & C7 & C8 & C9 & C10 & C11 & C12 & C13 & C14).
      exists u, d, bu, bd. rewrite (S u C5), (S d C6). csplit; auto.
    - intros x z. apply zsum_ext_nth. intros j q E. destruct (A j q E) as (C1 & C2 & C). unfold pw. destruct (o_complete q); auto.
      destruct C as (u & d & bu & bd & C3 & C4 & C5 & C6 & _). now rewrite C4, (S d C6).
  Qed.
  Lemma owned_in ps bs pos bl b bd : paths ps bs pos bl -> In b bl -> nth_error bs b = Some bd ->
    exists o q u d, ob_owner bd = Some o /\ nth_error ps o = Some q /\ o_complete q = false /\ o_up_bound q = Some u /\ o_down_bound q = Some d /\ In u bl /\ In d bl /\ u <> d /\
      (if bound_up bd then b = u else b = d) /\ goes (o_origin q) (o_up q) = pos u /\ goes (pos d) (rev (o_down q)) = o_origin q /\ Forall straight (o_up q) /\ Forall straight (o_down q) /\
      exists bu bd', nth_error bs u = Some bu /\ nth_error bs d = Some bd' /\ ob_owner bu = Some o /\ ob_owner bd' = Some o /\ bound_up bu = true /\ bound_up bd' = false.
  Proof.
    intros [A B] Hb Eb. destruct (B b Hb) as (bd0 & o & q & C1 & C2 & C3 & C4 & C5). rewrite Eb in C1. injection C1 as <-.
    destruct (A o q C3) as (S1 & S2 & F). rewrite C4 in F. destruct F as (u & d & bu & bd' & D3 & D4 & D5 & D6 & D7 & D8 & D9 & D10 & D11 & D12 & D13 & D14).
    exists o, q, u, d. csplit; auto.
    - intros ->. congruence.
    - destruct (bound_up bd); congruence.
    - exists bu, bd'. csplit; auto.
  Qed.
  (** A segment is added at the end of [b]. *)
  Lemma paths_push ps bs pos bl b bd o g p : paths ps bs pos bl -> In b bl -> nth_error bs b = Some bd -> ob_owner bd = Some o -> straight g ->
    seg_target g = (if bound_up bd then p else pos b) ->
    paths (upd ps o (if bound_up bd then push_up g else push_down g)) bs (setp pos b p) bl /\
    forall x z, tw (upd ps o (if bound_up bd then push_up g else push_down g)) (setp pos b p) x z = tw ps pos x z + (if bound_up bd then passes (pos b) p x z else passes p (pos b) x z).
  Proof.
    intros PA Hb Eb Ob SG TG. destruct (owned_in _ _ _ _ _ _ PA Hb Eb) as (o' & q & u & d & O & Q & NC & U & D & Iu & Id & NE & WH & G1 & G2 & S1 & S2 & bu & bd' & B1 & B2 & B3 & B4 & B5 & B6).
    rewrite Ob in O. injection O as <-. destruct PA as [A B].
    assert (OT : forall o1 q1, o1 <> o -> nth_error ps o1 = Some q1 -> o_complete q1 = true \/ exists u1 d1, o_up_bound q1 = Some u1 /\ o_down_bound q1 = Some d1 /\ u1 <> b /\ d1 <> b).
    { intros o1 q1 N E. destruct (A o1 q1 E) as (_ & _ & F). destruct (o_complete q1); [now left|right]. destruct F as (u1 & d1 & bu1 & bd1 & D3 & D4 & D5 & D6 & D7 & D8 & D9 & D10 & _).
      exists u1, d1. csplit; auto; intros ->; congruence. }
    split; [split|].
    - intros o1 q1 E. rewrite nth_upd in E. destruct (Nat.eqb o o1) eqn:K.
      + apply Nat.eqb_eq in K. subst o1. rewrite Q in E. cbn in E. injection E as <-.
        destruct (bound_up bd) eqn:UP; cbn [push_up push_down]; unfold poly_fits, open_fits; cbn -[goes]; rewrite NC.
        * subst b. split; [apply Forall_app; auto|]. split; auto. exists u, d, bu, bd'. rewrite setp_same, setp_other by auto. csplit; auto. rewrite goes_app. cbn. exact TG.
        * subst b. split; auto. split; [apply Forall_app; auto|]. exists u, d, bu, bd'. rewrite setp_same, setp_other by auto. csplit; auto. rewrite rev_app_distr. cbn. rewrite TG. exact G2.
      + destruct (OT o1 q1) as [C|(u1 & d1 & U1 & D1 & N1 & N2)]; auto; [intros ->; now rewrite Nat.eqb_refl in K| |].
        * destruct (A o1 q1 E) as (F1 & F2 & F). split; auto. split; auto. now rewrite C in *.
        * destruct (A o1 q1 E) as (F1 & F2 & F). split; auto. split; auto. destruct (o_complete q1); auto.
          destruct F as (u2 & d2 & bu1 & bd1 & D3 & D4 & F). exists u2, d2, bu1, bd1. rewrite !setp_other by congruence. csplit; tauto.
    - intros b1 H1. destruct (B b1 H1) as (bd1 & o1 & q1 & C1 & C2 & C3 & C4 & C5). destruct (Nat.eq_dec o1 o) as [->|N].
      + rewrite Q in C3. injection C3 as <-. exists bd1, o, ((if bound_up bd then push_up g else push_down g) q). rewrite (nth_upd_same _ _ _ _ Q). csplit; auto; destruct (bound_up bd); auto.
      + exists bd1, o1, q1. rewrite nth_upd_other by auto. csplit; auto.
    - intros x z. unfold tw. rewrite (zsum_change (pw pos x z) (pw (setp pos b p) x z) ps _ o q ((if bound_up bd then push_up g else push_down g) q)); auto.
      + unfold pw. destruct (bound_up bd) eqn:UP; cbn [push_up push_down o_up o_down o_complete o_origin o_up_bound o_down_bound]; rewrite NC, D.
        * subst b. rewrite setp_other, trail_app, winding_app, G1 by auto. cbn [trail]. rewrite winding_one, TG. lia.
        * subst b. rewrite setp_same, rev_app_distr. cbn [rev app trail]. rewrite TG. rewrite winding_cons. lia.
      + now apply nth_upd_same.
      + now rewrite length_upd.
      + intros j q1 q2 N E1 E2. rewrite nth_upd_other in E2 by auto. rewrite E1 in E2. injection E2 as <-. unfold pw. destruct (OT j q1 N E1) as [C|(u1 & d1 & U1 & D1 & N1 & N2)].
        * now rewrite C.
        * now rewrite D1, setp_other.
  Qed.
  (** Two bounds of one polygon meet. *)
  Lemma paths_close ps bs pos l1 a b l2 ba bb o : NoDup (l1 ++ a :: b :: l2) -> paths ps bs pos (l1 ++ a :: b :: l2) -> nth_error bs a = Some ba -> nth_error bs b = Some bb ->
    bound_up ba = negb (bound_up bb) -> pos a = pos b -> ob_owner ba = Some o -> ob_owner bb = Some o ->
    paths (upd ps o set_complete) bs pos (l1 ++ l2) /\ forall x z, tw (upd ps o set_complete) pos x z = tw ps pos x z.
  Proof.
    intros ND PA Ea Eb UP PO Oa Ob.
    assert (Ia : In a (l1 ++ a :: b :: l2)) by (apply in_or_app; right; now left).
    assert (Ib : In b (l1 ++ a :: b :: l2)) by (apply in_or_app; right; right; now left).
    destruct (owned_in _ _ _ _ _ _ PA Ia Ea) as (o' & q & u & d & O & Q & NC & U & D & Iu & Id & NE & WH & G1 & G2 & S1 & S2 & _). rewrite Oa in O. injection O as <-.
    destruct (owned_in _ _ _ _ _ _ PA Ib Eb) as (o' & q' & u' & d' & O & Q' & _ & U' & D' & _ & _ & _ & WH' & _). rewrite Ob in O. injection O as <-. rewrite Q in Q'. injection Q' as <-.
    rewrite U in U'. injection U' as <-. rewrite D in D'. injection D' as <-.
    assert (AB : (a = u /\ b = d) \/ (a = d /\ b = u)) by (destruct (bound_up ba), (bound_up bb); cbn in UP; try discriminate; auto).
    assert (PUD : pos u = pos d) by (destruct AB as [[-> ->]|[-> ->]]; auto). destruct PA as [A B].
    assert (SUB : forall c, In c (l1 ++ a :: b :: l2) -> c <> a -> c <> b -> In c (l1 ++ l2)) by (intros c Hc N1 N2; rewrite in_app_iff in *; cbn in Hc; destruct Hc as [|[|[|]]]; auto; congruence).
    split; [split|].
    - intros o1 q1 E. rewrite nth_upd in E. destruct (Nat.eqb o o1) eqn:K.
      + apply Nat.eqb_eq in K. subst o1. rewrite Q in E. cbn in E. injection E as <-. unfold poly_fits. cbn -[goes]. split; auto. split; auto. rewrite goes_app, G1, PUD. exact G2.
      + apply Nat.eqb_neq in K. destruct (A o1 q1 E) as (F1 & F2 & F). split; auto. split; auto. destruct (o_complete q1); auto.
        destruct F as (u1 & d1 & bu1 & bd1 & D3 & D4 & D5 & D6 & D7 & D8 & D9 & D10 & D11). exists u1, d1, bu1, bd1. csplit; try tauto; apply SUB; auto; intros ->; congruence.
    - intros c Hc. destruct (B c) as (bd1 & o1 & q1 & C1 & C2 & C3 & C4 & C5); [rewrite in_app_iff in *; cbn; tauto|].
      destruct (Nat.eq_dec o1 o) as [->|N]; [exfalso|exists bd1, o1, q1; rewrite nth_upd_other by auto; csplit; auto].
      rewrite Q in C3. injection C3 as <-. assert (N : ~ In a (l1 ++ b :: l2)) by now apply NoDup_remove_2. apply NoDup_remove_1 in ND. assert (N' : ~ In b (l1 ++ l2)) by now apply NoDup_remove_2.
      assert (c = u \/ c = d) as X by (destruct (bound_up bd1); [left|right]; congruence).
      rewrite in_app_iff in N. cbn in N. rewrite in_app_iff in Hc, N'. destruct AB as [[-> ->]|[-> ->]], X as [-> | ->]; tauto.
    - intros x z. unfold tw. rewrite (zsum_upd _ _ _ _ _ Q). unfold pw at 2 3. cbn -[winding trail]. rewrite NC, D, trail_app, winding_app, G1, PUD. lia.
  Qed.
  (** The polygon [src] is appended to [dst] where the bounds [p] and [r] meet. *)
  Definition emptied (o : poly R) : poly R := Poly (o_origin o) None None [] [] true.
  Definition grown_up (r o : poly R) : poly R := Poly (o_origin o) (o_up_bound r) (o_down_bound o) ((o_up o ++ rev (o_down r)) ++ o_up r) (o_down o) (o_complete o).
  Definition grown_down (r o : poly R) : poly R := Poly (o_origin o) (o_up_bound o) (o_down_bound r) (o_up o) ((o_down o ++ rev (o_up r)) ++ o_down r) (o_complete o).
  Lemma paths_absorb ps bs pos bl bl' p r bp br dst src qr : paths ps bs pos bl -> (forall c, In c bl' <-> In c bl /\ c <> p /\ c <> r) ->
    In p bl -> In r bl -> nth_error bs p = Some bp -> nth_error bs r = Some br -> ob_owner bp = Some dst -> ob_owner br = Some src -> dst <> src -> nth_error ps src = Some qr ->
    bound_up br = negb (bound_up bp) -> pos p = pos r ->
    exists m, (if bound_up bp then o_up_bound qr else o_down_bound qr) = Some m /\ In m bl' /\
      let ps' := upd (upd ps dst (if bound_up bp then grown_up qr else grown_down qr)) src emptied in
      paths ps' (upd bs m (set_bowner (Some dst))) pos bl' /\ forall x z, tw ps' pos x z = tw ps pos x z.
  Proof.
    intros PA BL Ip Ir Ep Er Op Or NE Qr UP PO.
    destruct (owned_in _ _ _ _ _ _ PA Ip Ep) as (o' & q & u & d & O & Q & NC & U & D & Iu & Id & NE1 & WH & G1 & G2 & S1 & S2 & bu & bd & B1 & B2 & B3 & B4 & B5 & B6). rewrite Op in O. injection O as <-.
    destruct (owned_in _ _ _ _ _ _ PA Ir Er) as (o' & q' & u' & d' & O & Q' & NC' & U' & D' & Iu' & Id' & NE2 & WH' & G1' & G2' & S1' & S2' & bu' & bd' & B1' & B2' & B3' & B4' & B5' & B6').
    rewrite Or in O. injection O as <-. rewrite Qr in Q'. injection Q' as <-. destruct PA as [A B]. rewrite UP in WH'.
    set (m := if bound_up bp then u' else d').
    assert (Hm : (if bound_up bp then o_up_bound qr else o_down_bound qr) = Some m) by (unfold m; destruct (bound_up bp); auto).
    assert (Om : exists bm, nth_error bs m = Some bm /\ ob_owner bm = Some src /\ bound_up bm = bound_up bp /\ In m bl).
    { unfold m. destruct (bound_up bp); [exists bu'|exists bd']; csplit; auto. }
    destruct Om as (bm & Em & Om & Um & Im).
    assert (Nm : m <> p /\ m <> r) by (split; intros ->; [congruence|]; rewrite Er in Em; injection Em as <-; rewrite UP in Um; destruct (bound_up bp); discriminate).
    exists m. split; auto. split; [apply BL; tauto|].
    assert (MB : nth_error (upd bs m (set_bowner (Some dst))) m = Some (set_bowner (Some dst) bm)) by now apply nth_upd_same.
    assert (OB : forall c bc, nth_error bs c = Some bc -> c <> m -> nth_error (upd bs m (set_bowner (Some dst))) c = Some bc) by (intros c bc Ec N; rewrite nth_upd_other; auto).
    assert (QD : nth_error (upd (upd ps dst (if bound_up bp then grown_up qr else grown_down qr)) src emptied) dst = Some ((if bound_up bp then grown_up qr else grown_down qr) q)).
    { rewrite nth_upd_other by auto. now apply nth_upd_same. }
    assert (QS : nth_error (upd ps dst (if bound_up bp then grown_up qr else grown_down qr)) src = Some qr) by (rewrite nth_upd_other by auto; auto).
    assert (SR : Forall straight (rev (o_up qr)) /\ Forall straight (rev (o_down qr))) by (split; now apply Forall_rev). destruct SR as [SR1 SR2].
    split; [split|].
    - intros o1 q1 E. destruct (Nat.eq_dec o1 src) as [->|N1].
      { rewrite (nth_upd_same _ _ _ _ QS) in E. injection E as <-. unfold poly_fits. cbn. csplit; auto. }
      destruct (Nat.eq_dec o1 dst) as [->|N2].
      { rewrite QD in E. injection E as <-. destruct (bound_up bp) eqn:UB; cbn in WH'; unfold poly_fits, open_fits; cbn -[goes]; rewrite NC.
        - split; [apply Forall_app; split; [apply Forall_app; auto|auto]|]. split; auto. exists u', d, (set_bowner (Some dst) bm), bd. fold m in MB.
          csplit; auto; try (unfold m in *; tauto).
          + apply BL. unfold m in Nm. tauto.
          + apply BL. subst p. csplit; auto. intros ->. congruence.
          + apply OB; auto. unfold m. intros ->. congruence.
          + rewrite !goes_app, G1. subst p r. rewrite PO, G2'. exact G1'.
        - split; auto. split; [apply Forall_app; split; [apply Forall_app; auto|auto]|]. exists u, d', bu, (set_bowner (Some dst) bm).
          csplit; auto; try (unfold m in *; tauto).
          + apply BL. subst p. csplit; auto. intros ->. congruence.
          + apply BL. unfold m in Nm. tauto.
          + apply OB; auto. unfold m. intros ->. congruence.
          + rewrite !rev_app_distr, rev_involutive, !goes_app, G2', G1'. subst p r. now rewrite <- PO, G2. }
      rewrite !nth_upd_other in E by auto. destruct (A o1 q1 E) as (F1 & F2 & F). split; auto. split; auto. destruct (o_complete q1); auto.
      destruct F as (u1 & d1 & bu1 & bd1 & D3 & D4 & D5 & D6 & D7 & D8 & D9 & D10 & D11). exists u1, d1, bu1, bd1.
      csplit; try tauto; try (apply BL; csplit; auto; intros ->; congruence); apply OB; auto; intros ->; congruence.
    - intros c Hc. apply BL in Hc as (Hc & N1 & N2). destruct (B c Hc) as (bd1 & o1 & q1 & C1 & C2 & C3 & C4 & C5).
      destruct (Nat.eq_dec c m) as [->|Nc].
      { exists (set_bowner (Some dst) bm), dst, ((if bound_up bp then grown_up qr else grown_down qr) q). csplit; auto.
        - destruct (bound_up bp); auto.
        - change (bound_up (set_bowner (Some dst) bm)) with (bound_up bm). rewrite Um. destruct (bound_up bp) eqn:UB; cbn; unfold m; auto. }
      destruct (Nat.eq_dec o1 src) as [->|N3].
      { exfalso. rewrite Qr in C3. injection C3 as <-. unfold m in *. destruct (bound_up bd1), (bound_up bp); cbn in WH'; congruence. }
      destruct (Nat.eq_dec o1 dst) as [->|N4].
      + rewrite Q in C3. injection C3 as <-. exists bd1, dst, ((if bound_up bp then grown_up qr else grown_down qr) q). csplit; auto; [destruct (bound_up bp); auto|].
        destruct (bound_up bd1) eqn:U1, (bound_up bp) eqn:UB; cbn; auto; congruence.
      + exists bd1, o1, q1. rewrite !nth_upd_other by auto. csplit; auto.
    - intros x z. unfold tw. rewrite (zsum_upd _ _ _ _ _ QS), (zsum_upd _ _ _ _ _ Q). unfold pw at 2 3 4 5. destruct (bound_up bp) eqn:UB; cbn in WH'; cbn -[winding trail]; rewrite NC, NC', D, D'.
      + rewrite !trail_app, !winding_app, goes_app, G1. subst p r. rewrite PO, G2'. cbn [trail]. rewrite winding_nil. lia.
      + rewrite !rev_app_distr, rev_involutive, !trail_app, !winding_app, G2', G1'. subst p r. rewrite <- PO. cbn [trail]. rewrite winding_nil. lia.
  Qed.
  (** A new polygon with two bounds *)
  Lemma paths_open ps bs pos bl bl' ia ib ba bb q : paths ps bs pos bl -> nth_error bs ia = Some ba -> nth_error bs ib = Some bb ->
    ob_owner ba = Some (length ps) -> ob_owner bb = Some (length ps) -> bound_up ba = negb (bound_up bb) -> o_up q = [] -> o_down q = [] -> o_complete q = false ->
    o_up_bound q = Some (if bound_up ba then ia else ib) -> o_down_bound q = Some (if bound_up ba then ib else ia) -> pos ia = o_origin q -> pos ib = o_origin q ->
    (forall c, In c bl' <-> In c bl \/ c = ia \/ c = ib) -> paths (ps ++ [q]) bs pos bl' /\ forall x z, tw (ps ++ [q]) pos x z = tw ps pos x z.
  Proof.
    intros [A B] Ea Eb Oa Ob UP E1 E2 E3 E4 E5 Pa Pb BL. split; [split|].
    - intros o q1 E. destruct (Nat.lt_ge_cases o (length ps)) as [L|L].
      + rewrite nth_error_app1 in E by auto. destruct (A o q1 E) as (F1 & F2 & F). split; auto. split; auto. destruct (o_complete q1); auto.
        destruct F as (u & d & bu & bd & D3 & D4 & D5 & D6 & D7 & D8 & D9). exists u, d, bu, bd. csplit; try tauto; apply BL; auto.
      + assert (o = length ps) as -> by (apply nth_lt in E; rewrite app_length in E; cbn in E; lia). rewrite nth_snoc_last in E. injection E as <-.
        unfold poly_fits. rewrite E1, E2, E3. split; [constructor|]. split; [constructor|]. unfold open_fits. rewrite E1, E2, E4, E5.
        destruct (bound_up ba) eqn:U; [exists ia, ib, ba, bb|exists ib, ia, bb, ba]; destruct (bound_up bb) eqn:U'; try discriminate; csplit; auto; apply BL; auto.
    - intros c Hc. apply BL in Hc as [Hc|Hc].
      + destruct (B c Hc) as (bd1 & o1 & q1 & C1 & C2 & C3 & C4 & C5). exists bd1, o1, q1. csplit; auto. rewrite nth_error_app1; auto. now apply nth_lt in C3.
      + destruct Hc as [-> | ->]; [exists ba, (length ps), q|exists bb, (length ps), q]; rewrite nth_snoc_last; csplit; auto; destruct (bound_up ba) eqn:U, (bound_up bb) eqn:U'; try discriminate; auto.
    - intros x z. unfold tw. rewrite zsum_app, zsum_cons. unfold pw at 2. rewrite E1, E2, E3, E5. cbn. lia.
  Qed.
End Paths.
