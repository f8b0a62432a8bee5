(** C54-C56: what the half edges draw. *)
From Coq Require Import ZArith Bool List Reals Lra Lia Permutation Sorted.
From Verif Require Import Outcome Num Order Rmath RTac RectSpec ScanLine ScanProofs VState VLemmas SortProofs LineSpec LineR.
From Verif Require Import Dcel DcelSpec DcelBase DcelBreak DcelFace DcelLink DcelSplit DcelUnique DcelProcess DcelStatements DcelInv DcelR DcelLaySpec DcelKept DcelPieces DcelCut DcelLay.
Import ListNotations.
Local Open Scope out.

Implicit Types d : dcel R.
(** *** Lists of pairs *)
Section Pairs.
  Context {A : Type} (P : A -> A -> Prop).
  Hypothesis sym : forall a b, P a b -> P b a.
  Lemma fop_perm l l' : Permutation l l' -> ForallOrdPairs P l -> ForallOrdPairs P l'.
  Proof.
    induction 1 as [|x l l' H IH|x y l|l1 l2 l3 H1 IH1 H2 IH2]; intros F; auto.
    - inversion F; subst. constructor; auto. rewrite <- H. auto.
    - inversion F as [|? ? F1 F2]; subst. inversion F2 as [|? ? F3 F4]; subst. inversion F1; subst. constructor; [constructor; auto|]. constructor; auto.
  Qed.
  Lemma fop_app l l' : ForallOrdPairs P l -> ForallOrdPairs P l' -> (forall a b, In a l -> In b l' -> P a b) -> ForallOrdPairs P (l ++ l').
  Proof.
    induction 1 as [|x l F H IH]; intros G C; cbn; auto. constructor.
    - apply Forall_app. split; auto. apply Forall_forall. intros; apply C; cbn; auto.
    - apply IH; auto. intros; apply C; cbn; auto.
  Qed.
  Lemma fop_flat {B} (f : B -> list A) l : NoDup l -> (forall x, In x l -> ForallOrdPairs P (f x)) -> (forall x y a b, x <> y -> In x l -> In y l -> In a (f x) -> In b (f y) -> P a b) ->
    ForallOrdPairs P (flat_map f l).
  Proof.
    induction 1 as [|x l NI ND IH]; intros H1 H2; cbn; [constructor|]. apply fop_app.
    - apply H1. now left.
    - apply IH; [intros; apply H1; now right|]. intros y z a b NE Hy Hz. apply H2; auto; now right.
    - intros a b Ha Hb. apply in_flat_map in Hb as (y & Hy & Hb). apply (H2 x y); auto; [intros ->; contradiction|now left|now right].
  Qed.
  Lemma fop_map_pairs {B} (f : B -> A) l : NoDup l -> ForallOrdPairs P (map f l) -> forall x y, In x l -> In y l -> x <> y -> P (f x) (f y).
  Proof.
    induction 1 as [|x l NI ND IH]; intros F; [intros x y []|]. cbn in F. inversion F as [|? ? F1 F2]; subst. rewrite Forall_forall in F1.
    intros a b [<-|Ha] [<-|Hb] NE; [congruence|apply F1; now apply in_map|apply sym, F1; now apply in_map|auto].
  Qed.
End Pairs.

(** *** The stages together *)
Definition env_ok (en : denv) : Prop := forall l, Permutation (de_order en l) l.
Lemma unlinked0 : @unlinked R dcel0.
Proof. intros i h L. unfold live in L. cbn in L. destruct i; discriminate. Qed.
Definition drawn (l : list (dcall R)) d d1 d' : Prop :=
  wf d /\ proper d /\ wf d' /\ d_edges d = seq 0 (length (d_halves d)) /\ segs d = lines_given subject l /\ same_but_breaks d d1 /\ breaks_right d d1 /\ d_type d1 = type_after subject l /\
  (let X := flat_map (pieces_at d1) (d_edges d) in Permutation (segs d') (X ++ map (flip (type_after subject l)) X)) /\
  (forall p, In p (map p_at (d_points d')) <-> (exists t a b, In (t, (a, b)) (lines_given subject l) /\ (p = a \/ p = b)) \/ exists e, has d1 e p).
Lemma lay_parts en l d d' : env_ok en -> Forall dcall_fin l -> dcalls_run dcel0 l = Ok d -> dcel_process en d = Ok d' -> exists d1, drawn l d d1 d'.
Proof.
  intros PO FI HC HP.
  destruct (calls_segs l dcel0 d (wf0) eq_refl) as (W & SE & UB & TY & SG & PT); auto.
  { intros e h L. unfold live in L. cbn in L. destruct e; discriminate. }
  pose proof (calls_proper l dcel0 d wf0 proper0 FI HC) as PR. unfold dcel_process in HP. apply bind_ok in HP as (da & HA & HP). apply bind_ok in HP as (db & HB & HP).
  destruct (process_break_parts en d da PO W PR UB HA) as (d1 & S1 & BR & BH). pose proof (sbb_wf _ _ S1 W) as W1. destruct (by_addr_live en d1 W1) as (B1 & B2).
  destruct (break_halves_segs _ d1 da W1 B1 B2 BH) as (Wa & Ta & Sa & Pa). pose proof S1 as (E1 & _ & E3 & _ & _ & E6 & _).
  assert (T1 : d_type d1 = type_after subject l) by (rewrite E6; exact TY).
  destruct (build_twins_segs (by_addr en (d_edges da)) da db Wa) as (Wb & Sb & Pb & Tb); auto.
  { intros e He. eapply Permutation_in; [symmetry; apply by_addr_perm|exact He]. }
  pose proof (build_face_kept en db d' HP) as K. pose proof (kept_segs _ _ K) as KS.
  assert (X : Permutation (segs da) (flat_map (pieces_at d1) (d_edges d))).
  { rewrite Sa. replace (filter (out_of (by_addr en (d_edges d1))) (d_edges d1)) with (@nil nat).
    - cbn [map]. rewrite app_nil_r. apply Permutation_flat_map. rewrite E3. symmetry. apply by_addr_perm.
    - symmetry.
      assert (Z : forall m, (forall e, In e m -> In e (by_addr en (d_edges d1))) -> filter (out_of (by_addr en (d_edges d1))) m = []).
      { induction m as [|e m IH]; intros H; cbn; auto. rewrite (proj2 (out_of_in _ _)) by (apply H; now left). apply IH. intros; apply H; now right. }
      apply Z. intros e He. eapply Permutation_in; [apply by_addr_perm|exact He]. }
  exists d1. unfold drawn. csplit; auto.
  - destruct (C37_process_lemma en l d d' HC) as (Q1 & Q2 & Q3 & _); [|split; auto]. unfold dcel_process. rewrite HA. cbn [bind]. rewrite HB. exact HP.
  - cbv zeta. rewrite KS, Sb, Ta, T1. apply Permutation_app; auto.
    rewrite <- (map_map (seg_at da) (flip (type_after subject l))). apply Permutation_map. rewrite <- X. unfold segs. apply Permutation_map. symmetry. apply by_addr_perm.
  - intros p. destruct K as (-> & _). rewrite Pb, Pa, E1, PT. cbn [d_points dcel0 map]. split.
    + intros [[[]|H]|(e & h & _ & L & I)]; auto. right. exists e, h. auto.
    + intros [H|(e & h & L & I)]; auto. right. exists e, h. csplit; auto. eapply Permutation_in; [apply by_addr_perm|]. apply W1. eauto.
Qed.
Section Drawn.
  Context (l : list (dcall R)) (d d1 d' : dcel R).
  Hypothesis H : drawn l d d1 d'.
  Notation ls := (lines_given subject l).
  Notation ty := (type_after subject l).

  Lemma line_edge i t a b : line_is ls i t a b <-> In i (d_edges d) /\ seg_at d i = (t, (a, b)).
  Proof.
    destruct H as (W & PR & W' & SE & SG & _). unfold line_is. rewrite <- SG. unfold segs. rewrite nth_error_map, SE. split.
    - intros E. destruct (nth_error (seq 0 (length (d_halves d))) i) as [k|] eqn:K; [|discriminate]. cbn in E.
      pose proof (nth_lt _ _ _ K) as LT. rewrite seq_length in LT. rewrite (nth_error_nth' _ 0) in K by (now rewrite seq_length). rewrite seq_nth in K by auto. cbn in K. injection K as <-.
      split; [apply in_seq; lia|congruence].
    - intros (I & E). apply in_seq in I. rewrite (nth_error_nth' _ 0) by (rewrite seq_length; lia). rewrite seq_nth by lia. cbn. now rewrite E.
  Qed.
  Lemma line_in t a b : In (t, (a, b)) ls <-> exists i, In i (d_edges d) /\ seg_at d i = (t, (a, b)).
  Proof.
    split.
    - intros I. apply In_nth_error in I as (i & I). exists i. now apply line_edge.
    - intros (i & I). apply line_edge in I. eapply nth_error_In; eauto.
  Qed.
  Lemma edge_line i : In i (d_edges d) -> exists t, line_is ls i t (sa d i) (sb d i).
  Proof. intros I. exists (fst (seg_at d i)). apply line_edge. split; auto. unfold sa, sb. now destruct (seg_at d i) as [t [a b]]. Qed.
  Lemma per_line e : In e (d_edges d) -> exists bs ps, spread (sa d e) (sb d e) bs ps /\ sa d e <> sb d e /\ (forall p, In p bs <-> has d1 e p) /\
    pieces_at d1 e = map (piece (sa d e) (sb d e) (match bs with [] => fst (seg_at d e) | _ => ty end)) ps.
  Proof.
    intros I. destruct H as (W & PR & W' & SE & SG & S1 & (BR1 & BR2 & BR3) & T1 & _). pose proof W as ((R1 & R2 & R3) & _). destruct (proj1 (R2 e) I) as (h0 & L0).
    pose proof S1 as (E1 & E2 & E3 & E4 & E5 & E6 & E7 & E8 & E9). destruct (E9 e h0 L0) as (h & L).
    pose proof (sbb_seg d d1 e h0 S1 L0) as SA. assert (A1 : coord d1 (h_start h) = sa d e) by (rewrite <- (sa_live _ _ _ L); unfold sa; now rewrite SA).
    assert (A2 : coord d1 (h_end h) = sb d e) by (rewrite <- (sb_live _ _ _ L); unfold sb; now rewrite SA).
    assert (NE : sa d e <> sb d e) by (rewrite <- A1, <- A2; apply (proj2 (sbb_proper _ _ S1 PR) e h L)).
    assert (HB : forall p, In p (h_breaks h) <-> has d1 e p).
    { intros p. split; [intros K; exists h; auto|]. intros (x & Lx & K). now rewrite <- (live_inj _ _ _ _ Lx L). }
    destruct (pieces_spread d1 h) as (ps & SP & PC).
    - now rewrite A1, A2.
    - apply sorted_nodup. eapply BR3; eauto.
    - intros p Hp. apply HB in Hp. destruct (BR1 e p Hp) as (j & _ & _ & _ & (O & _)). now rewrite A1, A2.
    - rewrite A1, A2 in *. exists (h_breaks h), ps. split; [auto|]. split; [auto|]. split; [auto|]. unfold pieces_at. unfold live in L. rewrite L, PC. rewrite T1.
      f_equal. assert (TS : fst (seg_at d e) = h_type h) by (rewrite <- SA, (seg_at_live d1 e h L); reflexivity). now rewrite TS.
  Qed.
  Lemma piece_seg t a b : (exists e, half_from d' e t a b) <-> In (t, (a, b)) (segs d').
  Proof.
    destruct H as (_ & _ & W' & _). unfold segs. rewrite in_map_iff. split.
    - intros (e & K). apply half_from_seg in K as (I & E); auto. exists e. auto.
    - intros (e & E & I). exists e. apply half_from_seg; auto.
  Qed.
  Lemma final_in t a b : (exists e, half_from d' e t a b) <->
    exists e, In e (d_edges d) /\ (In (t, (a, b)) (pieces_at d1 e) \/ t = ty /\ exists t', In (t', (b, a)) (pieces_at d1 e)).
  Proof.
    rewrite piece_seg. destruct H as (_ & _ & _ & _ & _ & _ & _ & _ & PX & _). cbv zeta in PX. set (X := flat_map (pieces_at d1) (d_edges d)) in *. split.
    - intros I. apply (Permutation_in _ PX), in_app_iff in I as [I|I].
      + apply in_flat_map in I as (e & He & I). exists e. auto.
      + apply in_map_iff in I as ([t' [a' b']] & E & I). unfold flip in E. cbn in E. injection E as <- <- <-. apply in_flat_map in I as (e & He & I). exists e. split; auto. right. split; eauto.
    - intros (e & He & D). apply (Permutation_in _ (Permutation_sym PX)), in_app_iff. destruct D as [I|(-> & t' & I)].
      + left. apply in_flat_map. eauto.
      + right. apply in_map_iff. exists (t', (b, a)). split; [reflexivity|]. apply in_flat_map. eauto.
  Qed.

  Lemma on_flip p a b : on_segment p a b -> on_segment p b a.
  Proof. intros (t & Ht & ->). exists (1 - t)%R. split; [lra|]. unfold pt. apply vec_eq; cbn; ring. Qed.
  Lemma on_piece p s q x y : (0 <= x <= y)%R -> (y <= 1)%R -> on_segment p (pt s q x) (pt s q y) <-> exists t, (x <= t <= y)%R /\ p = pt s q t.
  Proof.
    intros X Y. split.
    - intros (t & Ht & ->). rewrite pt_pt. eexists. split; [|reflexivity]. nra.
    - intros (t & Ht & ->). destruct (Req_dec x y) as [<-|NE].
      + exists 0%R. split; [lra|]. rewrite pt_pt. f_equal. lra.
      + exists ((t - x) / (y - x))%R. split.
        * split; [apply Rmult_le_pos; [lra|left; apply Rinv_0_lt_compat; lra]|]. apply (Rmult_le_reg_r (y - x)); [lra|]. unfold Rdiv. rewrite Rmult_assoc, Rinv_l by lra. lra.
        * rewrite pt_pt. f_equal. field. lra.
  Qed.
  Lemma drawn_cover p : (exists e t a b, half_from d' e t a b /\ on_segment p a b) <-> exists t a b, In (t, (a, b)) ls /\ on_segment p a b.
  Proof.
    split.
    - intros (e & t & a & b & K & O). destruct (proj1 (final_in t a b) (ex_intro _ e K)) as (i & I & D). destruct (per_line i I) as (bs & ps & (S1 & S2 & S3 & S4) & NE & HB & PC). rewrite PC in D.
      destruct (edge_line i I) as (ti & LI).
      exists ti, (sa d i), (sb d i). split; [eapply nth_error_In; exact LI|].
      assert (Q : forall t' a' b', In (t', (a', b')) (map (piece (sa d i) (sb d i) (match bs with [] => fst (seg_at d i) | _ => ty end)) ps) -> on_segment p a' b' -> on_segment p (sa d i) (sb d i)).
      { intros t' a' b' J O'. apply in_map_iff in J as ((x & y) & E & J). unfold piece in E. cbn [fst snd] in E. injection E as _ <- <-. destruct (S1 x y J) as ((X1 & X2) & _).
        apply (proj1 (on_piece p _ _ x y X1 X2)) in O' as (z & Hz & ->). exists z. split; [lra|reflexivity]. }
      destruct D as [D|(_ & t' & D)]; eauto using on_flip.
    - intros (t & a & b & I & O). apply line_in in I as (i & I & E). assert (EA : sa d i = a) by (unfold sa; now rewrite E). assert (EB : sb d i = b) by (unfold sb; now rewrite E).
      destruct (per_line i I) as (bs & ps & (S1 & S2 & S3 & S4) & NE & HB & PC). rewrite EA, EB in *. destruct O as (z & Hz & ->). destruct (S2 z Hz) as (x & y & J & XY).
      destruct (S1 x y J) as ((X1 & X2) & _). set (tt := match bs with [] => fst (seg_at d i) | _ => ty end) in *.
      destruct (proj2 (final_in tt (pt a b x) (pt a b y))) as (e & K).
      { exists i. split; auto. left. rewrite PC. apply in_map_iff. exists (x, y). auto. }
      exists e, tt, (pt a b x), (pt a b y). split; auto. apply (proj2 (on_piece _ _ _ x y X1 X2)). exists z. auto.
  Qed.
  Lemma drawn_points p : In p (map p_at (d_points d')) <-> (exists t a b, In (t, (a, b)) ls /\ (p = a \/ p = b)) \/
    exists t a b t' a' b', In (t, (a, b)) ls /\ In (t', (a', b')) ls /\ ~ parallel a b a' b' /\ on_segment p a b /\ on_segment p a' b'.
  Proof.
    pose proof H as (_ & _ & _ & _ & _ & _ & (BR1 & BR2 & BR3) & _ & _ & PT). rewrite PT. split.
    - intros [K|(e & K)]; auto. destruct (BR1 e p K) as (j & NE & I & J & (O1 & O2 & D)). destruct (edge_line e I) as (t & LI). destruct (edge_line j J) as (t' & LJ). apply nth_error_In in LI, LJ.
      destruct D as [NP|[D|[D|[D|D]]]]; [right; exists t, (sa d e), (sb d e), t', (sa d j), (sb d j); auto 10|left; eexists; eexists; eexists; (split; [exact LI|]); auto|left; eexists; eexists; eexists; (split; [exact LI|]); auto|left; eexists; eexists; eexists; (split; [exact LJ|]); auto|left; eexists; eexists; eexists; (split; [exact LJ|]); auto].
    - intros [K|(t & a & b & t' & a' & b' & I & J & NP & O1 & O2)]; auto. right. apply line_in in I as (i & I & E), J as (j & J & E').
      exists i. apply (BR2 i j); auto.
      + intros <-. rewrite E in E'. injection E' as _ <- <-. apply NP. unfold parallel. lra.
      + unfold sa, sb. now rewrite E, E'.
      + unfold sa, sb. now rewrite E.
      + unfold sa, sb. now rewrite E'.
  Qed.

  (** *** Two half edges *)
  Definition apart (x y : path_type * (vec2 R * vec2 R)) : Prop := forall p, let '(_, (a, b)) := x in let '(_, (a', b')) := y in
    on_segment p a b -> on_segment p a' b' -> (p = a \/ p = b) /\ (p = a' \/ p = b') \/ a' = b /\ b' = a.
  Lemma apart_sym x y : apart x y -> apart y x.
  Proof. destruct x as [t [a b]], y as [t' [a' b']]. intros A p O1 O2. destruct (A p O2 O1) as [(K1 & K2)|(-> & ->)]; auto. Qed.
  Definition apart1 (x y : path_type * (vec2 R * vec2 R)) : Prop := forall p, let '(_, (a, b)) := x in let '(_, (a', b')) := y in
    on_segment p a b -> on_segment p a' b' -> (p = a \/ p = b) /\ (p = a' \/ p = b').
  Lemma apart1_flip t x y : apart1 x y -> apart1 x (flip t y).
  Proof. destruct x as [u [a b]], y as [t' [a' b']]. cbn. intros A p O1 O2. apply on_flip in O2. destruct (A p O1 O2) as (K1 & K2). tauto. Qed.
  Lemma apart1_sym x y : apart1 x y -> apart1 y x.
  Proof. destruct x as [t [a b]], y as [t' [a' b']]. intros A p O1 O2. destruct (A p O2 O1); auto. Qed.
  Lemma apart1_apart x y : apart1 x y -> apart x y.
  Proof. destruct x as [t [a b]], y as [t' [a' b']]. intros A p O1 O2. left. auto. Qed.
  Lemma fop_impl {A} (P Q : A -> A -> Prop) m : (forall a b, P a b -> Q a b) -> ForallOrdPairs P m -> ForallOrdPairs Q m.
  Proof. intros I. induction 1; constructor; auto. eapply Forall_impl; [|eassumption]. auto. Qed.
  Lemma fop_map {A B} (f : A -> B) (P : B -> B -> Prop) m : ForallOrdPairs (fun a b => P (f a) (f b)) m -> ForallOrdPairs P (map f m).
  Proof. induction 1; cbn; constructor; auto. apply Forall_map. auto. Qed.
  Lemma end_param s q z : s <> q -> pt s q z = s \/ pt s q z = q -> (z = 0 \/ z = 1)%R.
  Proof. intros NE [E|E]; [left|right]; apply (pt_inj s q); auto; now rewrite ?pt_0, ?pt_1. Qed.
  Lemma drawn_apart1 : no_lap ls -> ForallOrdPairs apart1 (flat_map (pieces_at d1) (d_edges d)).
  Proof.
    intros NL. pose proof H as (((R1 & _) & _) & _). pose proof H as (_ & _ & _ & _ & _ & _ & (BR1 & BR2 & BR3) & _). apply fop_flat; auto.
    - intros i I. destruct (per_line i I) as (bs & ps & (S1 & S2 & S3 & S4) & NE & HB & PC). rewrite PC. apply fop_map.
      assert (Z : forall m, (forall z, In z m -> In z ps) -> ForallOrdPairs (fun a b => (snd a <= fst b)%R) m -> ForallOrdPairs (fun a b => apart1 (piece (sa d i) (sb d i) (match bs with [] => fst (seg_at d i) | _ => ty end) a) (piece (sa d i) (sb d i) (match bs with [] => fst (seg_at d i) | _ => ty end) b)) m).
      { induction m as [|[x y] m IH]; intros SB F; [constructor|]. inversion F as [|? ? F1 F2]; subst. constructor; [|apply IH; auto; intros; apply SB; now right].
        rewrite Forall_forall in *. intros [x' y'] K. specialize (F1 _ K). cbn in F1. destruct (S1 x y (SB _ (or_introl eq_refl))) as ((X1 & X2) & _). destruct (S1 x' y' (SB _ (or_intror K))) as ((X3 & X4) & _).
        intros p. unfold piece. cbn [fst snd]. intros O1 O2. apply (proj1 (on_piece p _ _ x y X1 X2)) in O1 as (z & Hz & ->). apply (proj1 (on_piece _ _ _ x' y' X3 X4)) in O2 as (z' & Hz' & E). apply pt_inj in E; auto. subst z'.
        assert (z = y) by lra. assert (z = x') by lra. subst. auto. }
      apply Z; auto.
    - intros i j u v NE I J HU HV. destruct (per_line i I) as (bs & ps & (S1 & _) & N1 & HB & PC). destruct (per_line j J) as (bs' & ps' & (S1' & _) & N2 & HB' & PC').
      rewrite PC in HU. rewrite PC' in HV. apply in_map_iff in HU as ((x & y) & <- & HU). apply in_map_iff in HV as ((x' & y') & <- & HV).
      destruct (S1 x y HU) as ((X1 & X2) & _ & _ & X3 & _). destruct (S1' x' y' HV) as ((X1' & X2') & _ & _ & X3' & _).
      destruct (edge_line i I) as (ti & LI). destruct (edge_line j J) as (tj & LJ).
      intros p. unfold piece. cbn [fst snd]. intros O1 O2. apply (proj1 (on_piece p _ _ x y X1 X2)) in O1 as (z & Hz & E). apply (proj1 (on_piece p _ _ x' y' X1' X2')) in O2 as (z' & Hz' & E').
      assert (Q1 : on_segment p (sa d i) (sb d i)) by (exists z; split; [lra|auto]). assert (Q2 : on_segment p (sa d j) (sb d j)) by (exists z'; split; [lra|auto]).
      assert (Y : (z <= x \/ y <= z)%R /\ (z' <= x' \/ y' <= z')%R).
      { destruct (parallel_dec (sa d i) (sb d i) (sa d j) (sb d j)) as [P|P].
        - destruct (NL i j _ _ _ _ _ _ p NE LI LJ P Q1 Q2) as (D1 & D2). split.
          + apply X3; [lra|]. rewrite E in D1. destruct (end_param _ _ _ N1 D1); auto.
          + apply X3'; [lra|]. rewrite E' in D2. destruct (end_param _ _ _ N2 D2); auto.
        - split.
          + apply X3; [lra|]. right. right. apply HB. rewrite <- E. apply (BR2 i j); auto.
          + apply X3'; [lra|]. right. right. apply HB'. rewrite <- E'. apply (BR2 j i); auto. intros K. apply P. now apply parallel_sym. }
      destruct Y as (Y1 & Y2). split.
      + rewrite E. destruct Y1; [left|right]; f_equal; lra.
      + rewrite E'. destruct Y2; [left|right]; f_equal; lra.
  Qed.
  Lemma drawn_apart : no_lap ls -> forall e e' t a b t' a' b' p, e <> e' -> half_from d' e t a b -> half_from d' e' t' a' b' -> on_segment p a b -> on_segment p a' b' ->
    (p = a \/ p = b) /\ (p = a' \/ p = b') \/ a' = b /\ b' = a.
  Proof.
    intros NL e e' t a b t' a' b' p NE K K'. pose proof H as (_ & _ & W' & _ & _ & _ & _ & _ & PX & _). cbv zeta in PX. pose proof (drawn_apart1 NL) as F. set (X := flat_map (pieces_at d1) (d_edges d)) in *.
    assert (G : ForallOrdPairs apart (segs d')).
    { eapply fop_perm; [exact apart_sym|symmetry; exact PX|]. apply fop_app.
      - exact (fop_impl _ _ _ apart1_apart F).
      - apply fop_map. eapply fop_impl; [|exact F]. intros x y A. apply apart1_apart. apply apart1_flip, apart1_sym, apart1_flip, apart1_sym, A.
      - intros x y' Hx Hy. apply in_map_iff in Hy as (y & <- & Hy). destruct (ForallOrdPairs_In F x y Hx Hy) as [<-|[A|A]].
        + destruct x as [tx [ax bx]]. intros q _ _. right. auto.
        + apply apart1_apart, apart1_flip, A.
        + apply apart1_apart, apart1_flip, apart1_sym, A. }
    pose proof W' as ((R1 & _) & _). apply half_from_seg in K as (I & E); auto. apply half_from_seg in K' as (I' & E'); auto.
    pose proof (fop_map_pairs apart apart_sym (seg_at d') (d_edges d') R1 G e e' I I' NE) as A. rewrite E, E' in A. exact (A p).
  Qed.

  (** *** Half edges without length *)
  Lemma drawn_empty t a : (exists e, half_from d' e t a a) -> exists i j ti ai bi tj aj bj, i <> j /\ line_is ls i ti ai bi /\ line_is ls j tj aj bj /\ (a = ai \/ a = bi) /\ on_segment a aj bj.
  Proof.
    intros K. apply final_in in K as (i & I & D). destruct (per_line i I) as (bs & ps & (S1 & _) & N1 & HB & PC).
    assert (D' : exists t, In (t, (a, a)) (pieces_at d1 i)) by (destruct D as [D|(_ & t' & D)]; eauto). destruct D' as (t' & D'). rewrite PC in D'. apply in_map_iff in D' as ((x & y) & E & D').
    unfold piece in E. cbn [fst snd] in E. injection E as _ E1 E2. assert (x = y) by (apply (pt_inj (sa d i) (sb d i)); congruence). subst y. destruct (S1 x x D') as (_ & _ & _ & _ & X). destruct (X eq_refl) as (IB & X01).
    apply HB in IB. destruct H as (_ & _ & _ & _ & _ & _ & (BR1 & _) & _). destruct (BR1 i _ IB) as (j & NE & _ & J & (_ & O & _)).
    destruct (edge_line i I) as (ti & LI). destruct (edge_line j J) as (tj & LJ). exists i, j, ti, (sa d i), (sb d i), tj, (sa d j), (sb d j). rewrite <- E1. csplit; auto.
    destruct X01 as [->| ->]; [left; apply pt_0|right; apply pt_1].
  Qed.
  Lemma drawn_empty_conv i j ti ai bi tj aj bj p : line_is ls i ti ai bi -> line_is ls j tj aj bj -> ~ parallel ai bi aj bj -> (p = ai \/ p = bi) -> on_segment p aj bj ->
    exists e, half_from d' e ty p p.
  Proof.
    intros LI LJ NP D O. apply line_edge in LI as (I & EI), LJ as (J & EJ). assert (NE : i <> j). { intros <-. rewrite EI in EJ. injection EJ as _ <- <-. apply NP. unfold parallel. lra. }
    destruct (per_line i I) as (bs & ps & (S1 & _ & _ & S4) & N1 & HB & PC). assert (EA : sa d i = ai) by (unfold sa; now rewrite EI). assert (EB : sb d i = bi) by (unfold sb; now rewrite EI).
    assert (EAj : sa d j = aj) by (unfold sa; now rewrite EJ). assert (EBj : sb d j = bj) by (unfold sb; now rewrite EJ). rewrite EA, EB in *.
    assert (Z : exists z, (z = 0 \/ z = 1)%R /\ p = pt ai bi z) by (destruct D as [->| ->]; [exists 0%R; split; auto; now rewrite pt_0|exists 1%R; split; auto; now rewrite pt_1]). destruct Z as (z & Z & EP).
    pose proof H as (_ & _ & _ & _ & _ & _ & (BR1 & BR2 & BR3) & _).
    assert (IB : In p bs). { apply HB. apply (BR2 i j); auto; rewrite ?EA, ?EB, ?EAj, ?EBj; auto. exists z. split; auto. lra. }
    apply final_in. exists i. split; auto. right. split; auto. eexists. rewrite PC. apply in_map_iff. exists (z, z). split; [unfold piece; cbn [fst snd]; rewrite <- EP; reflexivity|]. apply S4; auto. now rewrite <- EP.
  Qed.
  (** *** Types *)
  Lemma drawn_type t a b : (exists e, half_from d' e t a b) -> t = ty \/ In (t, (a, b)) ls.
  Proof.
    intros K. apply final_in in K as (i & I & D). destruct D as [D|(D & _)]; auto. destruct (per_line i I) as (bs & ps & (S1 & S2 & S3 & S4) & N1 & HB & PC). rewrite PC in D. apply in_map_iff in D as ((x & y) & E & D).
    unfold piece in E. cbn [fst snd] in E. injection E as E1 E2 E3. destruct bs as [|b0 bs]; auto. right. destruct (edge_line i I) as (ti & LI). pose proof LI as LI'. apply line_edge in LI' as (_ & EI).
    destruct (S1 x y D) as (_ & [->|[]] & [->|[]] & _). rewrite pt_0 in E2. rewrite pt_1 in E3. subst. rewrite EI. eapply nth_error_In; eauto.
  Qed.
End Drawn.
