(** From one scan line to the next: the edges and the output. *)
From Coq Require Import ZArith Bool List Reals Lra Lia Permutation Sorted.
From Verif Require Import Outcome Num Order OrdTac Rmath RTac Segment VState VAel VOut VMain VLemmas VFrame RingSpec LineSpec ClimbSpec AelSpec VAelProofs VEdges VAelRun VRun VClimb SortProofs
  ClipSpec WindSpec VWind VKept VPairs SpanSpec SpanRing SpanTop SpanStep SpanRun PlaneSpec PlaneGeo PlaneSort PlaneTop PlaneRun PlaneCount PlaneScan OutSpec OutPath OutAlt OutList OutClose OutTop OutClear SpanSpec.
From Verif Require LensRun.
Import ListNotations.
Local Open Scope Z_scope.
Local Open Scope out.

Lemma zsum_one (i : nat) l : NoDup l -> zsum (fun j => if Nat.eqb j i then 1 else 0) l = if in_dec Nat.eq_dec i l then 1 else 0.
Proof.
  intros ND. induction l as [|a l IH]; [reflexivity|]. apply NoDup_cons_iff in ND as [N1 N2]. rewrite zsum_cons, IH by auto.
  destruct (Nat.eqb_spec a i) as [->|NE]; destruct (in_dec Nat.eq_dec i l), (in_dec Nat.eq_dec i (_ :: l)) as [I|I]; cbn in I; intuition; lia.
Qed.

Section Beam.
  Variable vs : list (vertex R).
  Notation Y := (height vs).
  Variables P M : nat -> Prop.
  Hypothesis MK : marked vs P M.
  Hypothesis V : vs_valid vs.
  Hypothesis PL : plane vs P M.
  Implicit Types s : clipper R.
  Implicit Types es : list (edge R).
  Variable lms : list lmin.
  Variable ms : list nat.
  Notation lv := (lv lms).
  Hypothesis ms_some : forall m, In m ms -> exists x, nth_error lms m = Some x.
  Hypothesis ms_M : forall i, M i <-> In i (map lv ms).
  Variable ty : nat -> path_type.
  Hypothesis ty_side : forall j k, P j -> side vs true j k -> ty j = ty k.
  Notation ready := (ready vs P lms ms).
  Notation ended := (ended vs P lms ms).
  Notation stand := (stand vs P lms ty).
  Notation gone := (gone vs).

  Lemma stepped_gone y es es' b b' i : stepped vs y es es' b b' -> standing vs P es -> standing vs P es' -> NoDup b -> (In i b' <-> In i b /\ gone y es i = false).
  Proof.
    intros ST S S' ND. pose proof (stepped_sum vs P M MK PL y es es' b b' (fun j => if Nat.eqb j i then 1 else 0) (fun j => if Nat.eqb j i then 1 else 0) ST S S' (fun _ _ => eq_refl)) as K.
    assert (ND' : NoDup b') by (eapply LensRun.subseq_nodup; [eapply stepped_sub; eauto|exact ND]).
    assert (NF : NoDup (filter (gone y es) b)) by now apply NoDup_filter.
    rewrite !zsum_one in K by auto. destruct (in_dec Nat.eq_dec i b') as [I1|I1], (in_dec Nat.eq_dec i b) as [I2|I2], (in_dec Nat.eq_dec i (filter (gone y es) b)) as [I3|I3]; try lia; rewrite filter_In in I3;
      destruct (gone y es i); intuition congruence.
  Qed.
  (** The edges after a beam *)
  Record moved y' s l s' l' : Prop := {
    mv_old : forall i f, In i l' -> nth_error (edges s') i = Some f -> In i l /\ gone y' (edges s) i = false /\ exists e, nth_error (edges s) i = Some e /\ e_dx f = e_dx e /\ e_x f = ex e y' /\
      ((vy (e_top e) <> y' /\ e_bot f = e_bot e /\ e_top f = e_top e) \/ (vy (e_top e) = y' /\ e_bot f = e_top e));
    mv_stay : forall i, In i l -> gone y' (edges s) i = false -> In i l';
    mv_told : forall i j, In i l -> In j l -> i <> j -> xof (edges s) y' i = xof (edges s) y' j -> In (xof (edges s) y' i) (changes s');
    mv_order : upward (xof (edges s) y') l;
    mv_sum : forall t x, left_sum (xnow (edges s')) (wtof lms (edges s') t) l' x = left_sum (xof (edges s) y') (wtof lms (edges s) t) l x }.
  Lemma beam_moved n y s y' s2 s' l : ended y s -> stand y s l -> pop_scanline s y = (Some y', s2) -> beam n s2 y' = Ok s' -> exists l', active s' l' /\ moved y' s l s' l'.
  Proof.
    intros EN [HA AH SO KN] HP HB.
    destruct (beam_plane vs P M MK V PL lms ms ms_some ms_M y s y' s2 n s' l EN HA AH SO HP HB) as (es3 & l1 & l' & ST & ER & PM & A' & S5 & S6 & S7 & S8).
    pose proof (pop_ready vs P M MK V lms ms ms_some ms_M y s y' s2 n s' EN HP HB) as RD.
    assert (NDl : NoDup l) by apply HA.
    assert (ST' : standing vs P (edges s')) by (apply standing_all; [apply (rd_good _ _ _ _ _ _ RD)|apply (rd_placed _ _ _ _ _ _ RD)]).
    assert (ST3 : standing vs P es3).
    { intros i e E. destruct (proj2 ER i e E) as (f & F & S). destruct (ST' i f F) as [C Pl]. split.
      - apply (climbing_same vs f e); auto. rewrite S. unfold same_way. csplit; reflexivity.
      - apply (placed_same vs P f e); auto. rewrite S. unfold same_way. csplit; reflexivity. }
    assert (ST0 : standing vs P (edges s)) by (apply standing_all; [apply (ed_good _ _ _ _ _ _ EN)|apply (ed_placed _ _ _ _ _ _ EN)]).
    assert (FL : forall i, In i l' <-> In i l1) by (intros i; split; apply Permutation_in; [symmetry|]; exact PM).
    assert (OLD : forall i f, In i l' -> nth_error (edges s') i = Some f -> In i l /\ gone y' (edges s) i = false /\ exists e, nth_error (edges s) i = Some e /\ carried e f /\ e_x f = ex e y' /\
      ((vy (e_top e) <> y' /\ e_bot f = e_bot e /\ e_top f = e_top e) \/ (vy (e_top e) = y' /\ e_bot f = e_top e))).
    { intros i f Hi F. apply FL in Hi. pose proof Hi as Hi'. eapply stepped_gone in Hi' as [I1 I2]; [|exact ST|auto..]. split; auto. split; auto.
      destruct (stepped_get vs y' _ _ _ _ i ST NDl Hi) as (e & e' & E & E' & (D1 & D2 & D3 & D4) & K). exists e. split; auto.
      destruct (proj2 ER i e' E') as (f' & F' & S). rewrite F in F'. injection F' as <-. apply links_parts in S as (S1 & S2 & S3 & S4 & S5' & S6' & S7' & S8').
      split; [unfold carried; csplit; congruence|].
      destruct (AH i I1) as (e0 & E0 & He). rewrite E in E0. injection E0 as <-. destruct K as [(K1 & [K2 K2'] & K3 & K4)|(K1 & K2 & K3 & K4 & K5)].
      - split; [congruence|]. left. csplit; congruence.
      - split; [|right; split; congruence]. rewrite S3, K5. unfold ex. rewrite <- K1. symmetry. apply xat_top. apply He. }
    exists l'. split; auto. constructor; auto.
    - intros i f Hi F. destruct (OLD i f Hi F) as (A & B & e & E & (C & _) & D). split; auto. split; auto. exists e. split; auto.
    - intros i Hi G. apply FL. eapply stepped_gone; eauto.
    - intros t x.
      assert (XN : forall i, In i l1 -> xnow (edges s') i = xof (edges s) y' i /\ wtof lms (edges s') t i = wtof lms (edges s) t i).
      { intros i Hi. apply FL in Hi. assert (exists f, nth_error (edges s') i = Some f) as (f & F) by (eapply active_in; eauto).
        destruct (OLD i f Hi F) as (_ & _ & e & E & (D1 & D2 & D3 & D4) & X & _). unfold xnow, xof, wtof, wt. rewrite E, F, D1, D4. auto. }
      rewrite <- (left_sum_perm _ _ l1 l' _ PM). unfold left_sum.
      rewrite <- (stepped_sum vs P M MK PL y' _ es3 l l1 _ (before_x (xnow (edges s')) (wtof lms (edges s') t) x) ST ST0 ST3).
      + rewrite (gone_zero vs P M MK V PL lms ms ty ms_M y s y' s2 l t _ EN HA AH KN HP). symmetry. apply Z.add_0_r.
      + intros j Hj. unfold before_x. destruct (XN j Hj) as [-> ->]. reflexivity.
  Qed.

  (** *** The output *)
  Definition bx es (bs : list (bound R)) y c : R := match beof bs c with Some i => xof es y i | None => 0%R end.
  Definition bdx (bs : list (bound R)) c : Z := match nth_error bs c with Some x => ob_dx x | None => 0 end.
  Definition held es (bs : list (bound R)) pos i c : Prop := ebof es i = Some c /\ agree es bs pos i c.
  Definition edx es i : Z := match nth_error es i with Some e => e_dx e | None => 0 end.
  Lemma held_alt es bs pos k bl d : Forall2 (held es bs pos) k bl -> alt es d k -> altf (bdx bs) d bl.
  Proof.
    intros H. revert d. induction H as [|i c k bl H H2 IH]; intros d; cbn; auto. intros ((e & E & D) & A). split; auto.
    destruct H as [_ (e' & x & E' & X & Dx & _)]. rewrite E in E'. injection E' as <-. unfold bdx. rewrite X. congruence.
  Qed.
  Lemma held_back es bs pos k bl : Forall2 (held es bs pos) k bl -> forall c, In c bl -> exists i, In i k /\ held es bs pos i c.
  Proof. induction 1 as [|i c k bl H H2 IH]; [intros ? []|]; intros c' [<-|Hc]; [exists i; cbn; auto|]. destruct (IH c' Hc) as (j & J & K). exists j. cbn. auto. Qed.
  Lemma held_fwd es bs pos k bl : Forall2 (held es bs pos) k bl -> forall i, In i k -> exists c, In c bl /\ held es bs pos i c.
  Proof. induction 1 as [|i c k bl H H2 IH]; [intros ? []|]; intros i' [<-|Hc]; [exists c; cbn; auto|]. destruct (IH i' Hc) as (j & J & K). exists j. cbn. auto. Qed.
  Record landed y' s l pos bl s' pos1 bl1 : Prop := {
    ld_outs : outs s' pos1 bl1 [];
    ld_shrink : shrink (bx (edges s) (bounds s) y') bl bl1;
    ld_reads : reads (bounds s') (bx (edges s) (bounds s) y') (bdx (bounds s)) bl1;
    ld_tw : forall x z, tw (polys s') pos1 x z = tw (polys s) pos x z + zsum (tip y' x z (edges s)) l;
    ld_less : forall i c, ebof (edges s') i = Some c -> ebof (edges s) i = Some c /\ In c bl1 /\ (In i l -> gone y' (edges s) i = false);
    ld_same : forall i c, ebof (edges s) i = Some c -> In i l -> gone y' (edges s) i = false -> In c bl1 -> ~ In (xnow (edges s') i) (changes s') -> ebof (edges s') i = Some c;
    ld_pos : forall i e c, In i l -> nth_error (edges s) i = Some e -> ebof (edges s) i = Some c -> pos1 c = if Reqb (vy (e_top e)) y' then e_top e else e_bot e }.
  Lemma beam_landed n y s y' s2 s3 l k pos bl d : ended y s -> stand y s l -> pop_scanline s y = (Some y', s2) -> do_top_of_scanbeam s2 y' = Ok s3 ->
    outs s pos bl [] -> Forall2 (held (edges s) (bounds s) pos) k bl -> (forall i, In i k -> In i l) -> (d = 1 \/ d = -1) -> alt (edges s) d k ->
    (forall i j e f, In i l -> In j l -> i <> j -> nth_error (edges s) i = Some e -> nth_error (edges s) j = Some f -> ex e y' = ex f y' -> vy (e_top e) = y' /\ vy (e_top f) = y' /\ e_top e = e_top f) ->
    runs (length bl <= n)%nat (fun s4 => forall s', resort_ael s4 = Ok s' -> exists pos1 bl1, landed y' s l pos bl s' pos1 bl1) (close_output n s3 y').
  Proof.
    intros EN SD HP F1 O HD KL Hd AL MT. pose proof SD as [HA AH SO KN]. destruct (pop_gap vs P M MK V lms ms ms_M y s y' s2 EN HP) as [GAP LY].
    pose proof EN as [Vy SL G Q AP _ _].
    pose proof (pop_scanline_frame _ _ _ _ HP) as (P1 & P1' & P2 & P3 & P4 & _).
    unfold do_top_of_scanbeam in F1.
    set (s2' := w_changes s2 []) in *.
    assert (ES : edges s2' = edges s) by exact P3.
    assert (BS : bounds s2' = bounds s /\ polys s2' = polys s /\ obl s2' = obl s) by (unfold fout in P1'; injection P1' as X1 X2 X3; csplit; auto).
    destruct BS as (BS & PS & OS).
    assert (HA2 : active s2' ([] ++ l)).
    { destruct HA as (X1 & X2 & X3). split; [cbn; congruence|]. rewrite ES. auto. }
    assert (SL2 : verts s2' = vs) by (unfold VFrame.fin in P1; injection P1 as X _ _ _ _ _ _; cbn; rewrite X; apply SL).
    assert (ST : standing vs P (edges s2')) by (rewrite ES; now apply standing_all).
    assert (RG : forall i, In i l -> exists e, nth_error (edges s) i = Some e /\ (vy (e_bot e) < y' <= vy (e_top e))%R /\ (e_dx e = 1 \/ e_dx e = -1)).
    { intros i Hi. destruct (AH i Hi) as (e & E & He). exists e. csplit; auto.
      - destruct He as [[_ He] _]. lra.
      - destruct He as [[(Pl & C & _) He] _]. pose proof (top_height vs e C) as Ht. rewrite Ht in *. apply GAP; [apply Pl|lra].
      - apply (KN i e Hi E). }
    assert (O2 : outs s2' pos bl []).
    { eapply outs_less; [exact O|exact OS|exact PS| | |]; rewrite ?BS, ?ES; auto; [|apply (os_link _ _ _ _ O)]. intros c x E. exists x. unfold still. auto. }
    assert (LK : forall i c, ebof (edges s) i = Some c <-> beof (bounds s) c = Some i) by apply (os_link _ _ _ _ O).
    assert (INK : forall i c, ebof (edges s) i = Some c -> In i k /\ held (edges s) (bounds s) pos i c).
    { intros i c E. pose proof (os_live _ _ _ _ O i c E) as Hc. rewrite app_nil_r in Hc. destruct (held_back _ _ _ _ _ HD c Hc) as (j & Hj & J).
      replace i with j; auto. destruct J as [J _]. apply LK in J, E. congruence. }
    destruct (top_loop_outs vs P M MK PL y' (length (edges s2')) s2' (n_neg n_huge) (ael s2') [] l s3 pos bl SL2 HA2 (proj1 HA2) ST) as (pos1 & O3 & (T1 & T2 & T3 & T4)); auto; rewrite ?ES, ?BS, ?PS in *.
    { exact RG. }
    { intros i c _ E. apply INK in E as [_ [_ E]]. exact E. }
    assert (RD3 : reads (bounds s3) (bx (edges s) (bounds s) y') (bdx (bounds s)) bl).
    { intros c Hc. destruct (held_back _ _ _ _ _ HD c Hc) as (i & Hi & [E _]). destruct (RG i (KL i Hi)) as (e & Ee & _).
      destruct (T1 i e c (KL i Hi) Ee E) as (_ & x & x' & X & X' & S1 & S2). exists x'. csplit; auto.
      - unfold bx. rewrite (proj1 (LK i c) E). unfold xof. now rewrite Ee.
      - unfold bdx. now rewrite X. }
    assert (PX : forall a b, In a bl -> In b bl -> bx (edges s) (bounds s) y' a = bx (edges s) (bounds s) y' b -> pos1 a = pos1 b).
    { intros a b Ha Hb. destruct (held_back _ _ _ _ _ HD a Ha) as (i & Hi & [Ei _]). destruct (held_back _ _ _ _ _ HD b Hb) as (j & Hj & [Ej _]).
      destruct (RG i (KL i Hi)) as (e & Ee & _). destruct (RG j (KL j Hj)) as (f & Ff & _).
      unfold bx. rewrite (proj1 (LK i a) Ei), (proj1 (LK j b) Ej). unfold xof. rewrite Ee, Ff. intros X.
      rewrite (proj1 (T1 i e a (KL i Hi) Ee Ei)), (proj1 (T1 j f b (KL j Hj) Ff Ej)).
      destruct (Nat.eq_dec i j) as [->|NE]; [rewrite Ee in Ff; now injection Ff as <-|]. destruct (MT i j e f (KL i Hi) (KL j Hj) NE Ee Ff X) as (Q1 & Q2 & Q3).
      rewrite (proj2 (Reqb_true _ _) Q1), (proj2 (Reqb_true _ _) Q2). exact Q3. }
    eapply runs_weak; [apply (close_output_run pos1 (bx (edges s) (bounds s) y') (bdx (bounds s)) d Hd n s3 y' bl O3 RD3); auto; eapply held_alt; eauto| |auto].
    intros s4 F2 (bl1 & SH & O4 & TW4 & BK4 & EB4) s' H.
    pose proof (resort_drops s4 s' pos1 bl1 O4 H) as DR. pose proof (resort_changes _ _ H) as CH.
    exists pos1, bl1. constructor.
    - apply DR.
    - exact SH.
    - intros c Hc. destruct (RD3 c (shrink_in _ _ _ SH c Hc)) as (x & X & A & B). destruct (BK4 c Hc x X) as (x4 & X4 & S1 & S2 & S3).
      destruct (dr_stop _ _ _ _ _ DR c x4 X4) as (x5 & X5 & A5 & B5). exists x5. csplit; congruence.
    - intros x z. rewrite (dr_polys _ _ _ _ _ DR), TW4, T4. reflexivity.
    - intros i c E. apply (dr_less _ _ _ _ _ DR) in E. apply EB4 in E as [E Hc]. apply T3 in E. tauto.
    - intros i c E Hi Gi Hc NC. assert (E4 : ebof (edges s4) i = Some c) by (apply EB4; split; auto; apply T3; split; auto).
      destruct (ebof_some _ _ _ E4) as (e4 & N4 & _). rewrite (dr_same _ _ _ _ _ DR i e4 N4); auto. destruct (dr_x _ _ _ _ _ DR i e4 N4) as (e5 & N5 & X5).
      intros I4. apply NC. rewrite CH. apply tidy_sup. unfold xnow. rewrite N5, X5. exact I4.
    - intros i e c Hi E K. apply (T1 i e c Hi E K).
  Qed.
End Beam.
