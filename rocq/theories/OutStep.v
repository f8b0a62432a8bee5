(** From scan line to scan line: what is drawn and what is still to be drawn. *)
From Coq Require Import ZArith Bool List Reals Lra Lia Permutation Sorted.
From Verif Require Import Outcome Num Order OrdTac Rmath RTac Segment VState VAel VOut VMain VLemmas VFrame RingSpec LineSpec ClimbSpec AelSpec VAelProofs VEdges VAelRun VRun VClimb SortProofs
  ClipSpec WindSpec VWind VKept VPairs SpanSpec SpanRing SpanTop SpanStep SpanRun PlaneSpec PlaneGeo PlaneSort PlaneTop PlaneRun PlaneCount PlaneScan PlaneWind OutSpec OutPath OutAlt OutList OutClose OutMatch OutLink OutTop OutClear
  OutBeam OutGrow OutPar OutScan SpanSpec.
From Verif Require LensRun.
Import ListNotations.
Local Open Scope Z_scope.
Local Open Scope out.

(** Directions alternate if every change of the result goes with them. *)
Lemma kept_turns {T} {N : Num T} (s : clipper T) d l : directed s l -> all_counted (cfill s) s l ->
  (forall a i b t dd c, l = a ++ i :: b -> edge_is s i t dd -> in_result (cop s) (cfill s) s a c -> in_result (cop s) (cfill s) s (a ++ [i]) (negb c) -> dd = turn c d) ->
  forall k, kept s l k -> alt (edges s) d k.
Proof.
  induction l as [|i l IH] using rev_ind; intros D C HT k K.
  - inversion K. exact I.
  - pose proof D as D'. apply directed_app in D' as [D1 D2]. pose proof (all_counted_prefix _ _ _ _ C) as C1.
    assert (HT1 : forall a i0 b t dd c, l = a ++ i0 :: b -> edge_is s i0 t dd -> in_result (cop s) (cfill s) s a c -> in_result (cop s) (cfill s) s (a ++ [i0]) (negb c) -> dd = turn c d).
    { intros a j b t dd c Q. apply (HT a j (b ++ [i])). rewrite Q, <- app_assoc. reflexivity. }
    destruct (kept_parity s l D1 C1) as (k0 & K0 & R).
    destruct (D2 i (or_introl eq_refl)) as (t & dd & I & Dd). pose proof I as (e & m & E & _ & _ & Ed).
    destruct (in_result_ex (cop s) (cfill s) s (l ++ [i]) D) as [c R'].
    pose proof (contributing_ok s l i e _ c E D (C l i [] eq_refl) R R') as X.
    destruct (xorb (Nat.odd (length k0)) c) eqn:Q.
    + assert (K1 : kept s (l ++ [i]) (k0 ++ [i])) by (apply kept_app; auto; eapply kept_yes; eauto; constructor).
      rewrite (kept_fun _ _ _ K _ K1). apply alt_app. split; auto. simpl. split; auto. exists e. split; auto.
      rewrite Ed. eapply (HT l i [] t dd); eauto.
      replace (negb (Nat.odd (length k0))) with c by (destruct (Nat.odd (length k0)), c; simpl in *; congruence). auto.
    + assert (K1 : kept s (l ++ [i]) (k0 ++ [])) by (apply kept_app; auto; eapply kept_no; eauto; constructor).
      rewrite (kept_fun _ _ _ K _ K1), app_nil_r. auto.
Qed.

Section OStep.
  Variable vs : list (vertex R).
  Notation Y := (height vs).
  Variables P M : nat -> Prop.
  Hypothesis MK : marked vs P M.
  Hypothesis V : vs_valid vs.
  Hypothesis PL : plane vs P M.
  Implicit Types s : clipper R.
  Implicit Types es : list (edge R).
  Variable lms : list lmin.
  Variable ms : list nat.
  Notation lv := (lv lms).
  Hypothesis ms_some : forall m, In m ms -> exists x, nth_error lms m = Some x.
  Hypothesis ms_nodup : NoDup (map lv ms).
  Hypothesis ms_M : forall i, M i <-> In i (map lv ms).
  Hypothesis ms_sorted : StronglySorted (fun a b => nle (Y (lv a)) (Y (lv b))) ms.
  Variable ty : nat -> path_type.
  Hypothesis ty_side : forall j k, P j -> side vs true j k -> ty j = ty k.
  Hypothesis ty_min : forall m x, nth_error lms m = Some x -> lm_type x = ty (lm_vert x).
  Notation ready := (ready vs P lms ms).
  Notation ended := (ended vs P lms ms).
  Notation stand := (stand vs P lms ty).
  Variable B : list nat.
  Hypothesis B_nodup : NoDup B.
  Hypothesis B_P : forall i, In i B <-> P i.
  Variable op : clip_type.
  Variable fill : fill_rule.
  Variable d : Z.

  Definition wof (t : path_type) (x z : R) : Z := zsum (fun i => if ptype_eqb (ty i) t then vpass vs x z i else 0) B.
  (** The winding number that the output is to have *)
  Definition rb (x z : R) : bool := bool_op op (in_fill fill (wof subject x z)) (in_fill fill (wof clip x z)).
  Definition res (x z : R) : Z := if rb x z then d else 0.
  Definition one_way : Prop := (d = 1 \/ d = -1) /\ forall x x' z, wof subject x z <= wof subject x' z -> wof clip x z <= wof clip x' z ->
    if d =? 1 then rb x z = true -> rb x' z = true else rb x' z = true -> rb x z = true.
  Hypothesis OW : one_way.
  Let d_pm : d = 1 \/ d = -1 := proj1 OW.
  Definition ep es (x z : R) i : Z := match nth_error es i with Some e => epass x z e | None => 0 end.
  Record inv y s l k pos bl : Prop := {
    iv_ended : ended y s;
    iv_stand : stand y s l;
    iv_counts : all_counted (cfill s) s l;
    iv_kept : kept s l k;
    iv_outs : outs s pos bl [];
    iv_held : Forall2 (held (edges s) (bounds s) pos) k bl;
    iv_op : cop s = op;
    iv_fill : cfill s = fill;
    iv_done : forall x z, (z < y)%R -> tw (polys s) pos x z + zsum (ep (edges s) x z) k = res x z;
    iv_top : forall x z, (y <= z)%R -> tw (polys s) pos x z = 0 }.

  Lemma reach y s y' s2 l : ended y s -> stand y s l -> pop_scanline s y = (Some y', s2) -> (y < y')%R /\
    forall i, In i l -> exists e, nth_error (edges s) i = Some e /\ rises vs P e /\ (vy (e_bot e) <= y)%R /\ (y' <= vy (e_top e))%R.
  Proof.
    intros EN [HA AH SO KN] HP. destruct (pop_gap vs P M MK V lms ms ms_M y s y' s2 EN HP) as [GAP LY]. split; [rops; rbool; auto|].
    intros i Hi. destruct (AH i Hi) as (e & E & [[Re He] _]). exists e. csplit; auto; [lra|]. pose proof Re as (Pl & C & _). rewrite (top_height vs e C) in *. apply GAP; [apply Pl|lra].
  Qed.
  Lemma reach_up y s y' s2 l z : ended y s -> stand y s l -> pop_scanline s y = (Some y', s2) -> (y <= z <= y')%R -> upward (xof (edges s) z) l.
  Proof.
    intros EN SD HP Hz. destruct (reach y s y' s2 l EN SD HP) as [LY RG]. unfold upward. eapply fop_mono_in; [|exact (sd_sorted _ _ _ _ _ _ _ SD)].
    intros i j Hi Hj K. destruct (RG i Hi) as (e & E & Re & L & T). destruct (RG j Hj) as (f & F & Rf & L' & T').
    unfold xof. rewrite E, F. apply (before_le vs P y z e f); auto; try lra; split; auto; lra.
  Qed.
  (** Above the last scan line there is nothing. *)
  Lemma last_line y s s2 : ended y s -> pop_scanline s y = (None, s2) -> scans s = [] /\ forall x, P x -> (Y x <= y)%R.
  Proof.
    intros [Vy SL G Q AP (l & HA & EX & TQ) (ds & rs & D1 & D2 & D3 & D4)] HP.
    assert (SC : scans s = []).
    { unfold pop_scanline in HP. destruct Q as [Q1 Q2]. destruct (scans s) as [|x q] eqn:E; auto. exfalso. inversion Q2 as [|? ? [L Hh] _]; subst.
      cbn [drop_eq] in HP. rewrite neq_sym, (lt_not_eq _ _ Vy (height_valid _ _ V Hh) L) in HP. discriminate. }
    split; auto. intros x Px. destruct (Rle_lt_dec (Y x) y) as [L|L]; auto. exfalso.
    assert (NB : n_leb (Y x + 1)%R (Y x) = true).
    { apply (nothing_below vs P M MK (fun x => n_ltb y (Y x)) (Y x + 1)%R); auto; try exact I.
      - intros i j Pi Pj E K. rops. rbool. apply Rltb_true. lra.
      - intros m Mm K. apply ms_M, in_map_iff in Mm as (k & <- & Hk).
        rewrite D1, in_app_iff in Hk. destruct Hk as [Hk|Hk]; [apply D3 in Hk; exfalso; rops; rbool; lra|]. apply D4 in Hk as [_ Hk]. rewrite SC in Hk. contradiction.
      - intros fwd i k Pi SD _ Li Lk. assert (In (fwd, k) (map (side_of (edges s)) l)) as K.
        { apply EX. exists i. cbn [fst snd]. csplit; auto. rops. rbool. apply Rleb_true. lra. }
        apply in_map_iff in K as (j & K1 & K2). apply TQ in K2. rewrite SC in K2. contradiction.
      - rops. now apply Rltb_true. }
    rops. rbool. lra.
  Qed.
  Lemma last_none y s s2 l : ended y s -> stand y s l -> pop_scanline s y = (None, s2) -> l = [].
  Proof.
    intros EN SD HP. destruct (last_line y s s2 EN HP) as [SC _]. destruct EN as [_ _ _ _ _ (l0 & HA & EX & TQ) _]. rewrite (active_fun _ _ _ HA (sd_active _ _ _ _ _ _ _ SD)) in *. destruct l as [|i l]; auto. exfalso.
    specialize (TQ i (or_introl eq_refl)). rewrite SC in TQ. contradiction.
  Qed.
  Lemma wind_left y s y' s2 l x z t : ended y s -> stand y s l -> pop_scanline s y = (Some y', s2) -> (y <= z < y')%R -> left_sum (xof (edges s) z) (wtof lms (edges s) t) l x = wof t x z.
  Proof.
    intros EN SD HP Hz. destruct (reach y s y' s2 l EN SD HP) as [LY RG].
    destruct (wind_prefix vs P M MK V lms ms ms_M ty ty_side B B_nodup B_P y s y' s2 l x z t EN SD HP) as (l1 & l2 & -> & L1 & L2 & W); [lra|]. unfold wof. rewrite <- W.
    apply cut_sum.
    - intros i Hi. destruct (RG i (in_or_app l1 l2 i (or_introl Hi))) as (e & E & _). unfold xof. rewrite E. eauto.
    - intros i Hi. destruct (RG i (in_or_app l1 l2 i (or_intror Hi))) as (e & E & _). unfold xof. rewrite E. eauto.
  Qed.
  (** Every place in the list of active edges is a place in the plane. *)
  Lemma place y s y' s2 a b : ended y s -> stand y s (a ++ b) -> pop_scanline s y = (Some y', s2) ->
    exists x, forall t, zsum (wtof lms (edges s) t) a = wof t x ((y + y') / 2).
  Proof.
    intros EN SD HP. destruct (reach y s y' s2 (a ++ b) EN SD HP) as [LY RG]. set (z := ((y + y') / 2)%R). assert (Hz : (y < z < y')%R) by (unfold z; lra).
    assert (SO : ForallOrdPairs (fun i j => (xof (edges s) z i < xof (edges s) z j)%R) (a ++ b)).
    { eapply fop_mono_in; [|exact (sd_sorted _ _ _ _ _ _ _ SD)]. intros i j Hi Hj K. destruct (RG i Hi) as (e & E & _ & _ & T). destruct (RG j Hj) as (f & F & _ & _ & T').
      unfold xof. rewrite E, F. apply (K e f E F); lra. }
    assert (CUT : exists x, (forall i, In i a -> (xof (edges s) z i < x)%R) /\ (forall i, In i b -> (x <= xof (edges s) z i)%R)).
    { destruct b as [|j b].
      - clear - a. induction a as [|i a (x & A & _)]; [exists 0%R; split; intros ? []|]. exists (Rmax x (xof (edges s) z i + 1)). split; [|intros ? []].
        intros j [<-|Hj]; [|specialize (A j Hj)]; pose proof (Rmax_l x (xof (edges s) z i + 1)); pose proof (Rmax_r x (xof (edges s) z i + 1)); lra.
      - exists (xof (edges s) z j). clear - SO. induction a as [|i a IH]; cbn [app] in SO.
        + split; [intros ? []|]. inversion SO as [|? ? F _]; subst. rewrite Forall_forall in F. intros i [<-|Hi]; [lra|]. specialize (F i Hi). cbn beta in F. lra.
        + inversion SO as [|? ? F S2]; subst. rewrite Forall_forall in F. destruct (IH S2) as [A B0]. split; auto. intros i' [<-|Hi]; auto. apply F, in_or_app. right. now left. }
    destruct CUT as (x & A & B0). exists x. intros t. rewrite <- (wind_left y s y' s2 (a ++ b) x z t EN SD HP) by lra. symmetry. now apply cut_sum.
  Qed.
  Lemma ow_alt y s l k : ended y s -> stand y s l -> all_counted (cfill s) s l -> kept s l k -> cop s = op -> cfill s = fill -> alt (edges s) d k.
  Proof.
    intros EN SD AC KP IO IFi. pose proof EN as [_ (_ & SL2 & _) _ _ _ _ _]. assert (DIR : directed s l) by (eapply (stand_directed vs P lms ty y); eauto).
    destruct (pop_scanline s y) as [[y'|] s2] eqn:HP.
    2: { rewrite (last_none y s s2 l EN SD HP) in KP. inversion KP. exact I. }
    apply (kept_turns s d l DIR AC); auto. intros a i b t dd c Q I (w & v & W & V' & R1) (w' & v' & W2 & V2 & R2). subst l.
    assert (DD : dd = 1 \/ dd = -1).
    { destruct I as (e & m & E & _ & _ & <-). assert (Ii : In i (a ++ i :: b)) by (apply in_or_app; right; now left). apply (sd_known _ _ _ _ _ _ _ SD i e Ii E). }
    destruct (place y s y' s2 a (i :: b) EN SD HP) as (x & X1). change (i :: b) with ([i] ++ b) in SD. rewrite app_assoc in SD. destruct (place y s y' s2 (a ++ [i]) b EN SD HP) as (x' & X2).
    set (z := ((y + y') / 2)%R) in *. rewrite (wind_sum lms s subject a w SL2 W), (wind_sum lms s clip a v SL2 V'), !X1, IO, IFi in R1.
    pose proof (wind_sum lms s subject a w SL2 W) as Q1. pose proof (wind_sum lms s clip a v SL2 V') as Q2. pose proof (wind_sum lms s subject _ w' SL2 W2) as Q3. pose proof (wind_sum lms s clip _ v' SL2 V2) as Q4.
    rewrite X1 in Q1, Q2. rewrite X2 in Q3, Q4. rewrite Q3, Q4, IO, IFi in R2. fold (rb x z) in R1. fold (rb x' z) in R2.
    assert (ST : (w' = w + dd /\ v' = v) \/ (w' = w /\ v' = v + dd)).
    { destruct t.
      - left. split; [eapply wind_fun; [exact W2|]; apply wind_app; auto; now apply wind_one|]. rewrite <- (Z.add_0_r v). eapply wind_fun; [exact V2|]. apply wind_app; auto. eapply wind_one_other. exact I.
      - right. split; [|eapply wind_fun; [exact V2|]; apply wind_app; auto; now apply wind_one]. rewrite <- (Z.add_0_r w). eapply wind_fun; [exact W2|]. apply wind_app; auto. eapply wind_one_other. exact I. }
    pose proof (proj2 OW) as OW2. pose proof (OW2 x x' z) as O1. pose proof (OW2 x' x z) as O2. unfold turn.
    destruct d_pm as [Hd|Hd], DD as [-> | ->]; rewrite Hd in *; cbn [Z.eqb Pos.eqb] in *; destruct c; cbn [negb] in *; try reflexivity; exfalso.
    - rewrite O1 in R2; [discriminate|lia|lia|auto].
    - rewrite O2 in R1; [discriminate|lia|lia|auto].
    - rewrite O1 in R1; [discriminate|lia|lia|auto].
    - rewrite O2 in R2; [discriminate|lia|lia|auto].
  Qed.
  Lemma between y s y' s2 l k pos bl x z : inv y s l k pos bl -> pop_scanline s y = (Some y', s2) -> (z < y')%R -> tw (polys s) pos x z + zsum (ep (edges s) x z) k = res x z.
  Proof.
    intros [EN SD AC KP O HD IO IFi DN TP] HP Hz. destruct (Rlt_le_dec z y) as [L|L]; [auto|]. rewrite (TP x z L), Z.add_0_l.
    destruct (reach y s y' s2 l EN SD HP) as [LY RG]. assert (UP : upward (xof (edges s) z) l) by (eapply reach_up; eauto; lra).
    pose proof EN as [_ (_ & SL2 & _) _ _ _ _ _]. assert (DIR : directed s l) by (eapply (stand_directed vs P lms ty y); eauto).
    assert (KL : forall i, In i k -> In i l) by (intros i; eapply kept_in; eauto).
    transitivity (left_sum (xof (edges s) z) (edx (edges s)) k x).
    { unfold left_sum. apply zsum_ext. intros i Hi. destruct (RG i (KL i Hi)) as (e & E & Re & L1 & T1). unfold ep, epass, before_x, xof, edx. rewrite E.
      rewrite (proj2 (Rleb_true (vy (e_bot e)) z)), (proj2 (Rltb_true z (vy (e_top e)))) by lra. reflexivity. }
    rewrite (alt_left _ _ d).
    - rewrite (below_kept lms _ s l k x SL2 DIR AC KP UP), IO, IFi. unfold res, rb, inside.
      now rewrite !(wind_left y s y' s2 l x z) by (auto; lra).
    - eapply kept_up; eauto.
    - apply alt_altf. eapply ow_alt; eauto.
  Qed.
  Lemma meet y s y' s2 l i j e f : ended y s -> stand y s l -> pop_scanline s y = (Some y', s2) -> In i l -> In j l -> i <> j ->
    nth_error (edges s) i = Some e -> nth_error (edges s) j = Some f -> ex e y' = ex f y' -> vy (e_top e) = y' /\ vy (e_top f) = y' /\ e_top e = e_top f.
  Proof.
    intros EN SD HP Hi Hj NE E F Q. destruct (reach y s y' s2 l EN SD HP) as [LY RG]. destruct (RG i Hi) as (e' & E' & Re & L & T). rewrite E in E'. injection E' as <-.
    destruct (RG j Hj) as (f' & F' & Rf & L' & T'). rewrite F in F'. injection F' as <-.
    pose proof EN as [_ _ _ _ _ (l0 & HA & EX & _) _]. rewrite (active_fun _ _ _ HA (sd_active _ _ _ _ _ _ _ SD)) in *.
    destruct (edges_apart vs P M PL e f y' Re Rf) as [[K|K] [K'|K']]; try lra; auto.
    - apply (differ_ne (edges s) l i j); auto. apply EX.
    - csplit; auto. apply vec_eq; [|congruence]. unfold ex in Q. rewrite K in Q at 1. rewrite K' in Q at 1. rewrite !xat_top in Q; auto; [apply Rf|apply Re].
  Qed.
  Lemma top_at y e : rises vs P e -> vy (e_top e) = y -> e_top e = V2 (ex e y) y.
  Proof. intros (_ & _ & H) K. apply vec_eq; cbn; auto. unfold ex. rewrite <- K. symmetry. now apply xat_top. Qed.

  Lemma few y s l k (bl : list nat) pos : ended y s -> stand y s l -> kept s l k -> Forall2 (held (edges s) (bounds s) pos) k bl -> (length bl <= 2 * length vs)%nat.
  Proof.
    intros EN SD KP HD. pose proof EN as [_ _ _ _ _ (l0 & HA & EX & _) _]. rewrite (active_fun _ _ _ HA (sd_active _ _ _ _ _ _ _ SD)) in *. clear l0 HA.
    assert (L1 : (length bl <= length l)%nat).
    { assert (Q : length k = length bl) by (clear - HD; induction HD; cbn; auto). rewrite <- Q. clear - KP. induction KP; cbn; lia. }
    assert (L2 : (length (map (side_of (edges s)) l) <= length (list_prod [true; false] (seq 0 (length vs))))%nat).
    { apply NoDup_incl_length; [apply EX|]. intros [f j] Hj. apply EX in Hj as (i & _ & S & _). cbn [fst snd] in S. apply in_prod; [destruct f; cbn; auto|]. apply in_seq.
      assert (j < length vs)%nat; [|lia]. destruct f; [destruct S as (a & b & A & B0 & _)|destruct S as (a & b & A & B0 & _)]; apply nth_error_Some; congruence. }
    rewrite map_length, prod_length, seq_length in L2. cbn [length] in L2. lia.
  Qed.
  Lemma close_safe n y s y' s2 s3 l k pos bl : inv y s l k pos bl -> pop_scanline s y = (Some y', s2) -> do_top_of_scanbeam s2 y' = Ok s3 ->
    runs (2 * length vs <= n)%nat (fun s4 => forall s', resort_ael s4 = Ok s' -> exists pos1 bl1, landed vs y' s l pos bl s' pos1 bl1) (close_output n s3 y').
  Proof.
    intros [EN SD AC KP O HD IO IFi DN TP] HP HT. assert (LEN : (length bl <= 2 * length vs)%nat) by (eapply few; eauto).
    eapply runs_weak; [apply (beam_landed vs P M MK V PL lms ms ms_M ty n y s y' s2 s3 l k pos bl d)|auto|lia]; auto.
    - intros i; eapply kept_in; eauto.
    - eapply ow_alt; eauto.
    - exact (fun i j e f => meet y s y' s2 l i j e f EN SD HP).
  Qed.
  Lemma step n y s y' s2 s5 s6 s7 l k pos bl : inv y s l k pos bl -> pop_scanline s y = (Some y', s2) -> beam n s2 y' = Ok s5 ->
    insert_local_minima_to_ael s5 y' = Ok s6 -> recalc_windcnt s6 = Ok s7 ->
    (exists be, collect (length (edges s7)) (w_changes s7 []) (ael s7) [] = Ok be) ->
    runs (2 * length vs <= n)%nat (fun s' => exists l' k' pos' bl', inv y' s' l' k' pos' bl') (update_output_bound n s7 y').
  Proof.
    intros IV HP HB HI HR HC. pose proof IV as [EN SD AC KP O HD IO IFi DN TP].
    destruct (reach y s y' s2 l EN SD HP) as [LY RG].
    pose proof (fun i j e f => meet y s y' s2 l i j e f EN SD HP) as MT.
    destruct (beam_due vs P M MK V PL lms ms ms_some ms_M ty ty_side n y s y' s2 s5) as [RD (l5 & SD5 & TC5)]; auto.
    { split; auto. exists l. auto. }
    pose proof EN as [_ (_ & SL2 & _) _ _ _ _ _]. assert (DIR : directed s l) by (eapply (stand_directed vs P lms ty y); eauto).
    assert (KL : forall i, In i k -> In i l) by (intros i; eapply kept_in; eauto).
    assert (NDl : NoDup l) by apply (sd_active _ _ _ _ _ _ _ SD). assert (NDk : NoDup k) by (eapply kept_nodup; eauto).
    assert (ALT : alt (edges s) d k) by (eapply ow_alt; eauto).
    destruct (beam_moved vs P M MK V PL lms ms ms_some ms_M ty n y s y' s2 s5 l EN SD HP HB) as (l5' & A5 & MV).
    rewrite (active_fun _ _ _ A5 (sd_active _ _ _ _ _ _ _ SD5)) in *. clear l5' A5.
    assert (LD : exists pos1 bl1, landed vs y' s l pos bl s5 pos1 bl1).
    { unfold beam in HB. apply bind_ok in HB as (s3 & F1 & HB). apply bind_ok in HB as (s4 & F2 & HB). pose proof (close_safe n y s y' s2 s3 l k pos bl IV HP F1) as K. rewrite F2 in K. now apply K. }
    destruct LD as (pos1 & bl1 & LD).
    pose proof (os_link _ _ _ _ O) as LK.
    pose proof (beam_frame _ _ _ _ HB) as [FR _]. pose proof (pop_scanline_frame _ _ _ _ HP) as (FR2 & _).
    assert (OP5 : cop s5 = op /\ cfill s5 = fill) by (unfold VFrame.fin in *; split; congruence). destruct OP5 as [OP5 FI5].
    set (X := bx (edges s) (bounds s) y'). set (D := bdx (bounds s)).
    assert (BE : forall b, In b bl1 -> exists i e, In i k /\ nth_error (edges s) i = Some e /\ ebof (edges s) i = Some b /\ X b = ex e y' /\ D b = e_dx e /\ pos1 b = if Reqb (vy (e_top e)) y' then e_top e else e_bot e).
    { intros b Hb. apply (shrink_in _ _ _ (ld_shrink _ _ _ _ _ _ _ _ _ LD)) in Hb. destruct (held_back _ _ _ _ _ HD b Hb) as (i & Hi & [E (e & x & Ee & Ex & Dx & _)]). exists i, e. csplit; auto.
      - unfold X, bx. rewrite (proj1 (LK i b) E). unfold xof. now rewrite Ee.
      - unfold D, bdx. now rewrite Ex.
      - apply (ld_pos _ _ _ _ _ _ _ _ _ LD i e b); auto. }
    assert (UPL : upward (xof (edges s) y') l) by apply (mv_order _ _ _ _ _ _ _ MV).
    assert (UPB : upward X bl /\ forall x, below X bl x = below (xof (edges s) y') k x).
    { assert (FX : Forall2 (fun i c => X c = xof (edges s) y' i) k bl).
      { eapply Forall2_impl_in; [|exact HD]. intros i c Hi Hc [E _]. unfold X, bx. now rewrite (proj1 (LK i c) E). }
      assert (UPk : upward (xof (edges s) y') k) by (eapply kept_up; eauto). clear - FX UPk. split.
      - induction FX as [|i c k bl Q FX IH]; [constructor|]. apply upward_tail in UPk as [U L]. constructor; [|apply IH; auto]. apply Forall_forall. intros b Hb. rewrite Q.
        assert (exists j, In j k /\ X b = xof (edges s) y' j) as (j & Hj & ->); [|auto]. clear - FX Hb. induction FX as [|j c' k bl Q FX IH]; [destruct Hb|]. destruct Hb as [<-|Hb]; [exists j; cbn; auto|]. destruct (IH Hb) as (j' & J & K). exists j'. cbn. auto.
      - intros x. clear UPk. induction FX as [|i c k bl Q FX IH]; [reflexivity|]. rewrite !below_cons, IH, Q. reflexivity. }
    destruct UPB as [UPB BLW].
    assert (AR : arrive vs P lms ms ty y' s5 l5 pos1 bl1 X D d).
    { constructor; auto.
      - apply (ld_outs _ _ _ _ _ _ _ _ _ LD).
      - apply (ld_reads _ _ _ _ _ _ _ _ _ LD).
      - eapply shrink_altf; [apply (ld_shrink _ _ _ _ _ _ _ _ _ LD)|]. eapply held_alt; eauto.
      - eapply shrink_upward; [apply (ld_shrink _ _ _ _ _ _ _ _ _ LD)|auto].
      - pose proof (shrink_length _ _ _ (ld_shrink _ _ _ _ _ _ _ _ _ LD)). pose proof (few y s l k bl pos EN SD KP HD). lia.
      - intros x. rewrite <- (shrink_par _ _ _ (ld_shrink _ _ _ _ _ _ _ _ _ LD)). fold X. rewrite BLW, (below_kept lms _ s l k x SL2 DIR AC KP UPL), IO, IFi, OP5, FI5. unfold inside.
        now rewrite <- !(mv_sum _ _ _ _ _ _ _ MV).
      - intros a b Ha Hb Q. destruct (BE a Ha) as (i & e & Hi & E & Ea & Xa & _ & Pa). destruct (BE b Hb) as (j & f & Hj & F & Eb & Xb & _ & Pb). rewrite Pa, Pb.
        destruct (Nat.eq_dec i j) as [->|NE]; [rewrite E in F; now injection F as <-|]. destruct (MT i j e f (KL i Hi) (KL j Hj) NE E F) as (Q1 & Q2 & Q3); [congruence|].
        now rewrite (proj2 (Reqb_true _ _) Q1), (proj2 (Reqb_true _ _) Q2).
      - intros a b Ha Hb NE Q. destruct (BE a Ha) as (i & e & Hi & E & Ea & Xa & _). destruct (BE b Hb) as (j & f & Hj & F & Eb & Xb & _).
        rewrite Xa. replace (ex e y') with (xof (edges s) y' i) by (unfold xof; now rewrite E). apply (mv_told _ _ _ _ _ _ _ MV i j); auto; [congruence|]. unfold xof. rewrite E, F. congruence.
      - intros i f b Hi F Hb Q. destruct (mv_old _ _ _ _ _ _ _ MV i f Hi F) as (Il & _ & e & E & _ & Xe & CS). destruct (BE b Hb) as (j & ej & Hj & Ej & _ & Xb & _ & ->).
        destruct (Nat.eq_dec i j) as [->|NE].
        + rewrite E in Ej. injection Ej as <-. destruct CS as [(C1 & C2 & _)|[C1 C2]]; [rewrite (proj2 (Reqb_false _ _) C1)|rewrite (proj2 (Reqb_true _ _) C1)]; auto.
        + destruct (MT i j e ej Il (KL j Hj) NE E Ej) as (Q1 & Q2 & Q3); [congruence|]. rewrite (proj2 (Reqb_true _ _) Q2). destruct CS as [(C1 & _)|[_ C2]]; [contradiction|congruence].
      - intros b Hb. destruct (BE b Hb) as (j & e & Hj & E & _ & Xb & _ & ->). destruct (RG j (KL j Hj)) as (e' & E' & Re & L & T). rewrite E in E'. injection E' as <-.
        destruct (Reqb (vy (e_top e)) y') eqn:Q; rbool; [left; rewrite Xb; now apply top_at|right].
        assert (GN : gone vs y' (edges s) j = false) by (unfold gone; rewrite E; destruct (nth_error vs (e_vtop e)); auto; now rewrite (proj2 (Reqb_false _ _) Q)).
        pose proof (mv_stay _ _ _ _ _ _ _ MV j (KL j Hj) GN) as J5. destruct (sd_here _ _ _ _ _ _ _ SD5 j J5) as (f & F & _). exists j, f.
        destruct (mv_old _ _ _ _ _ _ _ MV j f J5 F) as (_ & _ & e' & E' & _ & Xe & CS). rewrite E in E'. injection E' as <-. csplit; auto; [congruence|]. destruct CS as [(_ & -> & _)|[C1 _]]; [lra|contradiction].
      - intros i f b Hi F Hb Q NC. destruct (mv_old _ _ _ _ _ _ _ MV i f Hi F) as (Il & GN & e & E & Dx & Xe & CS). destruct (BE b Hb) as (j & ej & Hj & Ej & Eb & Xb & Db & _).
        destruct (Nat.eq_dec i j) as [->|NE].
        + rewrite E in Ej. injection Ej as <-. split; [|congruence]. apply (ld_same _ _ _ _ _ _ _ _ _ LD j b); auto. unfold xnow. rewrite F, Q. exact NC.
        + exfalso. apply NC. rewrite Xb. replace (ex ej y') with (xof (edges s) y' j) by (unfold xof; now rewrite Ej). apply (mv_told _ _ _ _ _ _ _ MV j i); auto. unfold xof. rewrite E, Ej. congruence.
      - intros i c E5. destruct (ld_less _ _ _ _ _ _ _ _ _ LD i c E5) as (E & Hc & GN). split; auto. destruct (BE c Hc) as (j & ej & Hj & Ej & Eb & Xb & _).
        assert (i = j) by (apply LK in E, Eb; congruence). subst j. specialize (GN (KL i Hj)). pose proof (mv_stay _ _ _ _ _ _ _ MV i (KL i Hj) GN) as J5. split; auto.
        destruct (sd_here _ _ _ _ _ _ _ SD5 i J5) as (f & F & _). destruct (mv_old _ _ _ _ _ _ _ MV i f J5 F) as (_ & _ & e' & E' & _ & Xe & _). rewrite Ej in E'. injection E' as <-. unfold xnow. rewrite F. congruence.
      - intros i j f g Hi Hj NE F G Q. destruct (mv_old _ _ _ _ _ _ _ MV i f Hi F) as (Il & _ & e & E & _ & Xe & _). destruct (mv_old _ _ _ _ _ _ _ MV j g Hj G) as (Jl & _ & e' & E' & _ & Xe' & _).
        rewrite Xe. replace (ex e y') with (xof (edges s) y' i) by (unfold xof; now rewrite E). apply (mv_told _ _ _ _ _ _ _ MV i j); auto. unfold xof. rewrite E, E'. congruence. }
    assert (OP7 : cop s7 = op /\ cfill s7 = fill).
    { apply insert_local_minima_frame in HI as (HI & _). apply recalc_windcnt_frame in HR as (HR & _). unfold VFrame.fin in *. split; congruence. }
    eapply runs_weak; [apply (scan_settled vs P M MK V PL lms ms ms_some ms_nodup ms_M ms_sorted ty ty_side ty_min n y' s5 l5 pos1 bl1 X D d s6 s7 AR d_pm HI HR)| |auto]; auto.
    { intros EN7 l7 k7 S7 A7 K7. eapply ow_alt; eauto; apply OP7. }
    intros s' HU (EN' & l' & k' & pos' & bl' & SE & TWE).
    pose proof SE as [SD' AC' KP' O' HD' ST' _ CS' PAR'].
    pose proof (update_output_bound_frame _ _ _ _ HU) as (FR3 & _).
    destruct OP7 as [OP7 FI7]. exists l', k', pos', bl'. constructor; auto; try (clear - FR3 OP7 FI7; unfold VFrame.fin in *; congruence).
    - intros x z Hz. rewrite TWE, (ld_tw _ _ _ _ _ _ _ _ _ LD), <- (between y s y' s2 l k pos bl x z IV HP Hz).
      set (atop := fun i => match nth_error (edges s) i with Some e => Reqb (vy (e_top e)) y' | None => false end).
      assert (T1 : zsum (tip y' x z (edges s)) l = zsum (fun a => if atop a then ep (edges s) x z a else 0) k).
      { rewrite <- (zsum_sub Nat.eq_dec _ k l NDk NDl KL).
        - apply zsum_ext. intros i Hi. destruct (held_fwd _ _ _ _ _ HD i Hi) as (c & _ & [Eb (e & _ & E & _)]). unfold tip, atop, ep, ebof in *. rewrite E in *. rewrite Eb. reflexivity.
        - intros i Hi NI. unfold tip. destruct (nth_error (edges s) i) as [e|] eqn:E; auto. destruct (Reqb (vy (e_top e)) y'); auto. destruct (e_bound e) as [c|] eqn:Eb; auto. exfalso. apply NI.
          assert (Q : ebof (edges s) i = Some c) by (unfold ebof; now rewrite E). pose proof (os_live _ _ _ _ O i c Q) as Hc. rewrite app_nil_r in Hc. destruct (held_back _ _ _ _ _ HD c Hc) as (j & Hj & [J _]).
          replace i with j; auto. apply LK in J, Q. congruence. }
      assert (T2 : zsum (ep (edges s') x z) k' = zsum (ep (edges s) x z) (filter (fun a => negb (atop a)) k)).
      { assert (NDl' : NoDup l') by apply (sd_active _ _ _ _ _ _ _ SD'). assert (NDk' : NoDup k') by (eapply kept_nodup; eauto). assert (KL' : forall i, In i k' -> In i l') by (intros i; eapply kept_in; eauto).
        (* an edge that goes on *)
        assert (ON : forall i e, In i l -> nth_error (edges s) i = Some e -> vy (e_top e) <> y' -> In i l' /\ exists f, nth_error (edges s') i = Some f /\ e_x f = ex e y' /\ e_bot f = e_bot e /\ e_top f = e_top e /\ e_dx f = e_dx e).
        { intros i e Hi E NT.
          assert (GN : gone vs y' (edges s) i = false) by (unfold gone; rewrite E; destruct (nth_error vs (e_vtop e)); auto; now rewrite (proj2 (Reqb_false _ _) NT)).
          pose proof (mv_stay _ _ _ _ _ _ _ MV i Hi GN) as I5. pose proof (ST' i I5) as I'. split; auto.
          destruct (sd_here _ _ _ _ _ _ _ SD5 i I5) as (f5 & F5 & _). destruct (mv_old _ _ _ _ _ _ _ MV i f5 I5 F5) as (_ & _ & e' & E' & Dx & Xe & CS). rewrite E in E'. injection E' as <-.
          destruct CS as [(_ & C2 & C3)|[C1 _]]; [|contradiction].
          destruct (sd_here _ _ _ _ _ _ _ SD' i I') as (f & F & _). exists f. split; auto. destruct (RG i Hi) as (e' & E' & _ & L & _). rewrite E in E'. injection E' as <-.
          destruct (se_old _ _ _ _ _ _ _ _ _ _ _ _ SE i f5 I5 F5) as (f' & F' & K1 & K2 & K3 & K4). rewrite F in F'. injection F' as <-. csplit; congruence. }
        assert (SAME : forall i e, In i l -> nth_error (edges s) i = Some e -> vy (e_top e) <> y' -> (In i k <-> In i k')).
        { intros i e Hi E NT. destruct (ON i e Hi E NT) as (I' & f & F & Xf & Bf & _).
          assert (PK : par (xof (edges s) y') k (xnow (edges s')) k').
          { intros w. rewrite PAR', OP5, FI5. rewrite (below_kept lms _ s l k w SL2 DIR AC KP UPL), IO, IFi. unfold inside. now rewrite <- !(mv_sum _ _ _ _ _ _ _ MV). }
          apply (par_same _ k _ k' i PK); auto.
          - unfold xof, xnow. now rewrite E, F.
          - intros j Hj NE Q. destruct (RG j (KL j Hj)) as (g & G & _). unfold xof in Q. rewrite E, G in Q. apply NT. apply (MT j i g e (KL j Hj) Hi NE G E Q).
          - intros j Hj NE Q. destruct (sd_here _ _ _ _ _ _ _ SD' j (KL' j Hj)) as (g & G & Hg). destruct (sd_here _ _ _ _ _ _ _ SD' i I') as (f' & F' & Hf). rewrite F in F'. injection F' as <-.
            unfold xnow in Q. rewrite F, G in Q. destruct (RG i Hi) as (e' & E' & _ & L & _). rewrite E in E'. injection E' as <-.
            pose proof EN' as [_ _ _ _ _ (l0 & HA' & EX & _) _]. rewrite (active_fun _ _ _ HA' (sd_active _ _ _ _ _ _ _ SD')) in *.
            destruct (same_start vs P M PL y' g f) as [_ Q2]; [apply Hg|apply Hf|apply (differ_ne (edges s') l' j i); auto; apply EX|destruct Hg as [_ <-]; destruct Hf as [_ <-]; exact Q|]. rewrite Bf in Q2. lra. }
        rewrite <- (zsum_sub Nat.eq_dec (ep (edges s') x z) (filter (fun a => negb (atop a)) k) k'); auto.
        - apply zsum_ext. intros i Hi. apply filter_In in Hi as [Hi Hn]. unfold atop in Hn. destruct (RG i (KL i Hi)) as (e & E & _). rewrite E in Hn. rbool. destruct (ON i e (KL i Hi) E Hn) as (_ & f & F & _ & Q1 & Q2 & Q3).
          unfold ep. rewrite E, F. unfold epass, ex. now rewrite Q1, Q2, Q3.
        - now apply NoDup_filter.
        - intros i Hi. apply filter_In in Hi as [Hi Hn]. unfold atop in Hn. destruct (RG i (KL i Hi)) as (e & E & _). rewrite E in Hn. rbool. apply (SAME i e); auto.
        - intros i Hi NI. unfold ep. destruct (sd_here _ _ _ _ _ _ _ SD' i (KL' i Hi)) as (f & F & _). rewrite F.
          assert (Z0 : vy (e_bot f) = y' -> epass x z f = 0) by (intros Q; unfold epass; now rewrite (proj2 (Rleb_false (vy (e_bot f)) z)) by lra).
          destruct (CS' i f (KL' i Hi) F) as [(I5 & f5 & F5 & _ & Q2 & _)|Q]; auto. destruct (mv_old _ _ _ _ _ _ _ MV i f5 I5 F5) as (Il & _ & e & E & _ & _ & [(C1 & _)|[C1 C2]]).
          + exfalso. apply NI. apply filter_In. split; [now apply (SAME i e)|]. unfold atop. rewrite E. now rewrite (proj2 (Reqb_false _ _) C1).
          + apply Z0. congruence. }
      rewrite T1, T2, (zsum_split (ep (edges s) x z) atop k). lia.
    - intros x z Hz. rewrite TWE, (ld_tw _ _ _ _ _ _ _ _ _ LD), (TP x z), zsum_0; auto; [|lra]. intros i Hi. unfold tip. destruct (nth_error (edges s) i) as [e|]; auto.
      destruct (Reqb (vy (e_top e)) y') eqn:Q; auto. rbool. destruct (e_bound e); auto. unfold epass. rewrite (proj2 (Rltb_false z (vy (e_top e)))) by lra. now rewrite andb_false_r.
  Qed.
End OStep.
