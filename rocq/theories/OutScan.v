(** A scan line: the output follows the kept edges. *)
From Coq Require Import ZArith Bool List Reals Lra Lia Permutation Sorted.
From Verif Require Import Outcome Num Order OrdTac Rmath RTac Segment VState VAel VOut VMain VLemmas VFrame RingSpec LineSpec ClimbSpec AelSpec VAelProofs VEdges VAelRun VRun VClimb SortProofs
  ClipSpec WindSpec VWind VKept VPairs SpanSpec SpanRing SpanTop SpanStep SpanRun PlaneSpec PlaneGeo PlaneSort PlaneTop PlaneRun PlaneCount PlaneScan PlaneWind OutSpec OutPath OutAlt OutList OutClose OutMatch OutLink OutTop OutClear
  OutBeam OutGrow OutPar SpanSpec.
From Verif Require LensRun.
Import ListNotations.
Local Open Scope Z_scope.
Local Open Scope out.

Lemma Forall2_impl_in {A B} (Q Q' : A -> B -> Prop) l m : (forall a b, In a l -> In b m -> Q a b -> Q' a b) -> Forall2 Q l m -> Forall2 Q' l m.
Proof. intros H. induction 1; constructor; [apply H; cbn; auto|]. apply IHForall2. intros a b Ha Hb. apply H; cbn; auto. Qed.

Section OScan.
  Variable vs : list (vertex R).
  Notation Y := (height vs).
  Variables P M : nat -> Prop.
  Hypothesis MK : marked vs P M.
  Hypothesis V : vs_valid vs.
  Hypothesis PL : plane vs P M.
  Implicit Types s : clipper R.
  Implicit Types es : list (edge R).
  Variable lms : list lmin.
  Variable ms : list nat.
  Notation lv := (lv lms).
  Hypothesis ms_some : forall m, In m ms -> exists x, nth_error lms m = Some x.
  Hypothesis ms_nodup : NoDup (map lv ms).
  Hypothesis ms_M : forall i, M i <-> In i (map lv ms).
  Hypothesis ms_sorted : StronglySorted (fun a b => nle (Y (lv a)) (Y (lv b))) ms.
  Variable ty : nat -> path_type.
  Hypothesis ty_side : forall j k, P j -> side vs true j k -> ty j = ty k.
  Hypothesis ty_min : forall m x, nth_error lms m = Some x -> lm_type x = ty (lm_vert x).
  Notation ready := (ready vs P lms ms).
  Notation ended := (ended vs P lms ms).
  Notation stand := (stand vs P lms ty).
  Notation told_counts := (told_counts lms).

  Definition ebot es i : vec2 R := match nth_error es i with Some e => e_bot e | None => V2 0%R 0%R end.
  (** Before the minima of a scan line *)
  Record arrive y s l pos bl (X : nat -> R) (D : nat -> Z) d : Prop := {
    ar_ready : ready y s;
    ar_stand : stand y s l;
    ar_told : told_counts (cfill s) s l;
    ar_outs : outs s pos bl [];
    ar_reads : reads (bounds s) X D bl;
    ar_alt : altf D d bl;
    ar_up : upward X bl;
    ar_len : (length bl <= 2 * length vs)%nat;
    ar_par : forall x, Nat.odd (below X bl x) = inside lms (cop s) (cfill s) (edges s) (xnow (edges s)) l x;
    ar_bb : forall a b, In a bl -> In b bl -> X a = X b -> pos a = pos b;
    ar_two : forall a b, In a bl -> In b bl -> a <> b -> X a = X b -> In (X a) (changes s);
    ar_eb : forall i e b, In i l -> nth_error (edges s) i = Some e -> In b bl -> e_x e = X b -> e_bot e = pos b;
    ar_at : forall b, In b bl -> pos b = V2 (X b) y \/ exists i e, In i l /\ nth_error (edges s) i = Some e /\ e_x e = X b /\ (vy (e_bot e) < y)%R;
    ar_own : forall i e b, In i l -> nth_error (edges s) i = Some e -> In b bl -> e_x e = X b -> ~ In (X b) (changes s) -> ebof (edges s) i = Some b /\ D b = e_dx e;
    ar_live : forall i c, ebof (edges s) i = Some c -> In c bl /\ In i l /\ xnow (edges s) i = X c;
    ar_ee : forall i j e f, In i l -> In j l -> i <> j -> nth_error (edges s) i = Some e -> nth_error (edges s) j = Some f -> e_x e = e_x f -> In (e_x e) (changes s) }.

  Lemma bottom_at y e : here vs P y e -> vy (e_bot e) = y -> e_bot e = V2 (e_x e) y.
  Proof.
    intros [_ X] B. rewrite X. apply vec_eq; cbn; auto. unfold ex. rewrite <- B. symmetry. apply xat_bot.
  Qed.
  Lemma no_cancel y s l k k' : stand y s l -> differ (edges s) l -> (forall i, In i k -> In i l) -> NoDup k -> cancels s k k' -> k' = k.
  Proof.
    intros [HA AH SO KN] DF IN ND C. destruct C as [|a i j b k' e f E F (C1 & C2 & _) C']; auto. exfalso.
    assert (Ii : In i l) by (apply IN, in_or_app; right; now left). assert (Ij : In j l) by (apply IN, in_or_app; right; right; now left).
    assert (NE : i <> j) by (intros ->; apply NoDup_remove_2 in ND; apply ND, in_or_app; right; now left).
    destruct (AH i Ii) as (e' & E' & [[Re He] _]). rewrite E in E'. injection E' as <-. destruct (AH j Ij) as (f' & F' & [[Rf Hf] _]). rewrite F in F'. injection F' as <-.
    unfold veqb in C1, C2. apply andb_prop in C1 as [A1 A2], C2 as [A3 A4]. rops. rbool.
    assert (B1 : e_bot f = e_bot e) by now apply vec_eq. assert (B2 : e_top f = e_top e) by now apply vec_eq.
    set (z := ((vy (e_bot e) + vy (e_top e)) / 2)%R).
    destruct (edges_apart vs P M PL e f z Re Rf) as [[K|K] _]; try (unfold z in K; lra).
    - apply (differ_ne (edges s) l i j); auto.
    - unfold z; lra.
    - rewrite B1, B2; unfold z; lra.
    - unfold ex. now rewrite B1, B2.
  Qed.

  (** What the scan line leaves *)
  Record settled y s l s' l' k' pos bl : Prop := {
    se_stand : stand y s' l';
    se_counts : all_counted (cfill s') s' l';
    se_kept : kept s' l' k';
    se_outs : outs s' pos bl [];
    se_held : Forall2 (held (edges s') (bounds s') pos) k' bl;
    se_stay : forall i, In i l -> In i l';
    se_old : forall i e, In i l -> nth_error (edges s) i = Some e -> exists f, nth_error (edges s') i = Some f /\ e_x f = e_x e /\ e_bot f = e_bot e /\ e_top f = e_top e /\ e_dx f = e_dx e;
    se_case : forall i f, In i l' -> nth_error (edges s') i = Some f ->
      (In i l /\ exists e, nth_error (edges s) i = Some e /\ e_x f = e_x e /\ e_bot f = e_bot e /\ e_top f = e_top e /\ e_dx f = e_dx e) \/ vy (e_bot f) = y;
    se_par : forall x, Nat.odd (below (xnow (edges s')) k' x) = inside lms (cop s) (cfill s) (edges s) (xnow (edges s)) l x }.

  Lemma scan_settled n y s l pos bl X D d s1 s2 : arrive y s l pos bl X D d -> d = 1 \/ d = -1 -> insert_local_minima_to_ael s y = Ok s1 -> recalc_windcnt s1 = Ok s2 ->
    (ended y s2 -> forall l2 k, stand y s2 l2 -> all_counted (cfill s2) s2 l2 -> kept s2 l2 k -> alt (edges s2) d k) ->
    (exists be, collect (length (edges s2)) (w_changes s2 []) (ael s2) [] = Ok be) ->
    runs (2 * length vs <= n)%nat (fun s' => ended y s' /\ exists l' k' pos' bl', settled y s l s' l' k' pos' bl' /\ forall x z, tw (polys s') pos' x z = tw (polys s) pos x z)
      (update_output_bound n s2 y).
  Proof.
    intros AR Hd F1 F2 HALT (be & CO). pose proof AR as [RD SD TC O RB AL UP LEN PAR BB TW EB AT OWN LIVE EE]. assert (F1' := F1).
    assert (DUE : PlaneScan.due vs P lms ms ty y s) by (split; auto; exists l; auto).
    destruct (pre_swept vs P M MK V PL lms ms ms_some ms_nodup ms_M ms_sorted ty ty_side ty_min y s s1 s2 DUE F1 F2) as [EN2 (l2 & SD2 & AC2)].
    pose proof RD as [Vy SL G Q AP (l0 & HA & EX & TQ) (ds & rs & D1 & D2 & D3 & D4)]. rewrite (active_fun _ _ _ HA (sd_active _ _ _ _ _ _ _ SD)) in *. clear HA.
    unfold insert_local_minima_to_ael in F1. pose proof SL as (SL1 & SL2 & SL3).
    rewrite SL3, D1, D2, skipn_app, skipn_all, Nat.sub_diag in F1. cbn [app skipn] in F1.
    destruct (minima_grown vs P M MK V PL lms ms ms_some ms_nodup ms_M ms_sorted ty ty_side ty_min (cfill s) y rs s l s1 SL G Q AP) as (l1 & C1 & C2 & C3 & C4 & C5 & GR); auto.
    { intros m Hm. rewrite D1. apply in_or_app; auto. }
    { assert (ND' := ms_nodup). rewrite D1, map_app in ND'. now apply nodup_app_r in ND'. }
    { apply EX. }
    { intros i e m v Hi E Hm Ev Hy Eb. assert (In m ms) by (rewrite D1; apply in_or_app; auto).
      assert (Mm : M (lv m)) by (apply ms_M; now apply in_map).
      assert (K : In (side_of (edges s) i) (map (side_of (edges s)) l)) by now apply in_map. apply EX in K as (j & Pj & S & L & B).
      unfold side_of in S. rewrite E in S. cbn [edge_side fst snd] in S.
      destruct (AP i e E) as (_ & j' & w & Pj' & S' & W & EBo). assert (j' = j) by (eapply side_inj; eauto). subst j'.
      assert (lv m = j) by (apply (pl_low _ _ _ PL (lv m) j v w); auto; congruence). subst j.
      rewrite (height_some' vs _ v Ev), Hy in B. destruct B as [B|[_ B]]; [rops; rbool; lra|].
      pose proof (start_comes vs P M MK (fst (side_of (edges s) i)) (lv m) Mm) as K.
      pose proof (comes_fun vs P M MK true false _ _ B Pj K). discriminate. }
    pose proof (grown_outs lms y s s1 l l1 pos bl GR O) as O1.
    pose proof (recalc_drops s1 s2 pos bl O1 F2) as DR. pose proof (dr_outs _ _ _ _ _ DR) as O2.
    pose proof (recalc_windcnt_ec _ _ F2) as R2. pose proof (recalc_windcnt_frame _ _ F2) as (A1 & _ & _ & A4 & A2 & A3).
    (* the list of edges *)
    assert (AO1 : ordered (edges s1) l1).
    { apply ordered_R. eapply fop_mono_in; [|apply (stand_order vs P lms ty y s1 l1 C1)]. cbn beta. intros i j Hi Hj K e f E F. unfold xnow in K. now rewrite E, F in K. }
    assert (K1 : active s2 l1) by (eapply active_count; [exact R2|tauto|apply (sd_active _ _ _ _ _ _ _ C1)]).
    assert (S2 : stand y s2 l1).
    { eapply (stand_rel vs P lms ty same_but_count); [|exact R2|exact K1|exact C1]. intros e f S. split; [now apply count_spot|]. rewrite S. auto. }
    assert (LQ : l2 = l1) by exact (active_fun _ _ _ (sd_active _ _ _ _ _ _ _ SD2) K1). subst l2.
    assert (FI1 : lmins s1 = lmins s /\ cop s1 = cop s /\ cfill s1 = cfill s) by (unfold VFrame.fin in C5; csplit; congruence).
    assert (FI2 : lmins s2 = lmins s /\ cop s2 = cop s /\ cfill s2 = cfill s) by (destruct FI1 as (? & ? & ?); unfold VFrame.fin in A1; csplit; congruence).
    destruct FI1 as (L1 & O11 & O12). destruct FI2 as (L2 & O21 & O22).
    assert (DIR : directed s2 l1) by (eapply (stand_directed vs P lms ty y); [congruence|exact SD2]).
    destruct (kept_parity s2 l1 DIR AC2) as (k & KP2 & _).
    assert (NDl : NoDup l1) by apply K1. assert (NDk : NoDup k) by (eapply kept_nodup; eauto). assert (KL : forall i, In i k -> In i l1) by (intros i Hi; eapply kept_in; eauto).
    assert (PT12 : forall i e, nth_error (edges s1) i = Some e -> exists f, nth_error (edges s2) i = Some f /\ e_x f = e_x e /\ e_bot f = e_bot e /\ e_top f = e_top e /\ e_dx f = e_dx e /\ e_lmin f = e_lmin e).
    { intros i e E. destruct (proj2 R2 i e E) as (f & F & S). exists f. split; auto. rewrite S. csplit; reflexivity. }
    assert (SOME : forall i, In i l1 -> exists e1 e2 e3 : edge R, nth_error (edges s1) i = Some e1 /\ nth_error (edges s2) i = Some e2 /\ True /\ here vs P y e2).
    { intros i Hi. destruct (sd_here _ _ _ _ _ _ _ C1 i Hi) as (e1 & E1 & _). destruct (PT12 i e1 E1) as (e2 & E2 & _). exists e1, e2, e2. csplit; auto.
      destruct (sd_here _ _ _ _ _ _ _ S2 i Hi) as (e2' & E2' & He). rewrite E2 in E2'. injection E2' as <-. exact He. }
    assert (CASE : forall i e2, In i l1 -> nth_error (edges s2) i = Some e2 ->
      (In i l /\ exists e, nth_error (edges s) i = Some e /\ e_x e2 = e_x e /\ e_bot e2 = e_bot e /\ e_top e2 = e_top e /\ e_dx e2 = e_dx e) \/ (vy (e_bot e2) = y /\ In (e_x e2) (changes s1))).
    { intros i e2 Hi E2. destruct (SOME i Hi) as (e1 & _ & _ & E1 & _). destruct (PT12 i e1 E1) as (e2' & E2' & X1 & X2 & X3 & X4 & _). rewrite E2 in E2'. injection E2' as <-.
      rewrite X1, X2, X3, X4. destruct (gr_case _ _ _ _ _ _ GR i e1 Hi E1) as [(Il & e & E & S)|K]; [left|now right]. split; auto. exists e. rewrite S. csplit; auto. }
    assert (OLD : forall i e, In i l -> nth_error (edges s) i = Some e -> exists e2, In i l1 /\ nth_error (edges s2) i = Some e2 /\ e_x e2 = e_x e /\ e_bot e2 = e_bot e /\ e_top e2 = e_top e /\ e_dx e2 = e_dx e).
    { intros i e Hi E. destruct (gr_old _ _ _ _ _ _ GR i e Hi E) as (e1 & E1 & S). destruct (PT12 i e1 E1) as (e2 & E2 & X1 & X2 & X3 & X4 & _). exists e2. csplit; auto; [apply (gr_stay _ _ _ _ _ _ GR i Hi)|rewrite ?X1, ?X2, ?X3, ?X4, S; reflexivity..]. }
    assert (DF2 : differ (edges s2) l1).
    { eapply (differ_rel same_but_count); [|exact R2| |exact C2]; [intros e f S; now apply count_spot|]. intros j Hj. destruct (SOME j Hj) as (e1 & _ & _ & E1 & _). eauto. }
    assert (CH2 : changes s2 = tidy_changes (changes s1)).
    { unfold recalc_windcnt in F2. apply recalc_all_frame in F2 as (_ & K & _). unfold fq in K. cbn in K. congruence. }
    (* positions *)
    assert (XN : forall i, In i l1 -> xnow (edges s2) i = xnow (edges s1) i /\ forall t, wtof lms (edges s2) t i = wtof lms (edges s1) t i).
    { intros i Hi. destruct (SOME i Hi) as (e1 & e2 & _ & E1 & E2 & _ & _). destruct (PT12 i e1 E1) as (e2' & E2' & X1 & _ & _ & X4 & X5). rewrite E2 in E2'. injection E2' as <-.
      unfold xnow, wtof, wt. rewrite E1, E2. split; try congruence. intros t. now rewrite X4, X5. }
    assert (UPL : upward (xnow (edges s2)) l1) by apply (stand_order vs P lms ty y s2 l1 SD2).
    assert (PAR' : forall x, Nat.odd (below (xnow (edges s2)) k x) = inside lms (cop s) (cfill s) (edges s) (xnow (edges s)) l x).
    { intros x. rewrite (below_kept lms _ s2 l1 k x) by (auto; congruence). rewrite O21, O22. unfold inside.
      rewrite <- !(gr_sum _ _ _ _ _ _ GR). f_equal; f_equal; apply left_sum_ext; intros i Hi; destruct (XN i Hi) as (Q1 & Q2); auto. }
    clear EX. set (EX := xnow (edges s2)). set (ED := edx (edges s2)). set (EP := ebot (edges s2)).
    assert (RE : eread EX ED EP (edges s2) k).
    { intros i Hi. destruct (SOME i (KL i Hi)) as (_ & e2 & _ & _ & E2 & _). exists e2. unfold EX, ED, EP, xnow, edx, ebot. rewrite E2. csplit; auto. }
    assert (UPK : upward EX k).
    { eapply kept_up; [exact KP2|]. exact (stand_order vs P lms ty y s2 l1 S2). }
    assert (PARK : par EX k X bl).
    { intros x. unfold EX. now rewrite PAR', PAR. }
    assert (ALK : altf ED d k) by (apply alt_altf, (HALT EN2 l1); auto).
    assert (START : forall i j e f, In i l1 -> In j l1 -> i <> j -> nth_error (edges s2) i = Some e -> nth_error (edges s2) j = Some f -> e_x e = e_x f -> e_bot e = V2 (e_x e) y /\ e_bot f = V2 (e_x f) y).
    { intros i j e f Hi Hj NE E F Q1. destruct (SOME i Hi) as (_ & e' & _ & _ & E' & _ & He). rewrite E in E'. injection E' as <-. destruct (SOME j Hj) as (_ & f' & _ & _ & F' & _ & Hf). rewrite F in F'. injection F' as <-.
      destruct (same_start vs P M PL y e f) as [B1' B2']; [apply He|apply Hf| | |split; now apply bottom_at].
      - apply (differ_ne (edges s2) l1 i j); auto.
      - destruct He as [_ <-]. destruct Hf as [_ <-]. exact Q1. }
    assert (EEP : forall e f, In e k -> In f k -> EX e = EX f -> EP e = EP f).
    { intros e f He Hf Q1. destruct (Nat.eq_dec e f) as [->|NE]; auto. destruct (RE e He) as (e2 & E2 & X1 & _ & P1). destruct (RE f Hf) as (f2 & F2' & X2 & _ & P2). rewrite <- P1, <- P2.
      destruct (START e f e2 f2) as [-> ->]; auto; [congruence|]. rewrite X1, X2, Q1. reflexivity. }
    assert (EBP : forall e b, In e k -> In b bl -> EX e = X b -> EP e = pos b).
    { intros e b He Hb Q1. destruct (RE e He) as (e2 & E2 & X1 & _ & P1). rewrite <- P1. destruct (CASE e e2 (KL e He) E2) as [(Il & e0 & E0 & Y1 & Y2 & _)|[K1' K2']].
      - rewrite Y2. apply (EB e e0 b); auto. congruence.
      - destruct (SOME e (KL e He)) as (_ & e' & _ & _ & E' & _ & Hh). rewrite E2 in E'. injection E' as <-. rewrite (bottom_at y e2 Hh K1').
        destruct (AT b Hb) as [->|(i & e0 & Ii & E0 & Z1 & Z2)]; [f_equal; congruence|]. exfalso. destruct (OLD i e0 Ii E0) as (i2 & Ii1 & E2i & W1 & W2 & _).
        assert (NE : e <> i) by (intros ->; rewrite E2 in E2i; injection E2i as <-; rewrite W2 in K1'; lra).
        destruct (START e i e2 i2) as [_ W3]; auto; [congruence|]. rewrite <- W2, W3 in Z2. cbn in Z2. lra. }
    assert (CLEAR : forall i, In i l1 -> In (EX i) (changes s1) -> ebof (edges s2) i = None).
    { intros i Hi K. destruct (SOME i Hi) as (e1 & _ & _ & E1 & _). apply (recalc_clears s1 l1 s2 pos bl O1 (sd_active _ _ _ _ _ _ _ C1) AO1 F2 i e1 Hi E1). destruct (XN i Hi) as (Q2 & _). unfold EX in K. rewrite Q2 in K. unfold xnow in K. now rewrite E1 in K. }
    assert (KEEP : forall e b, In e k -> In b bl -> EX e = X b -> ~ In (X b) (changes s1) -> ebof (edges s2) e = Some b /\ D b = ED e).
    { intros e b He Hb Q1 NC. destruct (RE e He) as (e2 & E2 & X1 & D1' & _). destruct (CASE e e2 (KL e He) E2) as [(Il & e0 & E0 & Y1 & _ & _ & Y4)|[_ K2']]; [|elim NC; congruence].
      destruct (OWN e e0 b Il E0 Hb) as [W1 W2]; [congruence|intros K; apply NC; now apply (gr_ch _ _ _ _ _ _ GR)|]. split; [|congruence].
      destruct (SOME e (KL e He)) as (e1 & _ & _ & E1 & _). rewrite (dr_same _ _ _ _ _ DR e e1 E1); [now rewrite (gr_eb _ _ _ _ _ _ GR)|].
      destruct (XN e (KL e He)) as (Q2 & _). assert (e_x e1 = X b) as -> by (rewrite <- Q1; unfold EX; rewrite Q2; unfold xnow; now rewrite E1). exact NC. }
    assert (NEWC : forall e f, In e k -> In f k -> e <> f -> EX e = EX f -> In (EX e) (changes s1)).
    { intros e f He Hf NE Q1. destruct (RE e He) as (e2 & E2 & X1 & _). destruct (RE f Hf) as (f2 & F2' & X2 & _).
      destruct (CASE e e2 (KL e He) E2) as [(Il & e0 & E0 & Y1 & _)|[_ K]]; [|congruence]. destruct (CASE f f2 (KL f Hf) F2') as [(Il' & f0 & F0 & Y1' & _)|[_ K]]; [|congruence].
      apply (gr_ch _ _ _ _ _ _ GR). rewrite <- X1, Y1. apply (EE e f e0 f0); auto. congruence. }
    assert (MI : mi X D EX ED EP k (w_changes s2 []) pos d k bl [] [] []).
    { constructor; auto.
      - apply changes_outs. exact O2.
      - intros c Hc. destruct (RB c Hc) as (x & Ex & A & B). pose proof (gr_out _ _ _ _ _ _ GR) as FO. unfold fout in FO. injection FO as FO1 _ _. rewrite <- FO1 in Ex.
        destruct (dr_stop _ _ _ _ _ DR c x Ex) as (x' & Ex' & Ax & Bx). exists x'. csplit; auto; congruence.
      - apply subseq_refl.
      - contradiction.
      - intros c [].
      - intros e b He Hb Q1. cbn [edges bounds w_changes]. destruct (in_dec Req_EM_T (X b) (changes s1)) as [I|NI]; [left|right; now apply KEEP].
        split; [|apply CLEAR; auto; now rewrite Q1]. destruct (beof (bounds s2) b) as [i|] eqn:Bi; auto. exfalso.
        apply (os_link _ _ _ _ O2) in Bi. pose proof Bi as Bi'. apply (dr_less _ _ _ _ _ DR) in Bi'. rewrite (gr_eb _ _ _ _ _ _ GR) in Bi'. destruct (LIVE i b Bi') as (_ & Il & Xi).
        rewrite CLEAR in Bi; [discriminate|apply (gr_stay _ _ _ _ _ _ GR); auto|].
        assert (EX i = X b) as ->; auto. rewrite <- Xi. destruct (sd_here _ _ _ _ _ _ _ SD i Il) as (e0 & E0 & _). destruct (OLD i e0 Il E0) as (e2 & _ & E2 & W & _). unfold EX, xnow. now rewrite E0, E2.
      - intros e f He Hf NE Q1. apply CLEAR; eauto. }
    assert (TWS : forall x z, tw (polys s2) pos x z = tw (polys s) pos x z).
    { intros x z. rewrite (dr_polys _ _ _ _ _ DR). pose proof (gr_out _ _ _ _ _ _ GR) as FO. unfold fout in FO. injection FO as _ -> _. reflexivity. }
    assert (SE : forall s' pos' bl', update_output_bound n s2 y = Ok s' -> outs s' pos' bl' [] ->
      Forall2 (fun e c => ebof (edges s') e = Some c /\ pos' c = EP e /\ exists x, nth_error (bounds s') c = Some x /\ ob_dx x = ED e) k bl' ->
      (forall x z, tw (polys s') pos' x z = tw (polys s2) pos x z) ->
      ended y s' /\ exists l' k' pos' bl', settled y s l s' l' k' pos' bl' /\ forall x z, tw (polys s') pos' x z = tw (polys s) pos x z).
    { intros s' pos' bl' H W1 W2 W3.
      destruct (scan_at_swept vs P M MK V PL lms ms ms_some ms_nodup ms_M ms_sorted ty ty_side ty_min n y s s' DUE) as [EN (l' & SD' & AC')].
      { unfold scan_at. rewrite F1'. cbn [bind]. rewrite F2. exact H. }
      split; [exact EN|]. exists l1, k, pos', bl'. split; [|intros x z; rewrite W3; apply TWS].
      pose proof (update_output_bound_eb _ _ _ _ H) as R3. pose proof (update_output_bound_frame _ _ _ _ H) as (B1 & B2 & B0 & B3 & B4).
      assert (A' : active s' l1) by (eapply active_bound; [exact R3|tauto|exact K1]).
      assert (LQ : l' = l1) by exact (active_fun _ _ _ (sd_active _ _ _ _ _ _ _ SD') A'). subst l'.
      assert (KP : kept s' l1 k).
      { eapply (kept_rel same_but_bound); [|exact R3|unfold VFrame.fin in B1; congruence..|exact KP2]. intros e f ->. auto. }
      assert (PT23 : forall i e, nth_error (edges s2) i = Some e -> exists f, nth_error (edges s') i = Some f /\ e_x f = e_x e /\ e_bot f = e_bot e /\ e_top f = e_top e /\ e_dx f = e_dx e /\ e_lmin f = e_lmin e).
      { intros i e E. destruct (proj2 R3 i e E) as (f & F & S). exists f. split; auto. rewrite S. csplit; reflexivity. }
      constructor; auto.
      - eapply Forall2_impl_in; [|exact W2]. intros e c He Hc (Z1 & Z2 & x & Ex & Z3). split; auto.
        destruct (RE e He) as (e2 & E2 & _ & Y2 & Y3). destruct (PT23 e e2 E2) as (e3 & E3 & _ & Q2 & _ & Q4 & _). exists e3, x. csplit; auto; congruence.
      - apply GR.
      - intros i e Hi E. destruct (OLD i e Hi E) as (e2 & _ & E2 & X1 & X2 & X3 & X4). destruct (PT23 i e2 E2) as (f & F & Z1 & Z2 & Z3 & Z4 & _). exists f. csplit; congruence.
      - intros i f Hi F. destruct (SOME i Hi) as (_ & e2 & _ & _ & E2 & _). destruct (PT23 i e2 E2) as (f' & F' & X1 & X2 & X3 & X4 & _). rewrite F in F'. injection F' as <-. rewrite X1, X2, X3, X4.
        destruct (CASE i e2 Hi E2) as [K|[K _]]; auto.
      - intros x. rewrite <- PAR'. f_equal. apply below_ext. intros i Hi. destruct (SOME i (KL i Hi)) as (_ & e2 & _ & _ & E2 & _). destruct (PT23 i e2 E2) as (f & F & X1 & _). unfold xnow. now rewrite E2, F. }
    destruct (changes s2) as [|c0 cs] eqn:CQ.
    - (* nothing changed *)
      assert (U2 : update_output_bound n s2 y = Ok s2) by (unfold update_output_bound; now rewrite CQ). rewrite U2 in *. cbn [runs].
      assert (NOC : forall x, ~ In x (changes s1)) by (intros x K; apply tidy_sup in K; rewrite <- CH2 in K; exact K).
      apply (SE s2 pos bl); auto.
      assert (F2' : Forall2 (fun e b => EX e = X b) k bl).
      { apply par_strict; auto.
        - destruct (os_chain _ _ _ _ O) as (_ & _ & N). exact N.
        - intros e f He Hf NE Q1. apply (NOC (EX e)). eapply NEWC; eauto.
        - intros a b Ha Hb NE Q1. apply (NOC (X a)). apply (gr_ch _ _ _ _ _ _ GR). eapply TW; eauto. }
      eapply Forall2_impl_in; [|exact F2']. intros e b He Hb Q1. cbn beta in Q1. destruct (KEEP e b He Hb Q1 (NOC _)) as [W1 W2]. csplit; auto.
      + symmetry. now apply EBP.
      + destruct (mi_b _ _ _ _ _ _ _ _ _ _ _ _ _ _ MI b Hb) as (x & Ex & _ & Dx). exists x. split; auto. congruence.
    - assert (CN : changes s2 <> []) by (rewrite CQ; discriminate).
      assert (BE : rev be = k).
      { assert (KW : kept (w_changes s2 []) l1 k).
        { apply (kept_rel eq s2); [intros e f ->; auto| |reflexivity..|exact KP2]. split; auto. intros i e E. exists e. auto. }
        pose proof (fun A B => collect_ok _ (w_changes s2 []) (ael s2) [] be [] l1 k A B CO KW) as K. cbn [rev app] in K.
        apply (no_cancel y (w_changes s2 []) l1 k); auto.
        - destruct S2; constructor; auto.
        - apply K; auto. apply K1. }
      eapply runs_weak; [exact (update_post X D EX ED EP k NDk n s2 y pos d bl be CN MI CO BE)| |lia].
      intros s' H (pos' & bl' & W1 & W2 & W3). apply (SE s' pos' bl'); auto.
  Qed.
End OScan.
