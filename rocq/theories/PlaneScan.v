(** Order and winding counts at every scan line. *)
From Coq Require Import ZArith Bool List Reals Lra Lia Permutation Sorted.
From Verif Require Import Outcome Num Order OrdTac Rmath RTac Segment VState VAel VOut VMain VLemmas VFrame RingSpec LineSpec ClimbSpec AelSpec VAelProofs VEdges VAelRun VRun VClimb SortProofs
  ClipSpec WindSpec VWind SpanSpec SpanRing SpanTop SpanStep SpanRun PlaneSpec PlaneGeo PlaneSort PlaneTop PlaneRun PlaneCount.
Import ListNotations.
Local Open Scope Z_scope.
Local Open Scope out.

Section Scan.
  Variable vs : list (vertex R).
  Notation Y := (height vs).
  Variables P M : nat -> Prop.
  Hypothesis MK : marked vs P M.
  Hypothesis V : vs_valid vs.
  Hypothesis PL : plane vs P M.
  Implicit Types s : clipper R.
  Implicit Types es : list (edge R).
  Variable lms : list lmin.
  Variable ms : list nat.
  Notation lv := (lv lms).
  Hypothesis ms_some : forall m, In m ms -> exists x, nth_error lms m = Some x.
  Hypothesis ms_nodup : NoDup (map lv ms).
  Hypothesis ms_M : forall i, M i <-> In i (map lv ms).
  Hypothesis ms_sorted : StronglySorted (fun a b => nle (Y (lv a)) (Y (lv b))) ms.
  Variable ty : nat -> path_type.
  Hypothesis ty_side : forall j k, P j -> side vs true j k -> ty j = ty k.
  Hypothesis ty_min : forall m x, nth_error lms m = Some x -> lm_type x = ty (lm_vert x).
  Notation ready := (ready vs P lms ms).
  Notation ended := (ended vs P lms ms).
  Notation all_here := (all_here vs P).
  Notation known := (known lms ty).

  (** Every edge is at a changed x, or alone at its x with right counts. *)
  Definition told_counts fill s l : Prop := forall i, In i l -> In (xnow (edges s) i) (changes s) \/ right_at lms fill (edges s) l i.
  Record stand (y : R) s l : Prop := {
    sd_active : active s l; sd_here : all_here y (edges s) l; sd_sorted : sorted y (edges s) l; sd_known : known (edges s) l }.

  Lemma all_placed_new s v vp vn p n m i0 : all_placed vs P (edges s) -> P p -> P n -> P i0 -> nth_error vs i0 = Some v -> side vs false i0 p -> side vs true i0 n ->
    all_placed vs P (edges s ++ [new_edge v vp 1 p m; new_edge v vn (-1) n m]).
  Proof.
    intros AP Pp Pn P0 Ev Sp Sn i e E. destruct (Nat.lt_ge_cases i (length (edges s))) as [L|L].
    - rewrite nth_error_app1 in E by auto. eauto.
    - rewrite nth_error_app2 in E by auto. destruct (i - length (edges s))%nat as [|[|k]]; cbn in E; [| |destruct k; discriminate]; injection E as <-; (split; [assumption|]); exists i0, v; auto.
  Qed.
  Lemma minimum_counts fill y s m x v l s' : verts s = vs -> lmins s = lms -> all_placed vs P (edges s) -> nth_error lms m = Some x -> M (lm_vert x) -> nth_error vs (lm_vert x) = Some v ->
    vy (v_pt v) = y -> stand y s l -> differ (edges s) l -> told_counts fill s l ->
    (forall i e, In i l -> nth_error (edges s) i = Some e -> e_bot e <> v_pt v) ->
    insert_minimum s m = Ok s' -> edges_ok vs (edges s') ->
    exists l', stand y s' l' /\ differ (edges s') l' /\ told_counts fill s' l' /\ all_placed vs P (edges s') /\
      (forall i e, In i l' -> nth_error (edges s') i = Some e -> e_bot e = v_pt v \/ exists e0, In i l /\ nth_error (edges s) i = Some e0 /\ e_bot e = e_bot e0).
  Proof.
    intros HV HL AP Hx Mx Ev Hy [HA AH SO KN] D TC NB H OK. rewrite <- HL in Hx.
    destruct (minimum_plane vs P M MK V PL lms ms ms_sorted y s m x v l s' HV AP Hx Mx Ev Hy HA AH SO D NB H OK) as (p & n & vp & vn & l' & Sp & Sn & Vp & Vn & ER & PM & A' & SO' & AH' & D' & C1 & C2).
    pose proof (start_P _ _ _ MK _ Mx) as Px.
    assert (Pp : P p) by exact (side_P vs P M MK _ _ _ Px Sp). assert (Pn : P n) by exact (side_P vs P M MK _ _ _ Px Sn).
    set (a := length (edges s)) in *. set (ea := new_edge v vp 1 p m) in *. set (eb := new_edge v vn (-1) n m) in *.
    assert (N1 : nth_error (edges s ++ [ea; eb]) a = Some ea) by (rewrite nth_error_app2, Nat.sub_diag by (unfold a; lia); reflexivity).
    assert (N2 : nth_error (edges s ++ [ea; eb]) (S a) = Some eb) by (rewrite nth_error_app2 by (unfold a; lia); replace (S a - length (edges s))%nat with 1%nat by (unfold a; lia); reflexivity).
    destruct (proj2 ER a ea N1) as (fa & Fa & Sa). destruct (proj2 ER (S a) eb N2) as (fb & Fb & Sb).
    assert (OL : forall i, In i l -> exists e f, nth_error (edges s) i = Some e /\ nth_error (edges s') i = Some f /\ same_edge e f).
    { intros i Hi. destruct (AH i Hi) as (e & E & _). assert (E' : nth_error (edges s ++ [ea; eb]) i = Some e) by (rewrite nth_error_app1; auto; now apply nth_lt in E).
      destruct (proj2 ER i e E') as (f & F & S). eauto. }
    assert (CS : forall i, In i l' -> i = a \/ i = S a \/ In i l).
    { intros i Hi. eapply Permutation_in in Hi; [|symmetry; exact PM]. cbn in Hi. intuition. }
    assert (XL : forall i, In i l -> xnow (edges s') i = xnow (edges s) i /\ forall t, wtof lms (edges s') t i = wtof lms (edges s) t i).
    { intros i Hi. destruct (OL i Hi) as (e & f & E & F & S). unfold xnow, wtof, wt. rewrite E, F. rewrite S. auto. }
    assert (Xa : xnow (edges s') a = vx (v_pt v)) by (unfold xnow; rewrite Fa, Sa; reflexivity).
    assert (Xb : xnow (edges s') (S a) = vx (v_pt v)) by (unfold xnow; rewrite Fb, Sb; reflexivity).
    exists l'. split; [|csplit].
    - constructor; auto. intros i f Hi F. destruct (CS i Hi) as [->|[->|Hl]].
      + rewrite Fa in F. injection F as <-. rewrite Sa. cbn. split; auto. exists x. rewrite <- HL. split; auto. rewrite (ty_min m x) by (rewrite <- HL; auto). exact (ty_any vs P M MK ty ty_side _ _ _ Px Sp).
      + rewrite Fb in F. injection F as <-. rewrite Sb. cbn. split; auto. exists x. rewrite <- HL. split; auto. rewrite (ty_min m x) by (rewrite <- HL; auto). exact (ty_any vs P M MK ty ty_side _ _ _ Px Sn).
      + destruct (OL i Hl) as (e & f' & E & F' & S). rewrite F in F'. injection F' as <-. rewrite S. cbn. exact (KN i e Hl E).
    - exact D'.
    - intros i Hi. destruct (CS i Hi) as [->|[->|Hl]]; [left; now rewrite Xa|left; now rewrite Xb|].
      destruct (XL i Hl) as [Xi Wi]. rewrite Xi. destruct (TC i Hl) as [K|[K1 K2]]; [left; auto|].
      destruct (Req_EM_T (xnow (edges s) i) (vx (v_pt v))) as [Q|Q]; [left; now rewrite Q|right]. split.
      + intros j Hj NE. rewrite Xi. destruct (CS j Hj) as [->|[->|Hjl]]; [rewrite Xa; auto|rewrite Xb; auto|]. rewrite (proj1 (XL j Hjl)). auto.
      + intros f mm F Em. destruct (OL i Hl) as (e & f' & E & F' & S). rewrite F in F'. injection F' as <-.
        assert (Q1 : e_lmin f = e_lmin e) by (rewrite S; reflexivity). assert (Q2 : e_x f = e_x e) by (rewrite S; reflexivity).
        rewrite Q1 in Em. specialize (K2 e mm E Em).
        assert (SM : forall t, left_sum (xnow (edges s')) (wtof lms (edges s') t) l' (e_x f) = left_sum (xnow (edges s)) (wtof lms (edges s) t) l (e_x e)).
        { intros t. rewrite <- (left_sum_perm _ _ _ _ _ PM), Q2. unfold left_sum at 1. rewrite !zsum_cons. fold (left_sum (xnow (edges s')) (wtof lms (edges s') t) l (e_x e)).
          rewrite (left_sum_ext (xnow (edges s')) (xnow (edges s)) (wtof lms (edges s') t) (wtof lms (edges s) t)) by (intros j Hj; destruct (XL j Hj); auto).
          unfold before_x. rewrite Xa, Xb. unfold wtof at 1 2. rewrite Fa, Fb. unfold wt. rewrite Sa, Sb. cbn [e_lmin e_dx ea eb new_edge].
          destruct (nth_error lms m); [destruct (ptype_eqb _ _)|]; destruct (Rltb _ _); lia. }
        rewrite !SM. unfold fits in *. rewrite S. cbn [e_cnt e_cnt2 e_dx]. exact K2.
    - eapply all_placed_rel; [eapply erel_mono; [|exact ER]|apply (all_placed_new s v vp vn p n m (lm_vert x)); auto].
      intros e f ->. unfold same_way. csplit; reflexivity.
    - intros i f Hi F. destruct (CS i Hi) as [->|[->|Hl]].
      + rewrite Fa in F. injection F as <-. left. rewrite Sa. reflexivity.
      + rewrite Fb in F. injection F as <-. left. rewrite Sb. reflexivity.
      + right. destruct (OL i Hl) as (e & f' & E & F' & S). rewrite F in F'. injection F' as <-. exists e. csplit; auto. rewrite S. reflexivity.
  Qed.

  Lemma minima_counts fill y rest : forall s l s', same_lists vs lms ms s -> good vs s -> queue_ok vs y (scans s) -> all_placed vs P (edges s) ->
    (forall m, In m rest -> In m ms) -> NoDup (map lv rest) -> stand y s l -> differ (edges s) l -> told_counts fill s l ->
    (forall i e m v, In i l -> nth_error (edges s) i = Some e -> In m rest -> nth_error vs (lv m) = Some v -> vy (v_pt v) = y -> e_bot e <> v_pt v) ->
    insert_minima s y rest = Ok s' ->
    exists l', stand y s' l' /\ differ (edges s') l' /\ told_counts fill s' l' /\ lmins s' = lms /\ VFrame.fin s' = VFrame.fin s.
  Proof.
    induction rest as [|m r IH]; intros s l s' SL G Q AP I ND SD D TC NB H; cbn [insert_minima] in H.
    { binvs. exists l. csplit; auto. apply SL. }
    apply bind_ok in H as (x & Ex & H). apply at_ok in Ex. apply bind_ok in H as (v & Ev & H). apply at_ok in Ev.
    pose proof SL as (SL1 & SL2 & SL3). rewrite SL2 in Ex. rewrite SL1 in Ev.
    destruct (ms_way M lms ms ms_some ms_M m) as (x' & X1 & X2 & X3); [apply I; now left|]. rewrite Ex in X1. injection X1 as <-.
    destruct (n_eqb (vy (v_pt v)) y) eqn:E.
    2: { binvs. exists l. csplit; auto. }
    assert (Hy : vy (v_pt v) = y) by (rops; now rbool).
    apply bind_ok in H as (s1 & F & H). pose proof G as (G1 & G2 & G3).
    pose proof (insert_minimum_frame _ _ _ F) as (A1 & _ & A2). pose proof A1 as A1'. unfold VFrame.fin in A1. cbn in A1, A2.
    destruct (G3 m) as (x2 & Y1 & Y2); [rewrite SL3; apply I; now left|]. rewrite SL2, Ex in Y1. injection Y1 as <-. rewrite G1 in Y2.
    set (s0 := w_minima s (minima s) (S (cur s))) in *.
    assert (Vy : nvalid y) by exact Logic.I.
    destruct (insert_minimum_climbs vs y s0 m s1) as [K1 K2]; auto; [exists x, v; cbn; rewrite SL2; auto|].
    assert (SD0 : stand y s0 l) by (destruct SD; constructor; auto).
    rewrite <- X2 in X3.
    destruct (minimum_counts fill y s0 m x v l s1) as (l1 & B1 & B2 & B3 & B4 & B5); auto.
    { intros i e Hi Ei. apply (NB i e m v); auto; [now left|]. now rewrite <- X2. }
    assert (SL' : same_lists vs lms ms s1) by (unfold same_lists; injection A1 as -> -> -> _ _ _ _; auto).
    assert (G' : good vs s1).
    { split; [apply SL'|]. split; auto. intros k Hk. injection A1 as -> -> A1 _ _ _ _. rewrite A1 in Hk. apply G3. exact Hk. }
    cbn [map] in ND. apply NoDup_cons_iff in ND as [N1 N2].
    destruct (IH s1 l1 s') as (l' & C1 & C2 & C3 & C4 & C5); auto.
    { intros k Hk. apply I. now right. }
    { intros i e k w Hi Ei Hk Hw Yw Eb. destruct (B5 i e Hi Ei) as [K|(e0 & Hl & E0 & K)].
      - apply N1. assert (In k ms) by (apply I; now right). rewrite <- X2.
        replace (lm_vert x) with (lv k); [now apply in_map|]. symmetry. apply (pl_low _ _ _ PL (lm_vert x) (lv k) v w); auto; [|congruence].
        apply (lv_P vs P M MK lms ms ms_some ms_M); auto.
      - apply (NB i e0 k w); auto; [now right|congruence]. }
    exists l'. csplit; auto. rewrite C5. exact A1'.
  Qed.

  (** *** A scan line *)
  Definition due y s : Prop := ready y s /\ exists l, stand y s l /\ told_counts (cfill s) s l.
  Definition swept y s : Prop := ended y s /\ exists l, stand y s l /\ all_counted (cfill s) s l.
  Lemma stand_order y s l : stand y s l -> ForallOrdPairs (fun j k => (xnow (edges s) j <= xnow (edges s) k)%R) l.
  Proof.
    intros [HA AH SO _]. eapply fop_mono_in; [|exact SO]. intros i j Hi Hj K. cbn beta in K. destruct (AH i Hi) as (e & E & [Oe Xe]). destruct (AH j Hj) as (f & F & [Of Xf]).
    unfold xnow. rewrite E, F, Xe, Xf. apply (before_le vs P y y e f); auto; [lra|destruct Oe as [_ ?]; lra|destruct Of as [_ ?]; lra].
  Qed.
  Lemma stand_rel (Q : edge R -> edge R -> Prop) y s s' l : (forall e f, Q e f -> same_spot e f /\ e_dx f = e_dx e /\ e_lmin f = e_lmin e) -> erel Q (edges s) (edges s') -> active s' l -> stand y s l -> stand y s' l.
  Proof.
    intros K ER A' [HA AH SO KN]. assert (SP : forall e f, Q e f -> same_spot e f) by (intros e f H; apply (K e f H)). constructor; auto.
    - eapply (all_here_rel vs P y Q); eauto.
    - eapply (sorted_rel Q); [|exact ER| |exact SO].
      + intros e f H. destruct (SP e f H) as [(S1 & S2 & S3 & S4) _]. split; auto.
      + intros j Hj. destruct (AH j Hj) as (e & E & _). eauto.
    - intros i f Hi F. destruct (erel_back _ _ _ _ _ ER F) as (e & E & S). destruct (K e f S) as ([(S1 & S2 & S3 & S4) _] & S5 & S6). specialize (KN i e Hi E). rewrite S5, S6, S3. exact KN.
  Qed.
  Lemma stand_directed y s l : lmins s = lms -> stand y s l -> directed s l.
  Proof. intros HL [HA AH SO KN]. eapply known_directed; eauto. intros i Hi. destruct (AH i Hi) as (e & E & _). eauto. Qed.
  (** before the output is updated *)
  Lemma pre_swept y s s1 s2 : due y s -> insert_local_minima_to_ael s y = Ok s1 -> recalc_windcnt s1 = Ok s2 -> swept y s2.
  Proof.
    intros [RD (l & SD & TC)] F1 F2. split; [eapply pre_ended; eauto|].
    pose proof RD as [Vy SL G Q AP (l0 & HA & EX & TQ) (ds & rs & D1 & D2 & D3 & D4)]. rewrite (active_fun _ _ _ HA (sd_active _ _ _ SD)) in *. clear HA.
    unfold insert_local_minima_to_ael in F1. pose proof SL as (_ & _ & SL3).
    rewrite SL3, D1, D2, skipn_app, skipn_all, Nat.sub_diag in F1. cbn [app skipn] in F1.
    destruct (minima_counts (cfill s) y rs s l s1 SL G Q AP) as (l' & C1 & C2 & C3 & C4 & C5); auto.
    { intros m Hm. rewrite D1. apply in_or_app; auto. }
    { assert (ND' := ms_nodup). rewrite D1, map_app in ND'. now apply nodup_app_r in ND'. }
    { apply EX. }
    { intros i e m v Hi E Hm Ev Hy Eb. assert (In m ms) by (rewrite D1; apply in_or_app; auto).
      assert (Mm : M (lv m)) by (apply ms_M; now apply in_map).
      assert (K : In (side_of (edges s) i) (map (side_of (edges s)) l)) by now apply in_map. apply EX in K as (j & Pj & S & L & B).
      unfold side_of in S. rewrite E in S. cbn [edge_side fst snd] in S.
      destruct (AP i e E) as (_ & j' & w & Pj' & S' & W & EB). assert (j' = j) by (eapply side_inj; eauto). subst j'.
      assert (lv m = j) by (apply (pl_low _ _ _ PL (lv m) j v w); auto; congruence). subst j.
      rewrite (height_some' vs _ v Ev), Hy in B. destruct B as [B|[_ B]]; [rops; rbool; lra|].
      pose proof (start_comes vs P M MK (fst (side_of (edges s) i)) (lv m) Mm) as K.
      pose proof (comes_fun vs P M MK true false _ _ B Pj K). discriminate. }
    pose proof (recalc_windcnt_ec _ _ F2) as R2. pose proof (recalc_windcnt_frame _ _ F2) as (A1 & _ & _ & A4 & A2 & A3).
    assert (OR : ordered (edges s1) l').
    { apply ordered_R. eapply fop_mono_in; [|apply (stand_order y s1 l' C1)]. cbn beta. intros i j Hi Hj K e f E F. unfold xnow in K. now rewrite E, F in K. }
    assert (CF : cfill s1 = cfill s) by (unfold VFrame.fin in C5; congruence).
    destruct (recalc_windcnt_ok s1 l' s2) as (K1 & K2 & K3); auto.
    { apply (sd_active _ _ _ C1). }
    { eapply stand_directed; eauto. }
    { intros i e _ _. exact I. }
    { apply Forall_forall. intros; exact I. }
    { intros a i b e Eq E. rewrite CF. destruct (C3 i) as [K|K]; [rewrite Eq; apply in_or_app; right; now left| |].
      - right. exists (xnow (edges s1) i). split; auto. unfold xnow. rewrite E. rops. now apply Reqb_true.
      - left. rewrite Eq in K. apply (right_counted lms (cfill s) s1 a i b); auto; rewrite <- Eq; [apply (stand_order y s1 l' C1)|apply (sd_active _ _ _ C1)]. }
    assert (S2 : stand y s2 l').
    { eapply (stand_rel same_but_count); [|exact R2|exact K1|exact C1]. intros e f S. split; [now apply count_spot|]. rewrite S. auto. }
    exists l'. split; [exact S2|exact K2].
  Qed.
  Lemma scan_at_swept n y s s' : due y s -> scan_at n s y = Ok s' -> swept y s'.
  Proof.
    intros DU H. unfold scan_at in H. apply bind_ok in H as (s1 & F1 & H). apply bind_ok in H as (s2 & F2 & H).
    destruct (pre_swept y s s1 s2 DU F1 F2) as [EN (l' & S2 & K2)]. split; [eapply update_ended; eauto|].
    pose proof EN as [_ (_ & HL2 & _) _ _ _ _ _].
    pose proof (update_output_bound_eb _ _ _ _ H) as R3. pose proof (update_output_bound_frame _ _ _ _ H) as (B1 & B2 & B0 & B3 & B4).
    assert (A' : active s' l') by (eapply active_bound; [exact R3|tauto|apply (sd_active _ _ _ S2)]).
    exists l'. split.
    - eapply (stand_rel same_but_bound); [|exact R3|exact A'|exact S2]. intros e f S. split; [now apply bound_spot|]. rewrite S. auto.
    - assert (HL' : lmins s' = lmins s2) by (unfold VFrame.fin in B1; congruence).
      replace (cfill s') with (cfill s2) by (unfold VFrame.fin in B1; congruence).
      intros a i b Eq. destruct (edge_is_rel same_but_bound s2 s') as [X1 X2]; auto; [intros e f ->; auto|].
      eapply (counted_same _ s2 s'); auto.
      + pose proof (stand_directed y s2 l' HL2 S2) as DR. intros j Hj. apply DR. rewrite Eq, in_app_iff in *. cbn in *. tauto.
      + intros e' E'. destruct (erel_back _ _ _ _ _ R3 E') as (e & E & S). exists e. rewrite S. auto.
      + exact (K2 a i b Eq).
  Qed.
  Lemma beam_due n y s y' s2 s' : swept y s -> pop_scanline s y = (Some y', s2) -> beam n s2 y' = Ok s' -> due y' s'.
  Proof.
    intros [EN (l & [HA AH SO KN] & AC)] HP H. split; [eapply pop_ready; eauto|].
    destruct (beam_plane vs P M MK V PL lms ms ms_some ms_M y s y' s2 n s' l EN HA AH SO HP H) as (es3 & l1 & l' & S1 & S2 & S3 & S4 & S5 & S6 & S7 & S8).
    destruct (beam_count vs P M MK V PL lms ms ty ty_side ms_some ms_M (cfill s) y s y' s2 n s' l es3 l1 l') as [K1 K2]; auto.
    exists l'. split; [constructor; auto|]. intros i Hi.
    pose proof (beam_frame _ _ _ _ H) as [A0 _]. pose proof (pop_scanline_frame _ _ _ _ HP) as (A1 & _). replace (cfill s') with (cfill s) by (unfold VFrame.fin in *; congruence). auto.
  Qed.
End Scan.
