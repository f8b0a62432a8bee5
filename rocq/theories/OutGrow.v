(** New minima: the edges and the output. *)
From Coq Require Import ZArith Bool List Reals Lra Lia Permutation Sorted.
From Verif Require Import Outcome Num Order OrdTac Rmath RTac Segment VState VAel VOut VMain VLemmas VFrame RingSpec LineSpec ClimbSpec AelSpec VAelProofs VEdges VAelRun VRun VClimb SortProofs
  ClipSpec WindSpec VWind VKept VPairs SpanSpec SpanRing SpanTop SpanStep SpanRun PlaneSpec PlaneGeo PlaneSort PlaneTop PlaneRun PlaneCount PlaneScan OutSpec OutPath OutAlt OutList OutClose OutTop OutClear SpanSpec.
Import ListNotations.
Local Open Scope Z_scope.
Local Open Scope out.

Section Grow.
  Variable vs : list (vertex R).
  Notation Y := (height vs).
  Variables P M : nat -> Prop.
  Hypothesis MK : marked vs P M.
  Hypothesis V : vs_valid vs.
  Hypothesis PL : plane vs P M.
  Implicit Types s : clipper R.
  Implicit Types es : list (edge R).
  Variable lms : list lmin.
  Variable ms : list nat.
  Notation lv := (lv lms).
  Hypothesis ms_some : forall m, In m ms -> exists x, nth_error lms m = Some x.
  Hypothesis ms_nodup : NoDup (map lv ms).
  Hypothesis ms_M : forall i, M i <-> In i (map lv ms).
  Hypothesis ms_sorted : StronglySorted (fun a b => nle (Y (lv a)) (Y (lv b))) ms.
  Variable ty : nat -> path_type.
  Hypothesis ty_side : forall j k, P j -> side vs true j k -> ty j = ty k.
  Hypothesis ty_min : forall m x, nth_error lms m = Some x -> lm_type x = ty (lm_vert x).
  Notation ready := (ready vs P lms ms).
  Notation ended := (ended vs P lms ms).
  Notation stand := (stand vs P lms ty).
  Notation told_counts := (told_counts lms).
  Notation all_here := (all_here vs P).
  Notation known := (known lms ty).

  Record grown (y : R) s s' (l l' : list nat) : Prop := {
    gr_stay : forall i, In i l -> In i l';
    gr_case : forall i f, In i l' -> nth_error (edges s') i = Some f ->
      (In i l /\ exists e, nth_error (edges s) i = Some e /\ same_edge e f) \/ (vy (e_bot f) = y /\ In (e_x f) (changes s'));
    gr_old : forall i e, In i l -> nth_error (edges s) i = Some e -> exists f, nth_error (edges s') i = Some f /\ same_edge e f;
    gr_ch : forall x, In x (changes s) -> In x (changes s');
    gr_sum : forall t x, left_sum (xnow (edges s')) (wtof lms (edges s') t) l' x = left_sum (xnow (edges s)) (wtof lms (edges s) t) l x;
    gr_eb : forall i, ebof (edges s') i = ebof (edges s) i;
    gr_out : fout s' = fout s }.
  Lemma grown_refl y s l : grown y s s l l.
  Proof.
    constructor; auto.
    - intros i f Hi F. left. split; auto. exists f. split; auto. destruct f; reflexivity.
    - intros i e Hi E. exists e. split; auto. destruct e; reflexivity.
  Qed.
  Lemma grown_trans y s s1 s2 l l1 l2 : grown y s s1 l l1 -> grown y s1 s2 l1 l2 -> grown y s s2 l l2.
  Proof.
    intros [A1 A2 A0 A3 A4 A5 A6] [B1 B2 B0 B3 B4 B5 B6]. constructor; auto; try congruence.
    - intros i g Hi G. destruct (B2 i g Hi G) as [(I1 & f & F & S)|K]; [|now right]. destruct (A2 i f I1 F) as [(I & e & E & S')|[K1 K2]].
      + left. split; auto. exists e. split; auto. rewrite S, S'. reflexivity.
      + right. rewrite S. cbn. auto.
    - intros i e Hi E. destruct (A0 i e Hi E) as (f & F & S). destruct (B0 i f (A1 i Hi) F) as (g & G & S'). exists g. split; auto. rewrite S', S. reflexivity.
  Qed.
  Lemma grown_outs y s s' l l' pos bl : grown y s s' l l' -> outs s pos bl [] -> outs s' pos bl [].
  Proof.
    intros G O. pose proof (gr_out _ _ _ _ _ G) as F. unfold fout in F. injection F as F1 F2 F3.
    eapply outs_less; eauto; rewrite ?F1; auto.
    - intros c x E. exists x. unfold still. auto.
    - eapply linked_ext; [apply (os_link _ _ _ _ O)|apply G|reflexivity].
    - intros i c. now rewrite (gr_eb _ _ _ _ _ G).
  Qed.
  Lemma minimum_grown y s m x v l s' : verts s = vs -> lmins s = lms -> all_placed vs P (edges s) -> nth_error lms m = Some x -> M (lm_vert x) -> nth_error vs (lm_vert x) = Some v ->
    vy (v_pt v) = y -> stand y s l -> differ (edges s) l ->
    (forall i e, In i l -> nth_error (edges s) i = Some e -> e_bot e <> v_pt v) ->
    insert_minimum s m = Ok s' -> edges_ok vs (edges s') -> exists l', active s' l' /\ grown y s s' l l'.
  Proof.
    intros HV HL AP Hx Mx Ev Hy [HA AH SO KN] D NB H OK. rewrite <- HL in Hx.
    destruct (minimum_plane vs P M MK V PL lms ms ms_sorted y s m x v l s' HV AP Hx Mx Ev Hy HA AH SO D NB H OK) as (p & n & vp & vn & l' & Sp & Sn & Vp & Vn & ER & PM & A' & SO' & AH' & D' & C1 & C2).
    pose proof (insert_minimum_frame _ _ _ H) as (_ & FO & _).
    set (a := length (edges s)) in *. set (ea := new_edge v vp 1 p m) in *. set (eb := new_edge v vn (-1) n m) in *.
    assert (N1 : nth_error (edges s ++ [ea; eb]) a = Some ea) by (rewrite nth_error_app2, Nat.sub_diag by (unfold a; lia); reflexivity).
    assert (N2 : nth_error (edges s ++ [ea; eb]) (S a) = Some eb) by (rewrite nth_error_app2 by (unfold a; lia); replace (S a - length (edges s))%nat with 1%nat by (unfold a; lia); reflexivity).
    destruct (proj2 ER a ea N1) as (fa & Fa & Sa). destruct (proj2 ER (S a) eb N2) as (fb & Fb & Sb).
    assert (OL : forall i, In i l -> exists e f, nth_error (edges s) i = Some e /\ nth_error (edges s') i = Some f /\ same_edge e f).
    { intros i Hi. destruct (AH i Hi) as (e & E & _). assert (E' : nth_error (edges s ++ [ea; eb]) i = Some e) by (rewrite nth_error_app1; auto; now apply nth_lt in E).
      destruct (proj2 ER i e E') as (f & F & S). eauto. }
    assert (CS : forall i, In i l' -> i = a \/ i = S a \/ In i l).
    { intros i Hi. eapply Permutation_in in Hi; [|symmetry; exact PM]. cbn in Hi. intuition. }
    assert (XL : forall i, In i l -> xnow (edges s') i = xnow (edges s) i /\ forall t, wtof lms (edges s') t i = wtof lms (edges s) t i).
    { intros i Hi. destruct (OL i Hi) as (e & f & E & F & S). unfold xnow, wtof, wt. rewrite E, F. rewrite S. auto. }
    assert (Xa : xnow (edges s') a = vx (v_pt v)) by (unfold xnow; rewrite Fa, Sa; reflexivity).
    assert (Xb : xnow (edges s') (S a) = vx (v_pt v)) by (unfold xnow; rewrite Fb, Sb; reflexivity).
    exists l'. split; auto. constructor; auto.
    - intros i Hi. eapply Permutation_in; [exact PM|]. cbn. auto.
    - intros i f Hi F. destruct (CS i Hi) as [->|[->|Hl]].
      + right. rewrite Fa in F. injection F as <-. rewrite Sa. cbn. auto.
      + right. rewrite Fb in F. injection F as <-. rewrite Sb. cbn. auto.
      + left. split; auto. destruct (OL i Hl) as (e & f' & E & F' & S). rewrite F in F'. injection F' as <-. eauto.
    - intros i e Hi E. destruct (OL i Hi) as (e' & f & E' & F & S). rewrite E in E'. injection E' as <-. eauto.
    - intros t z. rewrite <- (left_sum_perm _ _ _ _ _ PM). unfold left_sum at 1. rewrite !zsum_cons. fold (left_sum (xnow (edges s')) (wtof lms (edges s') t) l z).
      rewrite (left_sum_ext (xnow (edges s')) (xnow (edges s)) (wtof lms (edges s') t) (wtof lms (edges s) t)) by (intros j Hj; destruct (XL j Hj); auto).
      unfold before_x. rewrite Xa, Xb. unfold wtof at 1 2. rewrite Fa, Fb. unfold wt. rewrite Sa, Sb. cbn [e_lmin e_dx ea eb new_edge].
      destruct (nth_error lms m); [destruct (ptype_eqb _ _)|]; destruct (Rltb _ _); lia.
    - intros i. transitivity (ebof (edges s ++ [ea; eb]) i).
      + unfold ebof. destruct (nth_error (edges s ++ [ea; eb]) i) as [e|] eqn:E.
        * destruct (proj2 ER i e E) as (f & -> & S). rewrite S. reflexivity.
        * apply nth_error_None in E. rewrite <- (proj1 ER) in E. apply nth_error_None in E. now rewrite E.
      + unfold ebof. destruct (Nat.lt_ge_cases i a) as [L|L]; [now rewrite nth_error_app1|]. rewrite (proj2 (nth_error_None (edges s) i)) by exact L.
        rewrite nth_error_app2 by exact L. destruct (i - length (edges s))%nat as [|[|q]]; cbn; auto. now destruct q.
  Qed.

  Lemma minima_grown fill y rest : forall s l s', same_lists vs lms ms s -> good vs s -> queue_ok vs y (scans s) -> all_placed vs P (edges s) ->
    (forall m, In m rest -> In m ms) -> NoDup (map lv rest) -> stand y s l -> differ (edges s) l -> told_counts fill s l ->
    (forall i e m v, In i l -> nth_error (edges s) i = Some e -> In m rest -> nth_error vs (lv m) = Some v -> vy (v_pt v) = y -> e_bot e <> v_pt v) ->
    insert_minima s y rest = Ok s' ->
    exists l', stand y s' l' /\ differ (edges s') l' /\ told_counts fill s' l' /\ lmins s' = lms /\ VFrame.fin s' = VFrame.fin s /\ grown y s s' l l'.
  Proof.
    induction rest as [|m r IH]; intros s l s' SL G Q AP I ND SD D TC NB H; cbn [insert_minima] in H.
    { binvs. exists l. csplit; auto using grown_refl. apply SL. }
    apply bind_ok in H as (x & Ex & H). apply at_ok in Ex. apply bind_ok in H as (v & Ev & H). apply at_ok in Ev.
    pose proof SL as (SL1 & SL2 & SL3). rewrite SL2 in Ex. rewrite SL1 in Ev.
    destruct (ms_way M lms ms ms_some ms_M m) as (x' & X1 & X2 & X3); [apply I; now left|]. rewrite Ex in X1. injection X1 as <-.
    destruct (n_eqb (vy (v_pt v)) y) eqn:E.
    2: { binvs. exists l. csplit; auto using grown_refl. }
    assert (Hy : vy (v_pt v) = y) by (rops; now rbool).
    apply bind_ok in H as (s1 & F & H). pose proof G as (G1 & G2 & G3).
    pose proof (insert_minimum_frame _ _ _ F) as (A1 & _ & A2). pose proof A1 as A1'. unfold VFrame.fin in A1. cbn in A1, A2.
    destruct (G3 m) as (x2 & Y1 & Y2); [rewrite SL3; apply I; now left|]. rewrite SL2, Ex in Y1. injection Y1 as <-. rewrite G1 in Y2.
    set (s0 := w_minima s (minima s) (S (cur s))) in *.
    assert (Vy : nvalid y) by exact Logic.I.
    destruct (insert_minimum_climbs vs y s0 m s1) as [K1 K2]; auto; [exists x, v; cbn; rewrite SL2; auto|].
    assert (SD0 : stand y s0 l) by (destruct SD; constructor; auto).
    rewrite <- X2 in X3.
    assert (NB0 : forall i e, In i l -> nth_error (edges s0) i = Some e -> e_bot e <> v_pt v).
    { intros i e Hi Ei. apply (NB i e m v); auto; [now left|]. now rewrite <- X2. }
    destruct (minimum_counts vs P M MK V PL lms ms ms_sorted ty ty_side ty_min fill y s0 m x v l s1) as (l1 & B1 & B2 & B3 & B4 & B5); auto.
    destruct (minimum_grown y s0 m x v l s1) as (l1' & C0 & GR); auto. rewrite (active_fun _ _ _ C0 (sd_active _ _ _ _ _ _ _ B1)) in GR. clear l1' C0.
    assert (GR1 : grown y s s1 l l1) by (destruct GR; constructor; auto).
    assert (SL' : same_lists vs lms ms s1) by (unfold same_lists; injection A1 as -> -> -> _ _ _ _; auto).
    assert (G' : good vs s1).
    { split; [apply SL'|]. split; auto. intros k Hk. injection A1 as -> -> A1 _ _ _ _. rewrite A1 in Hk. apply G3. exact Hk. }
    cbn [map] in ND. apply NoDup_cons_iff in ND as [N1 N2].
    destruct (IH s1 l1 s') as (l' & C1 & C2 & C3 & C4 & C5 & C6); auto.
    { intros k Hk. apply I. now right. }
    { intros i e k w Hi Ei Hk Hw Yw Eb. destruct (B5 i e Hi Ei) as [K|(e0 & Hl & E0 & K)].
      - apply N1. assert (In k ms) by (apply I; now right). rewrite <- X2.
        replace (lm_vert x) with (lv k); [now apply in_map|]. symmetry. apply (pl_low _ _ _ PL (lm_vert x) (lv k) v w); auto; [|congruence].
        apply (lv_P vs P M MK lms ms ms_some ms_M); auto.
      - apply (NB i e0 k w); auto; [now right|congruence]. }
    exists l'. csplit; auto; [rewrite C5; exact A1'|]. eapply grown_trans; eauto.
  Qed.
End Grow.
