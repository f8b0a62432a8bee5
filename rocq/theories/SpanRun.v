(** In a run the active edges are the sides that the scan line meets. *)
From Coq Require Import ZArith Bool List Permutation Sorted Lia.
From Verif Require Import Outcome Num Order OrdTac Rmath Segment VState VPath VBreak VAel VOut VMain VLemmas VFrame ClipSpec AelSpec VAelProofs VEdges VAelRun VRun
  SortProofs RingSpec ClimbSpec VClimb SpanSpec SpanRing SpanTop SpanStep.
Import ListNotations.
Local Open Scope out.

Section Run.
  Context {T : Type} {N : Num T} {O : OrdNum T}.
  Variable vs : list (vertex T).
  Notation Y := (height vs).
  Variables P M : nat -> Prop.
  Hypothesis MK : marked vs P M.
  Hypothesis V : vs_valid vs.
  Implicit Types s : clipper T.
  Implicit Types es : list (edge T).
  Let valid := mk_valid _ _ _ MK.
  Let sP := side_P vs P M MK.
  Let sP' := side_P' vs P M MK.
  Hint Resolve valid sP sP' : nv.
  Notation placed := (placed vs P).
  Notation standing := (standing vs P).

  Lemma in_insert (z x : T) q : In z (insert_by n_ltb x q) <-> z = x \/ In z q.
  Proof.
    pose proof (insert_by_perm n_ltb x q) as H. split; intros K.
    - eapply Permutation_in in K; [|apply Permutation_sym; exact H]. destruct K; auto.
    - eapply Permutation_in; [exact H|]. destruct K; [left|right]; auto.
  Qed.
  (** *** New edges *)
  Lemma skip_horz_start fuel : forall s es e s' j r, verts s = vs -> edges s = es ++ [e] -> placed e -> side vs (edge_up e) j (e_vtop e) ->
    (exists w, nth_error vs (e_vtop e) = Some w /\ e_top e = v_pt w) -> start vs (edge_up e) j r -> skip_horz fuel s (length es) = Ok s' ->
    exists e', edges s' = es ++ [e'] /\ edge_up e' = edge_up e /\ e_vtop e' = r /\ placed e'.
  Proof.
    induction fuel; intros s es e s' j r HV HE Pl SD TP St H; cbn [skip_horz] in H;
      apply bind_ok in H as (x & Ex & H); apply at_ok in Ex; rewrite HE, nth_snoc_last in Ex; injection Ex as <-;
      destruct Pl as (Pt & j' & v & Pj & SD' & Vj & Eb); rewrite <- (side_inj _ _ _ _ _ SD SD') in *;
      destruct TP as (w & W & Et); pose proof (height_some' vs j v Vj) as Hj; pose proof (height_some' vs _ w W) as Hw;
      destruct (is_horz e) eqn:Hz; unfold is_horz in Hz; rewrite Eb, Et, <- Hj, <- Hw in Hz; try discriminate.
    1, 3: binvs; exists e; inversion St as [? k A B|? k ? A B C]; subst; rewrite (side_fun _ _ _ _ _ A SD) in *; [|congruence];
      csplit; auto; split; auto; exists j, v; auto.
    apply bind_ok in H as (s1 & F & H). destruct (mk_side _ _ _ MK (edge_up e) _ Pt) as (k & Pk & Sk).
    pose proof Sk as (w' & u & A1 & A2 & A3 & A4). rewrite W in A1. injection A1 as <-.
    unfold next_edge, at_ in F. rewrite HE, nth_snoc_last in F. cbn [of_opt bind] in F. rewrite HV, W in F. cbn [of_opt bind] in F.
    unfold neighbour in A3. rewrite A3 in F. cbn [deref of_opt bind] in F. rewrite A2 in F. cbn [of_opt bind] in F.
    apply emod_ok in F as [_ ->]. apply bind_ok in H as (x & Ex & H). cbn [edges w_edges] in Ex.
    set (e1 := Edge (e_top e) (v_pt u) (vx (e_top e)) (e_dx e) (e_cnt e) (e_cnt2 e) (e_prev e) (e_next e) (e_bound e) k (e_lmin e)).
    assert (St' : start vs (edge_up e) (e_vtop e) r).
    { inversion St as [? k0 A B|? k0 ? A B C]; subst; rewrite (side_fun _ _ _ _ _ A SD) in *; auto.
      exfalso. assert (P (e_vtop e)) by auto. ord. }
    eapply (IHfuel _ es e1 s' (e_vtop e) r) in H; auto.
    - cbn [edges w_edges push_change w_changes]. rewrite HE, upd_snoc. reflexivity.
    - split; auto. exists (e_vtop e), w. auto.
    - exists u. auto.
  Qed.
  Lemma start_edge_start s m i v top dx s' r : verts s = vs -> P i -> nth_error vs i = Some v -> side vs (Z.ltb dx 0) i top -> start vs (Z.ltb dx 0) i r ->
    start_edge s m (v_pt v) top dx = Ok s' -> exists e, edges s' = edges s ++ [e] /\ edge_side e = (Z.ltb dx 0, r) /\ placed e.
  Proof.
    intros HV Pi Vi SD St H. unfold start_edge in H. apply bind_ok in H as (w & Ew & H). apply at_ok in Ew. rewrite HV in Ew.
    apply bind_ok in H as (s1 & F & H). apply bind_ok in H as (x & Ex & H).
    eapply (skip_horz_start _ _ (edges s)) in F; [|exact HV|reflexivity| |exact SD|exists w; auto|exact St].
    - destruct F as (e & E1 & E2 & E3 & E4). apply emod_ok in H as [_ ->]. cbn [edges w_edges]. rewrite E1, upd_snoc.
      eexists. split; [reflexivity|]. split; [|exact E4]. cbn in E2, E3. unfold edge_side, edge_up in *. cbn. now rewrite E2, E3.
    - split; [cbn; eauto with nv|]. exists i, v. auto.
  Qed.
  Definition all_placed es := forall i e, nth_error es i = Some e -> placed e.
  Lemma all_placed_rel es fs : erel same_way es fs -> all_placed es -> all_placed fs.
  Proof. intros H K i f F. destruct (erel_back _ _ _ _ _ H F) as (e & E & S). eapply placed_same; eauto. Qed.
  Lemma insert_minimum_starts s m x l s' ra rb : verts s = vs -> active s l -> all_placed (edges s) -> nth_error (lmins s) m = Some x -> M (lm_vert x) ->
    start vs false (lm_vert x) ra -> start vs true (lm_vert x) rb -> insert_minimum s m = Ok s' -> edges_ok vs (edges s') ->
    exists l', active s' l' /\ all_placed (edges s') /\
      Permutation ((false, ra) :: (true, rb) :: map (side_of (edges s)) l) (map (side_of (edges s')) l') /\
      (forall z, In z (scans s) -> In z (scans s')) /\ In (Y ra) (scans s') /\ In (Y rb) (scans s').
  Proof.
    intros HV HA AP Hx Mx Sa Sb H OK. pose proof (start_P _ _ _ MK _ Mx) as Px.
    destruct (insert_minimum_ok s m l s' HA H) as (l' & _ & _ & PM & A' & _). cbn zeta in PM.
    unfold insert_minimum in H.
    apply bind_ok in H as (x' & Ex & H). apply at_ok in Ex. rewrite Hx in Ex. injection Ex as <-.
    apply bind_ok in H as (v & Ev & H). apply at_ok in Ev. rewrite HV in Ev.
    apply bind_ok in H as (p & Ep & H). apply deref_ok in Ep. apply bind_ok in H as (n & En & H). apply deref_ok in En.
    apply bind_ok in H as (s1 & F1 & H). apply bind_ok in H as (s2 & F2 & H). apply bind_ok in H as (s3 & F3 & H).
    apply bind_ok in H as (ea & E3 & H). apply bind_ok in H as (s4 & F4 & H).
    apply bind_ok in H as (ea' & Ea & H). apply at_ok in Ea. apply bind_ok in H as (eb' & Eb & H). apply at_ok in Eb. binvs.
    pose proof (start_edge_frame _ _ _ _ _ _ F1) as (A1 & _ & _ & A2 & _). pose proof (start_edge_frame _ _ _ _ _ _ F2) as (B1 & _ & _ & B2 & _).
    pose proof (insert_into_ael_frame _ _ _ F3) as (C1 & _ & C2). pose proof (insert_into_ael_left_frame _ _ _ _ F4) as (D1 & _ & D2).
    unfold VFrame.fin, fq in *. assert (HV1 : verts s1 = vs) by congruence.
    assert (SDa : side vs false (lm_vert x) p).
    { destruct (mk_side _ _ _ MK false _ Px) as (j & _ & S). pose proof S as (v' & w & X1 & _ & X2 & _). rewrite Ev in X1. injection X1 as <-. cbn in X2. congruence. }
    assert (SDb : side vs true (lm_vert x) n).
    { destruct (mk_side _ _ _ MK true _ Px) as (j & _ & S). pose proof S as (v' & w & X1 & _ & X2 & _). rewrite Ev in X1. injection X1 as <-. cbn in X2. congruence. }
    destruct (start_edge_start s m (lm_vert x) v p 1 s1 ra) as (e1 & K1 & K2 & K3); auto.
    destruct (start_edge_start s1 m (lm_vert x) v n (-1) s2 rb) as (e2 & K4 & K5 & K6); auto.
    assert (R : erel same_way (edges s2) (edges s4)).
    { eapply erel_trans; [apply pre_way|eapply insert_into_ael_way; eauto|eapply insert_left_way; eauto]. }
    assert (L1 : length (edges s1) = S (length (edges s))) by (rewrite K1, app_length; cbn; lia).
    assert (N1 : nth_error (edges s2) (length (edges s)) = Some e1).
    { rewrite K4, K1, <- app_assoc. rewrite nth_error_app2, Nat.sub_diag by lia. reflexivity. }
    assert (N2 : nth_error (edges s2) (S (length (edges s))) = Some e2).
    { rewrite <- L1, K4, nth_error_app2, Nat.sub_diag by lia. reflexivity. }
    assert (S1 : side_of (edges s4) (length (edges s)) = (false, ra)).
    { rewrite (side_of_way (edges s2)); auto; [unfold side_of; now rewrite N1|now apply nth_lt in N1]. }
    assert (S2 : side_of (edges s4) (S (length (edges s))) = (true, rb)).
    { rewrite (side_of_way (edges s2)); auto; [unfold side_of; now rewrite N2|now apply nth_lt in N2]. }
    cbn [edges insert_scanline w_scans] in *.
    assert (SK : forall i, In i l -> side_of (edges s4) i = side_of (edges s) i).
    { intros i Hi. pose proof (active_bound_len s l i HA Hi) as Li.
      rewrite (side_of_way (edges s2)); auto.
      - unfold side_of. rewrite K4, K1, <- app_assoc, nth_error_app1 by auto. reflexivity.
      - rewrite K4, K1, !app_length. lia. }
    assert (AP4 : all_placed (edges s4)).
    { eapply all_placed_rel; [exact R|]. rewrite K4, K1. intros i e Hi. destruct (Nat.lt_ge_cases i (length (edges s))) as [Li|Li].
      - rewrite <- app_assoc, nth_error_app1 in Hi by auto. eapply AP; eauto.
      - rewrite <- app_assoc, nth_error_app2 in Hi by auto. destruct (i - length (edges s)) as [|[|k]]; cbn in Hi; try (destruct k; discriminate);
          injection Hi as <-; auto. }
    (* heights of the tops *)
    assert (Ha : vy (e_top ea') = Y ra).
    { rewrite (top_height vs ea'); [|eapply OK; eauto]. unfold side_of in S1. rewrite Ea in S1. now injection S1 as _ ->. }
    assert (Hb : vy (e_top eb') = Y rb).
    { rewrite (top_height vs eb'); [|eapply OK; eauto]. unfold side_of in S2. rewrite L1 in Eb. rewrite Eb in S2. now injection S2 as _ ->. }
    exists l'. split; [exact A'|]. split; [exact AP4|]. csplit.
    - rewrite <- PM. cbn [map]. rewrite S1, S2. erewrite (map_ext_in (side_of (edges s4))); [reflexivity|exact SK].
    - intros z Hz. cbn [scans insert_scanline w_scans]. apply in_insert. right. apply in_insert. right. congruence.
    - cbn [scans insert_scanline w_scans]. apply in_insert. right. apply in_insert. left. congruence.
    - cbn [scans insert_scanline w_scans]. apply in_insert. left. congruence.
  Qed.

  (** *** The queue of the minima *)
  Variable lms : list lmin.
  Variable ms : list nat.
  Definition lv (m : nat) : nat := match nth_error lms m with Some x => lm_vert x | None => 0 end.
  Hypothesis ms_some : forall m, In m ms -> exists x, nth_error lms m = Some x.
  Hypothesis ms_nodup : NoDup (map lv ms).
  Hypothesis ms_M : forall i, M i <-> In i (map lv ms).
  Hypothesis ms_sorted : StronglySorted (fun a b => nle (Y (lv a)) (Y (lv b))) ms.
  Definition same_lists s := verts s = vs /\ lmins s = lms /\ minima s = ms.
  Definition tops_queued s l := forall i, In i l -> In (Y (snd (side_of (edges s) i))) (scans s).
  Lemma ms_way m : In m ms -> exists x, nth_error lms m = Some x /\ lm_vert x = lv m /\ M (lv m).
  Proof.
    intros H. destruct (ms_some m H) as [x X]. exists x. assert (E : lm_vert x = lv m) by (unfold lv; now rewrite X).
    csplit; auto. apply ms_M. now apply in_map.
  Qed.
  Lemma in_perm {A} (a b : list A) x : Permutation a b -> In x b -> In x a.
  Proof. intros H K. eapply Permutation_in; [apply Permutation_sym; exact H|exact K]. Qed.
  Lemma insert_minima_starts y rest : nvalid y -> forall s l s', same_lists s -> good vs s -> queue_ok vs y (scans s) -> active s l -> all_placed (edges s) ->
    tops_queued s l -> (forall m, In m rest -> In m ms) -> insert_minima s y rest = Ok s' ->
    exists ds rs l' KS, rest = ds ++ rs /\ (forall m, In m ds -> n_eqb (Y (lv m)) y = true) /\ (forall m r, rs = m :: r -> n_eqb (Y (lv m)) y = false) /\
      cur s' = cur s + length ds /\ same_lists s' /\ good vs s' /\ queue_ok vs y (scans s') /\ active s' l' /\ all_placed (edges s') /\
      tops_queued s' l' /\ (forall z, In z (scans s) -> In z (scans s')) /\
      started vs (map lv ds) KS /\ Permutation (map (side_of (edges s)) l ++ KS) (map (side_of (edges s')) l').
  Proof.
    intros Vy. induction rest as [|m r IH]; intros s l s' SL G Q HA AP TQ I H; cbn [insert_minima] in H.
    { binvs. exists [], [], l, []. csplit; auto; try contradiction; try discriminate; try (simpl; lia); try apply started_nil; now rewrite app_nil_r. }
    apply bind_ok in H as (x & Ex & H). apply at_ok in Ex. apply bind_ok in H as (v & Ev & H). apply at_ok in Ev.
    pose proof SL as (SL1 & SL2 & SL3). rewrite SL2 in Ex. rewrite SL1 in Ev.
    destruct (ms_way m) as (x' & X1 & X2 & X3); [apply I; now left|]. rewrite Ex in X1. injection X1 as <-.
    assert (Hh : vy (v_pt v) = Y (lv m)) by (rewrite <- X2; symmetry; now apply height_some').
    rewrite Hh in H. destruct (n_eqb (Y (lv m)) y) eqn:E.
    2: { binvs. exists [], (m :: r), l, []. csplit; auto; try contradiction; try (intros ? ? [= <- <-]; auto; fail); try (simpl; lia); try apply started_nil; now rewrite app_nil_r. }
    apply bind_ok in H as (s1 & F & H). pose proof G as (G1 & G2 & G3).
    pose proof (insert_minimum_frame _ _ _ F) as (A1 & _ & A2). unfold VFrame.fin in A1. cbn in A1, A2.
    destruct (G3 m) as (x2 & Y1 & Y2); [rewrite SL3; apply I; now left|]. rewrite SL2, Ex in Y1. injection Y1 as <-. rewrite G1 in Y2.
    destruct (insert_minimum_climbs vs y (w_minima s (minima s) (S (cur s))) m s1) as [K1 K2]; auto;
      [exists x, v; cbn; rewrite SL2, Hh; auto|].
    destruct (way_up vs P M MK false _ X3) as [ra Ra]. destruct (way_up vs P M MK true _ X3) as [rb Rb].
    destruct (insert_minimum_starts (w_minima s (minima s) (S (cur s))) m x l s1 ra rb) as (l1 & B1 & B2 & B3 & B4 & B5 & B6); auto;
      try (rewrite X2; auto; fail); [cbn; rewrite SL2; auto|].
    cbn [edges w_minima scans] in *.
    assert (SL' : same_lists s1) by (unfold same_lists; injection A1 as -> -> -> _ _ _ _; auto).
    assert (G' : good vs s1).
    { split; [apply SL'|]. split; auto. intros k Hk. injection A1 as -> -> A1 _ _ _ _. rewrite A1 in Hk. apply G3. exact Hk. }
    assert (TQ' : tops_queued s1 l1).
    { intros i Hi. apply (in_map (side_of (edges s1))) in Hi. apply (in_perm _ _ _ B3) in Hi. destruct Hi as [<-|[<-|Hi]]; auto.
      apply in_map_iff in Hi as (i0 & <- & Hi). auto. }
    destruct (IH s1 l1 s' SL' G' K2 B1 B2 TQ' (fun k Hk => I k (or_intror Hk)) H) as (ds & rs & l' & KS & C1 & C2 & C3 & C4 & C5 & C6 & C7 & C8 & C9 & C10 & C11 & C12 & C13).
    exists (m :: ds), rs, l', ((false, ra) :: (true, rb) :: KS).
    csplit; auto.
    - cbn. now rewrite C1.
    - intros k [<-|Hk]; auto.
    - rewrite C4, A2. cbn. lia.
    - cbn [map]. constructor; auto.
    - rewrite <- C13, <- B3. cbn [app]. rewrite <- !Permutation_middle. reflexivity.
  Qed.

  (** *** The state at a scan line: before the minima, and after *)
  Record ready (y : T) s : Prop := {
    rd_valid : nvalid y;
    rd_lists : same_lists s;
    rd_good : good vs s;
    rd_queue : queue_ok vs y (scans s);
    rd_placed : all_placed (edges s);
    rd_active : exists l, active s l /\ exactly (came vs P y) (map (side_of (edges s)) l) /\ tops_queued s l;
    rd_minima : exists ds rs, ms = ds ++ rs /\ cur s = length ds /\ (forall m, In m ds -> n_ltb (Y (lv m)) y = true) /\
      forall m, In m rs -> n_leb y (Y (lv m)) = true /\ (n_eqb (Y (lv m)) y = true \/ In (Y (lv m)) (scans s))
  }.
  Record ended (y : T) s : Prop := {
    ed_valid : nvalid y;
    ed_lists : same_lists s;
    ed_good : good vs s;
    ed_queue : queue_ok vs y (scans s);
    ed_placed : all_placed (edges s);
    ed_active : exists l, active s l /\ exactly (met vs P y) (map (side_of (edges s)) l) /\ tops_queued s l;
    ed_minima : exists ds rs, ms = ds ++ rs /\ cur s = length ds /\ (forall m, In m ds -> n_leb (Y (lv m)) y = true) /\
      forall m, In m rs -> n_ltb y (Y (lv m)) = true /\ In (Y (lv m)) (scans s)
  }.
  Lemma exactly_perm Q K K' : Permutation K K' -> exactly Q K -> exactly Q K'.
  Proof.
    intros H [A B]. split; [eapply Permutation_NoDup; eauto|]. intros u. rewrite <- B. split; apply Permutation_in; auto using Permutation_sym.
  Qed.
  Lemma lv_P m : In m ms -> P (lv m).
  Proof. intros H. destruct (ms_way m H) as (x & _ & _ & K). eapply start_P; eauto. Qed.
  Lemma lv_valid m : In m ms -> nvalid (Y (lv m)).
  Proof. intros H. apply valid. now apply lv_P. Qed.
  Hint Resolve lv_valid : nv.
  Lemma nodup_app_l {A} (a b : list A) : NoDup (a ++ b) -> NoDup a.
  Proof. induction a; cbn; intros H; [constructor|]. inversion H; subst. constructor; auto. intros K. apply H2. apply in_or_app. auto. Qed.
  Lemma nodup_app_r {A} (a b : list A) : NoDup (a ++ b) -> NoDup b.
  Proof. induction a; cbn; intros H; auto. inversion H; auto. Qed.
  Lemma sorted_app_r {A} (R : A -> A -> Prop) a b : StronglySorted R (a ++ b) -> StronglySorted R b.
  Proof. induction a; cbn; auto. intros H. inversion H; auto. Qed.
  (** before the output is updated *)
  Lemma pre_ended y s s1 s2 : ready y s -> insert_local_minima_to_ael s y = Ok s1 -> recalc_windcnt s1 = Ok s2 -> ended y s2.
  Proof.
    intros [Vy SL G Q AP (l & HA & EX & TQ) (ds & rs & D1 & D2 & D3 & D4)] F1 F2.
    assert (GQ : good vs s2 /\ queue_ok vs y (scans s2)).
    { destruct (insert_minima_climbs vs y _ V Vy _ _ G Q (fun m => in_skipn _ _ m) F1) as [G1 Q1].
      pose proof (recalc_windcnt_ec _ _ F2) as R2. apply recalc_windcnt_frame in F2 as (A1 & _ & _ & _ & A2 & _).
      split; [|rewrite A2; exact Q1]. eapply good_frame; [exact A1|exact G1|]. eapply edges_ok_rel; [eapply erel_mono; [apply count_way|exact R2]|apply G1]. }
    destruct GQ as [G' Q'].
    unfold insert_local_minima_to_ael in F1. pose proof SL as (_ & _ & SL3).
    rewrite SL3, D1, D2, skipn_app, skipn_all, Nat.sub_diag in F1. cbn [app skipn] in F1.
    destruct (insert_minima_starts y rs Vy s l s1 SL G Q HA AP TQ) as (es & rs' & l' & KS & C1 & C2 & C3 & C4 & C5 & C6 & C7 & C8 & C9 & C10 & C11 & C12 & C13);
      auto; [intros m Hm; rewrite D1; apply in_or_app; auto|].
    pose proof (recalc_windcnt_ec _ _ F2) as R2. pose proof (recalc_windcnt_frame _ _ F2) as (A1 & _ & _ & A4 & A2 & A3).
    assert (R : erel same_way (edges s1) (edges s2)) by (eapply erel_mono; [apply count_way|exact R2]).
    assert (A' : active s2 l') by (eapply active_count; [exact R2|tauto|exact C8]).
    assert (SO : forall i, In i l' -> side_of (edges s2) i = side_of (edges s1) i).
    { intros i Hi. apply side_of_way; auto. eapply active_bound_len; eauto. }
    assert (SC : scans s2 = scans s1) by congruence.
    subst rs.
    assert (IM : forall m, In m ds \/ In m es \/ In m rs' -> In m ms) by (intros m; rewrite D1, !in_app_iff; auto).
    assert (VM : forall m, In m ds \/ In m es \/ In m rs' -> nvalid (Y (lv m))) by (intros m Hm; apply lv_valid; auto).
    assert (SO' := ms_sorted). assert (ND' := ms_nodup). rewrite D1 in SO', ND'.
    assert (RS : forall m, In m rs' -> n_ltb y (Y (lv m)) = true).
    { destruct rs' as [|m0 r]; [contradiction|]. pose proof (C3 m0 r eq_refl) as NE.
      apply sorted_app_r, sorted_app_r in SO'. inversion SO' as [|? ? S1 S2]; subst. rewrite Forall_forall in S2.
      assert (nvalid (Y (lv m0))) by (apply VM; cbn; auto).
      destruct (D4 m0) as [L _]; [rewrite in_app_iff; cbn; auto|].
      intros m Hm. assert (nvalid (Y (lv m))) by (apply VM; auto).
      destruct Hm as [<-|Hm]; [ord|]. specialize (S2 m Hm). unfold nle in S2. ord. }
    constructor; auto.
    - unfold same_lists. unfold VFrame.fin in *. injection A1 as A11 A12 A13 _ _ _ _.
      rewrite A11, A12, A13. exact C5.
    - eapply all_placed_rel; eauto.
    - exists l'. csplit; auto.
      + eapply exactly_perm; [|eapply step_min; [exact MK|exact Vy|exact EX|exact C12| |]].
        * rewrite C13. erewrite map_ext_in; [reflexivity|]. intros i Hi. symmetry. auto.
        * rewrite !map_app in ND'. apply nodup_app_r, nodup_app_l in ND'. exact ND'.
        * intros m. rewrite ms_M, in_map_iff. split.
          -- intros (k & <- & Hk). split; auto. apply in_map. auto.
          -- intros [Hm E]. apply in_map_iff in Hm as (k & <- & Hk). exists k. split; auto.
             assert (Vk : nvalid (Y (lv k))) by (apply lv_valid; auto).
             rewrite D1, !in_app_iff in Hk. destruct Hk as [Hk|[Hk|Hk]]; auto; exfalso; [apply D3 in Hk|apply RS in Hk]; ord.
      + intros i Hi. rewrite SO, SC by auto. auto.
    - exists (ds ++ es), rs'. rewrite <- app_assoc. csplit; auto.
      + rewrite app_length. unfold fq in *. congruence.
      + intros m Hm. assert (Vk : nvalid (Y (lv m))) by (apply VM; rewrite ?in_app_iff in Hm; tauto).
        rewrite in_app_iff in Hm. destruct Hm as [Hm|Hm]; [apply D3 in Hm|apply C2 in Hm]; ord.
      + intros m Hm. split; auto. rewrite SC. apply C11. destruct (D4 m) as [_ [E|E]]; auto; [rewrite in_app_iff; auto|].
        exfalso. assert (Vk : nvalid (Y (lv m))) by (apply VM; rewrite ?in_app_iff in Hm; tauto). apply RS in Hm. ord.
  Qed.
  Lemma update_ended n y s s' : ended y s -> update_output_bound n s y = Ok s' -> ended y s'.
  Proof.
    intros [Vy SL G Q AP (l & HA & EX & TQ) (ds & rs & D1 & D2 & D3 & D4)] H.
    pose proof (update_output_bound_eb _ _ _ _ H) as R3. pose proof (update_output_bound_frame _ _ _ _ H) as (B1 & B2 & B0 & B3 & B4).
    assert (R : erel same_way (edges s) (edges s')) by (eapply erel_mono; [apply bound_way|exact R3]).
    assert (A' : active s' l) by (eapply active_bound; [exact R3|tauto|exact HA]).
    assert (SO : forall i, In i l -> side_of (edges s') i = side_of (edges s) i).
    { intros i Hi. apply side_of_way; auto. eapply active_bound_len; eauto. }
    constructor; auto.
    - unfold same_lists in *. unfold VFrame.fin in *. injection B1 as -> -> -> _ _ _ _. exact SL.
    - eapply good_frame; [exact B1|exact G|]. eapply edges_ok_rel; [exact R|apply G].
    - rewrite B2. exact Q.
    - eapply all_placed_rel; eauto.
    - exists l. csplit; auto.
      + eapply exactly_perm; [|exact EX]. erewrite map_ext_in; [reflexivity|]. intros i Hi. symmetry. auto.
      + intros i Hi. rewrite SO, B2 by auto. auto.
    - exists ds, rs. rewrite B2. csplit; auto. unfold fq in *. congruence.
  Qed.
  Lemma scan_at_ended n y s s' : ready y s -> scan_at n s y = Ok s' -> ended y s'.
  Proof.
    intros RD H. unfold scan_at in H. apply bind_ok in H as (s1 & F1 & H). apply bind_ok in H as (s2 & F2 & H).
    eapply update_ended; [eapply pre_ended; eauto|exact H].
  Qed.
  Lemma drop_in y q : forall z, In z q -> n_eqb z y = true \/ In z (drop_eq y q).
  Proof.
    induction q as [|x q IH]; intros z H; [contradiction|]. cbn [drop_eq]. destruct (n_eqb x y) eqn:E; auto. destruct H as [<-|H]; auto.
  Qed.
  Lemma pop_in y s y' s' : queue_ok vs y (scans s) -> nvalid y -> pop_scanline s y = (Some y', s') ->
    forall z, In z (scans s) -> n_leb y' z = true /\ (n_eqb z y' = true \/ In z (scans s')).
  Proof.
    intros [Q1 Q2] Vy H.
    assert (D : drop_eq y (scans s) = scans s).
    { destruct (scans s) as [|x q]; auto. cbn. inversion Q2 as [|? ? [L Hh] _]; subst.
      rewrite neq_sym, (lt_not_eq _ _ Vy (height_valid _ _ V Hh) L). reflexivity. }
    unfold pop_scanline in H. rewrite D in H. destruct (scans s) as [|x q] eqn:S; [discriminate|]. injection H as -> <-.
    apply StronglySorted_inv in Q1 as [S1 S2]. apply Forall_cons_iff in Q2 as [[L Hh] Q2]. rewrite Forall_forall in S2.
    assert (Vy' : nvalid y') by (eapply height_valid; eauto).
    intros z [<-|Hz]; cbn [scans w_scans].
    - split; [|left]; ord.
    - split; [now apply S2|]. now apply drop_in.
  Qed.
  Lemma standing_all s : good vs s -> all_placed (edges s) -> standing (edges s).
  Proof. intros (_ & A & _) B i e E. split; eauto. Qed.
  Lemma pop_ready y s y' s2 n s' : ended y s -> pop_scanline s y = (Some y', s2) -> beam n s2 y' = Ok s' -> ready y' s'.
  Proof.
    intros [Vy SL G Q AP (l & HA & EX & TQ) (ds & rs & D1 & D2 & D3 & D4)] HP H.
    pose proof (pop_in y s y' s2 Q Vy HP) as PI.
    destruct (pop_climbs vs y s y' s2 V G Q Vy HP) as (G2 & Q2 & L & Hh).
    pose proof (height_valid _ _ V Hh) as Vy'.
    destruct (beam_climbs vs y' n s2 s' V Vy' G2 Q2 H) as [G3 Q3].
    pose proof (beam_frame _ _ _ _ H) as [A0 A0c].
    pose proof (pop_scanline_frame _ _ _ _ HP) as (P1 & _ & P2 & P3 & P4 & _).
    assert (NB : forall x, P x -> n_ltb y (Y x) = true -> n_leb y' (Y x) = true).
    { apply (nothing_below vs P M MK (fun x => n_ltb y (Y x)) y'); auto.
      - intros i j Pi Pj E K. ord.
      - intros m Mm K. apply ms_M, in_map_iff in Mm as (k & <- & Hk). assert (Vk : nvalid (Y (lv k))) by (apply lv_valid; auto).
        rewrite D1, in_app_iff in Hk. destruct Hk as [Hk|Hk]; [apply D3 in Hk; exfalso; ord|]. apply D4 in Hk as [_ Hk]. now apply PI.
      - intros fwd i k Pi SD _ Li Lk. assert (In (fwd, k) (map (side_of (edges s)) l)) as K.
        { apply EX. exists i. cbn [fst snd]. csplit; auto. ord. }
        apply in_map_iff in K as (x & K1 & K2). apply TQ in K2. rewrite K1 in K2. now apply PI. }
    unfold beam in H. apply bind_ok in H as (s3 & F1 & H). apply bind_ok in H as (s4 & F2 & H).
    unfold do_top_of_scanbeam in F1.
    assert (HA2 : active (w_changes s2 []) ([] ++ l)).
    { destruct HA as (X1 & X2 & X3). split; [cbn; congruence|]. cbn [edges w_changes]. rewrite P3. auto. }
    assert (SL2 : same_lists s2).
    { unfold same_lists, VFrame.fin in *. injection P1 as -> -> -> _ _ _ _. auto. }
    apply (top_loop_moves vs P M MK _ (w_changes s2 []) y' _ _ [] l s3) in F1 as (l1 & B1 & B2 & B3 & B4 & _ & B6 & B7 & B8).
    2: apply SL2. 2: exact HA2. 2: apply (proj1 HA2). 2: { cbn [edges w_changes]. rewrite P3. now apply standing_all. }
    2: { cbn [edges w_changes scans]. rewrite P3. intros i Hi NE. destruct (PI _ (TQ i Hi)) as [_ [K|K]]; [congruence|auto]. }
    cbn [app edges w_changes scans] in *.
    pose proof (close_output_eb _ _ _ _ F2) as R2. pose proof (close_output_frame _ _ _ _ F2) as (C1 & C2 & C3 & C4).
    assert (A4 : active s4 l1) by (eapply active_bound; [exact R2|tauto|exact B1]).
    pose proof (resort_ael_way _ _ H) as R3. pose proof (resort_ael_frame _ _ H) as (_ & _ & _ & E2 & _).
    destruct (resort_ael_ok s4 _ s' A4 H) as (l' & PM & A' & _).
    assert (R : erel same_way (edges s3) (edges s')).
    { eapply erel_trans; [apply pre_way|eapply erel_mono; [apply bound_way|exact R2]|exact R3]. }
    assert (SO : forall i, In i l1 -> side_of (edges s') i = side_of (edges s3) i).
    { intros i Hi. apply side_of_way; auto. eapply active_bound_len; eauto. }
    assert (SC : scans s' = scans s3) by (unfold fq in *; congruence).
    constructor; auto.
    - unfold same_lists, VFrame.fin in *. injection A0 as -> -> -> _ _ _ _. auto.
    - eapply all_placed_rel; [exact R|]. intros i e Hi. now apply (B3 i e).
    - exists l'. csplit; auto.
      + eapply exactly_perm; [|eapply (step_top vs P M MK y y'); [| | | |exact EX|rewrite P3 in B8; exact B8]]; auto.
        rewrite <- (map_ext_in _ _ _ SO). apply Permutation_map. exact PM.
      + intros i Hi. apply (in_perm _ _ _ PM) in Hi. rewrite SO, SC by auto. auto.
    - exists ds, rs. csplit; auto; [congruence| |].
      + intros m Hm. assert (Vk : nvalid (Y (lv m))) by (apply lv_valid; rewrite D1, in_app_iff; auto). apply D3 in Hm. ord.
      + intros m Hm. assert (Vk : nvalid (Y (lv m))) by (apply lv_valid; rewrite D1, in_app_iff; auto). apply D4 in Hm as [K1 K2].
        destruct (PI _ K2) as [K3 [K4|K4]]; split; auto. right. rewrite SC. auto.
  Qed.
  (** *** The first scan line *)
  Lemma pop_first s y s' : same_lists s -> good vs s -> StronglySorted nle (scans s) -> Forall (at_height vs) (scans s) -> edges s = [] -> ael s = None -> cur s = 0 ->
    (forall m, In m ms -> In (Y (lv m)) (scans s)) -> (forall m, In m ms -> n_eqb (Y (lv m)) (n_neg n_huge) = false) ->
    (forall z, In z (scans s) -> exists m, In m ms /\ z = Y (lv m)) ->
    pop_scanline s (n_neg n_huge) = (Some y, s') -> ready y s'.
  Proof.
    intros SL G S H E AE C Qm NH Qs HP. pose proof (pop_scanline_frame _ _ _ _ HP) as (P1 & _ & P2 & P3 & P4 & _).
    assert (D : drop_eq (n_neg n_huge) (scans s) = scans s).
    { destruct (scans s) as [|x q]; auto. cbn. destruct (Qs x) as (m & Hm & ->); [now left|]. rewrite NH; auto. }
    unfold pop_scanline in HP. rewrite D in HP. destruct (scans s) as [|x q] eqn:SS; [discriminate|]. injection HP as -> <-.
    apply StronglySorted_inv in S as [S1 S2]. apply Forall_cons_iff in H as [H1 H2]. rewrite Forall_forall in S2.
    pose proof (height_valid _ _ V H1) as Vy.
    assert (LE : forall m, In m ms -> n_leb y (Y (lv m)) = true).
    { intros m Hm. destruct (Qm m Hm) as [->|K]; [apply nle_refl; auto|]. now apply S2. }
    assert (NB : forall x, P x -> n_leb y (Y x) = true).
    { intros x Px. apply (nothing_below vs P M MK (fun _ => true) y); auto; try discriminate.
      intros m Mm _. apply ms_M, in_map_iff in Mm as (k & <- & Hk). auto. }
    constructor; auto.
    - cbn [scans w_scans]. apply drop_eq_spec; auto. now apply Forall_forall.
    - cbn [edges w_scans]. rewrite E. intros i e Hi. destruct i; discriminate.
    - exists []. cbn [edges w_scans map]. csplit; auto.
      + split; [exact AE|]. split; constructor.
      + now apply (step_first vs P M MK).
      + intros i [].
    - exists [], ms. csplit; auto; try contradiction. intros m Hm. split; auto. cbn [scans w_scans].
      destruct (Qm m Hm) as [<-|K]; [left; ord|]. now apply drop_in.
  Qed.
End Run.
