(** The scan lines of a sweep increase. *)
From Coq Require Import ZArith Bool List Permutation Sorted Lia.
From Verif Require Import Outcome Num Order Rmath Segment VState VPath VBreak VAel VOut VMain VLemmas VFrame ClipSpec AelSpec
  VAelProofs VEdges VAelRun VRun SortProofs ClimbSpec.
Import ListNotations.
Local Open Scope out.

Section Climb.
  Context {T : Type} {N : Num T} {O : OrdNum T}.
  Implicit Types s : clipper T.
  Implicit Types es : list (edge T).
  Implicit Types vs : list (vertex T).

  (** Edges that differ in nothing that matters for the way up *)
  Definition same_way (e f : edge T) := e_top f = e_top e /\ e_dx f = e_dx e /\ e_vtop f = e_vtop e /\ e_bot f = e_bot e.
  Lemma pre_way : pre same_way.
  Proof. split; unfold same_way; intuition congruence. Qed.
  Definition climbing vs (e : edge T) : Prop :=
    (exists v, nth_error vs (e_vtop e) = Some v /\ e_top e = v_pt v) /\ climbs vs (edge_up e) (e_vtop e).
  Definition edges_ok vs es := forall i e, nth_error es i = Some e -> climbing vs e.
  Lemma climbing_same vs e f : same_way e f -> climbing vs e -> climbing vs f.
  Proof. intros (A & B & C & _) [(v & D & E) F]. unfold climbing, edge_up in *. rewrite A, B, C. eauto. Qed.
  Lemma edges_ok_rel vs es fs : erel same_way es fs -> edges_ok vs es -> edges_ok vs fs.
  Proof. intros H K i f F. destruct (erel_back _ _ _ _ _ H F) as (e & E & S). eapply climbing_same; eauto. Qed.

  (** The queue *)
  Definition at_height vs (z : T) := exists v, In v vs /\ z = vy (v_pt v).
  Definition vs_valid vs := forall v, In v vs -> nvalid (vy (v_pt v)).
  Definition queue_ok vs (y : T) (q : list T) : Prop :=
    StronglySorted nle q /\ Forall (fun z => n_ltb y z = true /\ at_height vs z) q.
  Lemma height_valid vs z : vs_valid vs -> at_height vs z -> nvalid z.
  Proof. intros H (v & A & ->). auto. Qed.
  Lemma height_at vs i v : nth_error vs i = Some v -> at_height vs (vy (v_pt v)).
  Proof. intros H. exists v. split; auto. eapply nth_error_In; eauto. Qed.
  Lemma insert_sorted vs z q : vs_valid vs -> at_height vs z -> Forall (at_height vs) q -> StronglySorted nle q ->
    StronglySorted nle (insert_by n_ltb z q).
  Proof.
    intros V Hz Hq S. apply (insert_by_sorted n_ltb nvalid nle); auto.
    - intros a b c. apply nle_trans.
    - intros a b Ha Hb. destruct (n_ltb a b) eqn:E; [now apply nlt_le|]. now apply nle_not_lt.
    - eapply height_valid; eauto.
    - eapply Forall_impl; [|exact Hq]. intros a. now apply height_valid.
  Qed.
  Lemma queue_push vs y z q : vs_valid vs -> at_height vs z -> n_ltb y z = true -> queue_ok vs y q -> queue_ok vs y (insert_by n_ltb z q).
  Proof.
    intros V H L [Q1 Q2]. split.
    - apply (insert_sorted vs); auto. eapply Forall_impl; [|exact Q2]. intros a [_ K]; exact K.
    - eapply Permutation_Forall; [apply insert_by_perm|]. constructor; auto.
  Qed.
  Lemma drop_eq_spec vs y q : vs_valid vs -> nvalid y -> StronglySorted nle q -> Forall (at_height vs) q ->
    Forall (fun z => nle y z) q -> queue_ok vs y (drop_eq y q).
  Proof.
    intros V Vy. induction q as [|x q IH]; intros S H L; cbn [drop_eq]; [repeat constructor|].
    apply StronglySorted_inv in S as [S1 S2]. apply Forall_cons_iff in H as [H1 H2]. apply Forall_cons_iff in L as [L1 L2].
    destruct (n_eqb x y) eqn:E; auto. split; [now constructor|].
    assert (Vx : nvalid x) by (eapply height_valid; eauto).
    assert (K : n_ltb y x = true).
    { apply nle_cases in L1 as [L1|L1]; auto. rewrite neq_sym in L1. congruence. }
    constructor; auto. rewrite Forall_forall in H2, S2 |- *. intros z Hz. split; auto.
    apply (nlt_le_trans y x z); auto. eapply height_valid; eauto.
  Qed.

  Lemma eq_lt a b c : nvalid a -> nvalid b -> nvalid c -> n_eqb a b = true -> n_leb a c = true -> n_eqb a c = false -> n_ltb b c = true.
  Proof.
    intros Va Vb Vc E L NE. apply nle_cases in L as [L|L]; auto; [|congruence].
    eapply neq_lt_trans; [..|exact L]; auto. now rewrite neq_sym.
  Qed.

  (** Moving an edge to the next vertex *)
  Lemma next_edge_climbs s i e s' vs : verts s = vs -> nth_error (edges s) i = Some e -> climbing vs e -> is_maxima s e = Ok false ->
    edges_ok vs (edges s) -> next_edge s i = Ok s' ->
    edges_ok vs (edges s') /\ verts s' = vs /\ scans s' = scans s /\
    exists e', nth_error (edges s') i = Some e' /\ e_bot e' = e_top e /\ climbing vs e' /\ n_leb (vy (e_bot e')) (vy (e_top e')) = true.
  Proof.
    intros <- E C M OK H. destruct C as [(v & F1 & F2) C]. unfold is_maxima, at_ in M. rewrite F1 in M. cbn in M.
    inversion C as [? ? A1 A2|? ? j w A1 A2 A3 A4 A5 A6]; subst; rewrite F1 in A1; injection A1 as <-; [congruence|].
    unfold next_edge, at_ in H. rewrite E in H. cbn [of_opt bind] in H. rewrite F1 in H. cbn [of_opt bind] in H.
    unfold neighbour in A3. rewrite A3 in H. cbn [deref of_opt bind] in H. rewrite A4 in H. cbn [of_opt bind] in H. mods.
    assert (C' : climbing (verts s) (Edge (e_top e) (v_pt w) (vx (e_top e)) (e_dx e) (e_cnt e) (e_cnt2 e) (e_prev e) (e_next e) (e_bound e) j (e_lmin e))).
    { split; cbn; eauto. }
    cbn [edges w_edges verts scans]. csplit; auto.
    - intros k f Hk. rewrite nth_upd in Hk. destruct (Nat.eqb i k) eqn:K; [|eapply OK; eauto].
      apply Nat.eqb_eq in K as <-. rewrite E in Hk. injection Hk as <-. exact C'.
    - rewrite nth_upd, Nat.eqb_refl, E. eexists. split; [reflexivity|]. csplit; auto. cbn. now rewrite F2.
  Qed.
  Lemma do_maxima_way s i n s' : do_maxima s i = Ok (n, s') -> erel same_way (edges s) (edges s').
  Proof.
    intros H. unfold do_maxima, delete_active_edge, emod_opt in H.
    dmatch; cbn [edges w_edges w_ael w_bounds];
      repeat first [apply (erel_refl _ _ pre_way)
                   |apply erel_upd; [apply pre_way|intros []; repeat split; reflexivity]
                   |eapply erel_trans; [apply pre_way| |apply erel_upd; [apply pre_way|intros []; repeat split; reflexivity]]].
  Qed.
  Lemma climb_climbs fuel : forall s i e n s' vs y, vs_valid vs -> nvalid y -> verts s = vs -> nth_error (edges s) i = Some e ->
    climbing vs e -> nvalid (vy (e_bot e)) -> n_eqb (vy (e_bot e)) y = true -> n_leb (vy (e_bot e)) (vy (e_top e)) = true ->
    edges_ok vs (edges s) -> queue_ok vs y (scans s) -> climb fuel s i = Ok (n, s') ->
    edges_ok vs (edges s') /\ queue_ok vs y (scans s') /\ verts s' = vs.
  Proof.
    induction fuel; intros s i e n s' vs y V Vy HV E C Vb Eb Lb OK Q H; cbn [climb] in H; [discriminate|].
    apply bind_ok in H as (x & Ex & H). apply at_ok in Ex. rewrite E in Ex. injection Ex as <-.
    assert (Vt : nvalid (vy (e_top e))).
    { destruct C as [(v & F1 & ->) _]. apply V. eapply nth_error_In; eauto. }
    destruct (is_horz e) eqn:Hz.
    - apply bind_ok in H as (m & M & H). destruct m.
      + pose proof (do_maxima_way _ _ _ _ H) as R. apply do_maxima_frame in H as (A1 & _ & _ & A2).
        unfold VFrame.fin, fq in *. cbn in *. csplit; [eapply edges_ok_rel; eauto|congruence|congruence].
      + apply bind_ok in H as (s1 & F & H).
        destruct (next_edge_climbs (push_change s (vx (e_top e))) i e s1 vs HV E C M OK F) as (K1 & K2 & K3 & e' & K4 & K5 & K6 & K7).
        cbn in K3. apply (IHfuel s1 i e' n s' vs y); auto; try congruence.
        rewrite K5. unfold is_horz in Hz. apply (neq_trans _ (vy (e_bot e))); auto. now rewrite neq_sym.
    - binvs. cbn [edges insert_scanline w_scans scans verts]. csplit; auto. apply queue_push; auto.
      + destruct C as [(v & F1 & ->) _]. eapply height_at; eauto.
      + eapply (eq_lt (vy (e_bot e))); eauto.
  Qed.
  Lemma update_x_way s i y s' : update_x s i y = Ok s' -> erel same_way (edges s) (edges s').
  Proof. unfold update_x. intros H. dmatch. cbn. apply erel_upd; [apply pre_way|]. intros []; repeat split. Qed.
  Lemma top_loop_climbs fuel : forall s y lx c s' vs, vs_valid vs -> nvalid y -> verts s = vs ->
    edges_ok vs (edges s) -> queue_ok vs y (scans s) -> top_loop fuel s y lx c = Ok s' ->
    edges_ok vs (edges s') /\ queue_ok vs y (scans s').
  Proof.
    induction fuel; intros s y lx c s' vs V Vy HV OK Q H; cbn [top_loop] in H; (destruct c as [i|]; [|binvs; auto]); [discriminate|].
    binv H. apply at_ok in E. destruct (n_eqb (vy (e_top x)) y) eqn:Ey.
    - apply bind_ok in H as (s1 & F1 & H). apply bind_ok in H as (s2 & F2 & H). apply bind_ok in H as (m & F3 & H).
      pose proof (extend_bound_frame _ _ _ F2) as (G1 & _ & G3 & _ & G5 & _). apply emod_ok in F1 as [_ ->].
      set (s1 := w_edges s _) in *.
      assert (B : edges s2 = edges s1 /\ verts s2 = vs /\ scans s2 = scans s).
      { unfold VFrame.fin, fq in *. destruct (n_eqb (vx (e_top x)) lx); cbn in *; csplit; congruence. }
      destruct B as (B1 & B2 & B3).
      assert (OK2 : edges_ok vs (edges s2)).
      { rewrite B1. eapply edges_ok_rel; [|exact OK]. cbn. apply erel_upd; [apply pre_way|]. intros []; repeat split. }
      assert (E2 : nth_error (edges s2) i = Some (set_ex (vx (e_top x)) x)).
      { rewrite B1. cbn. rewrite nth_upd, Nat.eqb_refl, E. reflexivity. }
      destruct m.
      + apply bind_ok in H as ([n s3] & F4 & H). pose proof (do_maxima_way _ _ _ _ F4) as R.
        apply do_maxima_frame in F4 as (A1 & _ & _ & A2). unfold VFrame.fin, fq in *.
        eapply (IHfuel s3); [exact V|exact Vy| | | |exact H]; [congruence|eapply edges_ok_rel; eauto|congruence].
      + apply bind_ok in H as (s3 & F4 & H). apply bind_ok in H as ([n s4] & F5 & H).
        assert (C : climbing vs (set_ex (vx (e_top x)) x)) by (eapply OK2; eauto).
        destruct (next_edge_climbs s2 i _ s3 vs B2 E2 C F3 OK2 F4) as (K1 & K2 & K3 & e' & K4 & K5 & K6 & K7).
        cbn in K5. destruct (climb_climbs (S (length (verts s3))) s3 i e' n s4 vs y V Vy K2 K4 K6) as (W1 & W2 & W3); auto; try congruence.
        * rewrite K5. destruct C as [(v & ? & D) _]. cbn in D. rewrite D. apply V. eapply nth_error_In; eauto.
        * eapply (IHfuel s4); [exact V|exact Vy|exact W3|exact W1|exact W2|exact H].
    - apply bind_ok in H as (s1 & F1 & H). apply bind_ok in H as (e' & F2 & H). apply bind_ok in H as (s2 & F3 & H).
      pose proof (update_x_way _ _ _ _ F1) as R. apply update_x_frame in F1 as (A1 & _ & A2 & _).
      assert (B : edges s2 = edges s1 /\ verts s2 = verts s1 /\ scans s2 = scans s1).
      { destruct (e_bound e'); dmatch; auto. }
      destruct B as (B1 & B2 & B3). unfold VFrame.fin, fq in *.
      eapply IHfuel; [exact V|exact Vy| | | |exact H]; destruct (n_eqb (e_x e') lx); cbn;
        first [congruence|rewrite B1; eapply edges_ok_rel; eauto].
  Qed.

  (** *** New edges *)
  Definition rising vs (e : edge T) : Prop :=
    (exists v, nth_error vs (e_vtop e) = Some v /\ e_top e = v_pt v) /\
    ((n_ltb (vy (e_bot e)) (vy (e_top e)) = true /\ climbs vs (edge_up e) (e_vtop e)) \/
     (n_eqb (vy (e_bot e)) (vy (e_top e)) = true /\ leaves vs (edge_up e) (e_vtop e))).
  Lemma lt_not_eq a b : nvalid a -> nvalid b -> n_ltb a b = true -> n_eqb a b = false.
  Proof.
    intros Va Vb L. destruct (n_eqb a b) eqn:E; auto. rewrite neq_sym in E. pose proof (neq_lt_trans _ _ _ Vb Va Vb E L) as K.
    rewrite nlt_irrefl in K. discriminate.
  Qed.
  Lemma skip_horz_climbs vs y fuel : vs_valid vs -> nvalid y -> forall s es e s', verts s = vs -> edges s = es ++ [e] ->
    nvalid (vy (e_bot e)) -> n_eqb (vy (e_bot e)) y = true -> rising vs e -> skip_horz fuel s (length es) = Ok s' ->
    exists e', edges s' = es ++ [e'] /\ climbing vs e' /\ n_ltb y (vy (e_top e')) = true.
  Proof.
    intros V Vy. induction fuel; intros s es e s' HV HE Vb Eb R H; cbn [skip_horz] in H;
      apply bind_ok in H as (x & Ex & H); apply at_ok in Ex; rewrite HE, nth_snoc_last in Ex; injection Ex as <-;
      destruct (is_horz e) eqn:Hz; unfold is_horz in Hz; try discriminate.
    1, 3: binvs; exists e; destruct R as [P [[L C]|[E _]]]; [|congruence]; csplit; auto; [split; auto|];
      destruct P as (v & P1 & P2); eapply neq_lt_trans; [..|exact L]; auto;
      [rewrite P2; apply V; eapply nth_error_In; eauto|now rewrite neq_sym].
    destruct R as [(v & P1 & P2) R].
    assert (Vt : nvalid (vy (e_top e))) by (rewrite P2; apply V; eapply nth_error_In; eauto).
    destruct R as [[L _]|[_ R]]; [rewrite (lt_not_eq _ _ Vb Vt L) in Hz; discriminate|].
    apply bind_ok in H as (s1 & F & H). unfold next_edge, at_ in F. rewrite HE, nth_snoc_last in F. cbn [of_opt bind] in F.
    rewrite HV, P1 in F. cbn [of_opt bind] in F.
    assert (Ey : n_eqb (vy (e_top e)) y = true) by (apply (neq_trans _ (vy (e_bot e))); auto; now rewrite neq_sym).
    assert (K : exists j w, neighbour (edge_up e) v = Some j /\ nth_error vs j = Some w /\
       rising vs (Edge (e_top e) (v_pt w) (vx (e_top e)) (e_dx e) (e_cnt e) (e_cnt2 e) (e_prev e) (e_next e) (e_bound e) j (e_lmin e))).
    { inversion R as [? ? j w A1 A2 A3 A4 A5|? ? j w A1 A2 A3 A4 A5]; subst; rewrite P1 in A1; injection A1 as <-;
        exists j, w; csplit; auto; (split; [cbn; eauto|]); cbn; rewrite P2; auto. }
    destruct K as (j & w & K1 & K2 & K3). unfold neighbour in K1. rewrite K1 in F. cbn [deref of_opt bind] in F.
    rewrite K2 in F. cbn [of_opt bind] in F. apply emod_ok in F as [_ ->].
    apply bind_ok in H as (x & Ex & H). cbn [edges w_edges] in Ex.
    refine (IHfuel _ es _ s' _ _ _ _ K3 H); auto. cbn [edges w_edges push_change w_changes]. rewrite HE, upd_snoc. reflexivity.
  Qed.
  Lemma start_edge_climbs vs y s m v top dx s' : vs_valid vs -> nvalid y -> verts s = vs -> In v vs -> n_eqb (vy (v_pt v)) y = true ->
    (forall w, nth_error vs top = Some w ->
       (n_ltb (vy (v_pt v)) (vy (v_pt w)) = true /\ climbs vs (Z.ltb dx 0) top) \/
       (n_eqb (vy (v_pt v)) (vy (v_pt w)) = true /\ leaves vs (Z.ltb dx 0) top)) ->
    start_edge s m (v_pt v) top dx = Ok s' ->
    exists e, edges s' = edges s ++ [e] /\ climbing vs e /\ n_ltb y (vy (e_top e)) = true.
  Proof.
    intros V Vy HV Hv Ey R H. unfold start_edge in H. apply bind_ok in H as (w & Ew & H). apply at_ok in Ew. rewrite HV in Ew.
    apply bind_ok in H as (s1 & F & H). apply bind_ok in H as (x & Ex & H).
    eapply (skip_horz_climbs vs y _ V Vy _ (edges s)) in F; [|exact HV|reflexivity|apply V; exact Hv|exact Ey|].
    - destruct F as (e & E1 & E2 & E3). apply emod_ok in H as [_ ->]. cbn [edges w_edges]. rewrite E1, upd_snoc.
      eexists. split; [reflexivity|]. split; [|exact E3]. eapply climbing_same; [|exact E2]. repeat split.
    - split; [cbn; eauto|]. cbn. apply R. exact Ew.
  Qed.
  Ltac ways :=
    repeat first [apply (erel_refl _ _ pre_way)
                 |apply erel_upd; [apply pre_way|intros []; repeat split; reflexivity]
                 |eapply erel_trans; [apply pre_way| |apply erel_upd; [apply pre_way|intros []; repeat split; reflexivity]]].
  Lemma insert_after_way s l n s' : insert_after s l n = Ok s' -> erel same_way (edges s) (edges s').
  Proof. unfold insert_after, emod_opt. intros H. dmatch; cbn [edges w_edges]; ways. Qed.
  Lemma insert_into_ael_way s n s' : insert_into_ael s n = Ok s' -> erel same_way (edges s) (edges s').
  Proof. unfold insert_into_ael. intros H. dmatch; cbn [edges w_edges w_ael]; ways. now apply insert_after_way in H. Qed.
  Lemma insert_left_way s l n s' : insert_into_ael_left s l n = Ok s' -> erel same_way (edges s) (edges s').
  Proof. destruct l; [apply insert_after_way|apply insert_into_ael_way]. Qed.
  Lemma leaves_first vs fwd i v j : leaves vs fwd i -> nth_error vs i = Some v -> neighbour fwd v = Some j ->
    forall w, nth_error vs j = Some w ->
       (n_ltb (vy (v_pt v)) (vy (v_pt w)) = true /\ climbs vs fwd j) \/ (n_eqb (vy (v_pt v)) (vy (v_pt w)) = true /\ leaves vs fwd j).
  Proof.
    intros L Hv Hj w Hw. inversion L as [? v' j' w' A1 A2 A3 A4 A5|? v' j' w' A1 A2 A3 A4 A5]; subst;
      rewrite Hv in A1; injection A1 as <-; rewrite Hj in A2; injection A2 as <-; rewrite Hw in A3; injection A3 as <-; auto.
  Qed.
  Lemma insert_minimum_climbs vs y s m s' : vs_valid vs -> nvalid y -> verts s = vs -> edges_ok vs (edges s) -> queue_ok vs y (scans s) ->
    (exists x v, nth_error (lmins s) m = Some x /\ nth_error vs (lm_vert x) = Some v /\ n_eqb (vy (v_pt v)) y = true /\ valley vs (lm_vert x)) ->
    insert_minimum s m = Ok s' -> edges_ok vs (edges s') /\ queue_ok vs y (scans s').
  Proof.
    intros V Vy HV OK Q (lm & v & L1 & L2 & L3 & [Lf Lb]) H. unfold insert_minimum in H.
    apply bind_ok in H as (x & Ex & H). apply at_ok in Ex. rewrite L1 in Ex. injection Ex as <-.
    apply bind_ok in H as (x & Ex & H). apply at_ok in Ex. rewrite HV, L2 in Ex. injection Ex as <-.
    apply bind_ok in H as (p & Ep & H). apply deref_ok in Ep. apply bind_ok in H as (n & En & H). apply deref_ok in En.
    apply bind_ok in H as (s1 & F1 & H). apply bind_ok in H as (s2 & F2 & H). apply bind_ok in H as (s3 & F3 & H).
    apply bind_ok in H as (ea & E3 & H). apply bind_ok in H as (s4 & F4 & H).
    apply bind_ok in H as (ea' & Ea & H). apply bind_ok in H as (eb' & Eb & H). binvs.
    pose proof (start_edge_frame _ _ _ _ _ _ F1) as (A1 & _ & _ & A2 & _). pose proof (start_edge_frame _ _ _ _ _ _ F2) as (B1 & _ & _ & B2 & _).
    pose proof (insert_into_ael_frame _ _ _ F3) as (C1 & _ & C2). pose proof (insert_into_ael_left_frame _ _ _ _ F4) as (D1 & _ & D2).
    pose proof (nth_error_In _ _ L2) as Hv.
    unfold VFrame.fin, fq in *. assert (HV1 : verts s1 = verts s) by congruence.
    destruct (start_edge_climbs (verts s) y s m v p 1 s1) as (e1 & K1 & K2 & K3); auto.
    { apply (leaves_first (verts s) false (lm_vert lm)); auto. }
    destruct (start_edge_climbs (verts s) y s1 m v n (-1) s2) as (e2 & K4 & K5 & K6); auto.
    { apply (leaves_first (verts s) true (lm_vert lm)); auto. }
    assert (R : erel same_way (edges s2) (edges s4)).
    { eapply erel_trans; [apply pre_way|eapply insert_into_ael_way; eauto|eapply insert_left_way; eauto]. }
    assert (N1 : nth_error (edges s2) (length (edges s)) = Some e1).
    { rewrite K4, K1, <- app_assoc. rewrite nth_error_app2, Nat.sub_diag by lia. reflexivity. }
    assert (N2 : nth_error (edges s2) (length (edges s1)) = Some e2).
    { rewrite K4, nth_error_app2, Nat.sub_diag by lia. reflexivity. }
    destruct R as [RL R]. destruct (R _ _ N1) as (f1 & G1 & G2 & _). destruct (R _ _ N2) as (f2 & G3 & G4 & _).
    rewrite Ea in G1. injection G1 as <-. rewrite Eb in G3. injection G3 as <-.
    split.
    - cbn [edges insert_scanline w_scans]. eapply edges_ok_rel; [split; [exact RL|exact R]|].
      rewrite K4, K1. intros i e Hi. destruct (Nat.lt_ge_cases i (length (edges s))) as [Li|Li].
      + rewrite <- app_assoc, nth_error_app1 in Hi by auto. eapply OK; eauto.
      + rewrite <- app_assoc, nth_error_app2 in Hi by auto. destruct (i - length (edges s)) as [|[|k]]; cbn in Hi; try (destruct k; discriminate);
          injection Hi as <-; auto.
    - cbn [scans insert_scanline w_scans]. rewrite G2, G4.
      apply queue_push; auto; [destruct K5 as [(w & W1 & ->) _]; eapply height_at; eauto|].
      apply queue_push; auto; [destruct K2 as [(w & W1 & ->) _]; eapply height_at; eauto|]. congruence.
  Qed.

  (** *** The main loop *)
  Definition good vs s : Prop := verts s = vs /\ edges_ok vs (edges s) /\ all_valleys s.
  Lemma good_frame vs s s' : fin s' = fin s -> good vs s -> edges_ok vs (edges s') -> good vs s'.
  Proof.
    intros F (A & B & C) K. unfold VFrame.fin, good, all_valleys in *. injection F as F1 F2 F3 F4 F5 F6 F7.
    rewrite F1, F2, F3. auto.
  Qed.
  Lemma insert_minima_climbs vs y rest : vs_valid vs -> nvalid y -> forall s s', good vs s -> queue_ok vs y (scans s) ->
    (forall m, In m rest -> In m (minima s)) -> insert_minima s y rest = Ok s' -> good vs s' /\ queue_ok vs y (scans s').
  Proof.
    intros V Vy. induction rest as [|m r IH]; intros s s' G Q I H; cbn [insert_minima] in H; [binvs; auto|].
    apply bind_ok in H as (x & Ex & H). apply at_ok in Ex. apply bind_ok in H as (v & Ev & H). apply at_ok in Ev.
    destruct (n_eqb (vy (v_pt v)) y) eqn:E; [|binvs; auto]. apply bind_ok in H as (s1 & F & H).
    pose proof G as (G1 & G2 & G3).
    destruct (G3 m) as (x' & X1 & X2); [apply I; now left|]. rewrite Ex in X1. injection X1 as <-. rewrite G1 in Ev, X2.
    pose proof (insert_minimum_frame _ _ _ F) as (A1 & _ & _).
    destruct (insert_minimum_climbs vs y (w_minima s (minima s) (S (cur s))) m s1) as [K1 K2]; auto; [exists x, v; auto|].
    assert (G' : good vs s1) by (eapply good_frame; [exact A1|exact G|exact K1]).
    apply (IH s1); auto. intros k Hk. unfold VFrame.fin in A1. injection A1 as A1 A2 A3 A4 A5 A6 A7. rewrite A3. apply I. now right.
  Qed.
  Lemma bound_way e f : same_but_bound e f -> same_way (e : edge T) f.
  Proof. unfold same_but_bound. intros ->. repeat split. Qed.
  Lemma count_way e f : same_but_count e f -> same_way (e : edge T) f.
  Proof. unfold same_but_count. intros ->. repeat split. Qed.
  Lemma in_skipn {A} (l : list A) : forall n x, In x (skipn n l) -> In x l.
  Proof. induction l; destruct n; simpl; auto. intros x H. right. eauto. Qed.
  Lemma scan_at_climbs vs y n s s' : vs_valid vs -> nvalid y -> good vs s -> queue_ok vs y (scans s) -> scan_at n s y = Ok s' ->
    good vs s' /\ queue_ok vs y (scans s').
  Proof.
    intros V Vy G Q H. unfold scan_at in H. apply bind_ok in H as (s1 & F1 & H). apply bind_ok in H as (s2 & F2 & H).
    destruct (insert_minima_climbs vs y _ V Vy _ _ G Q (fun m => in_skipn _ _ m) F1) as [G1 Q1].
    pose proof (recalc_windcnt_ec _ _ F2) as R2. apply recalc_windcnt_frame in F2 as (A1 & _ & _ & _ & A2 & _).
    pose proof (update_output_bound_eb _ _ _ _ H) as R3. apply update_output_bound_frame in H as (B1 & B2 & _).
    split; [|rewrite B2, A2; exact Q1].
    eapply good_frame; [exact B1| |].
    - eapply good_frame; [exact A1|exact G1|]. eapply edges_ok_rel; [eapply erel_mono; [apply count_way|exact R2]|apply G1].
    - eapply edges_ok_rel; [eapply erel_mono; [apply bound_way|exact R3]|].
      eapply edges_ok_rel; [eapply erel_mono; [apply count_way|exact R2]|apply G1].
  Qed.
  Lemma take_from_ael_way s n s' : take_from_ael s n = Ok s' -> erel same_way (edges s) (edges s').
  Proof. unfold take_from_ael, emod_opt. intros H. dmatch; cbn [edges w_edges w_ael]; ways. Qed.
  Lemma take_changed_way fuel : forall s xs c acc s' l, take_changed fuel s xs c acc = Ok (s', l) -> erel same_way (edges s) (edges s').
  Proof.
    induction fuel; intros s xs c acc s' l H; simpl in H; destruct xs as [|x xs]; [binvs; ways| |binvs; ways|].
    - destruct c; [discriminate|binvs; ways].
    - destruct c; [|binvs; ways].
      dmatch; apply IHfuel in H; auto;
      match goal with K : take_from_ael _ _ = Ok _ |- _ => apply take_from_ael_way in K end;
      (eapply erel_trans; [apply pre_way| |exact H]); (eapply erel_trans; [apply pre_way| |eassumption]); cbn [edges w_edges w_bounds]; ways.
  Qed.
  Lemma insert_all_way l : forall s s', insert_all s l = Ok s' -> erel same_way (edges s) (edges s').
  Proof.
    induction l; intros s s' H; cbn [insert_all] in H; binvs; [ways|].
    eapply erel_trans; [apply pre_way|eapply insert_into_ael_way; eauto|]. eauto.
  Qed.
  Lemma resort_ael_way s s' : resort_ael s = Ok s' -> erel same_way (edges s) (edges s').
  Proof.
    unfold resort_ael. intros H. binvs. eapply erel_trans; [apply pre_way|eapply (take_changed_way _ (w_changes s _)); eauto|].
    eapply insert_all_way; eauto.
  Qed.
  Lemma beam_climbs vs y n s s' : vs_valid vs -> nvalid y -> good vs s -> queue_ok vs y (scans s) -> beam n s y = Ok s' ->
    good vs s' /\ queue_ok vs y (scans s').
  Proof.
    intros V Vy G Q H. pose proof (beam_frame _ _ _ _ H) as [A0 _].
    unfold beam in H. apply bind_ok in H as (s1 & F1 & H). apply bind_ok in H as (s2 & F2 & H).
    pose proof F1 as F1'. unfold do_top_of_scanbeam in F1. pose proof G as (G1 & G2 & G3).
    eapply (top_loop_climbs _ (w_changes s [])) in F1 as [K1 K2]; eauto.
    pose proof (close_output_eb _ _ _ _ F2) as R2. apply close_output_frame in F2 as (B1 & B2 & _).
    pose proof (resort_ael_way _ _ H) as R3. apply resort_ael_frame in H as (C1 & _ & _ & C2 & _).
    split; [|unfold fq in B2; rewrite C2; congruence].
    eapply good_frame; [exact A0|exact G|]. eapply edges_ok_rel; [exact R3|]. eapply edges_ok_rel; [eapply erel_mono; [apply bound_way|exact R2]|exact K1].
  Qed.
  Lemma pop_climbs vs y s y' s' : vs_valid vs -> good vs s -> queue_ok vs y (scans s) -> nvalid y -> pop_scanline s y = (Some y', s') ->
    good vs s' /\ queue_ok vs y' (scans s') /\ n_ltb y y' = true /\ at_height vs y'.
  Proof.
    intros V G [Q1 Q2] Vy H. pose proof (pop_scanline_frame _ _ _ _ H) as (A1 & _ & _ & A2 & _).
    assert (D : drop_eq y (scans s) = scans s).
    { destruct (scans s) as [|x q]; auto. cbn. inversion Q2 as [|? ? [L Hh] _]; subst.
      rewrite neq_sym, (lt_not_eq _ _ Vy (height_valid _ _ V Hh) L). reflexivity. }
    unfold pop_scanline in H. rewrite D in H. destruct (scans s) as [|x q] eqn:S; [discriminate|]. injection H as -> <-.
    apply StronglySorted_inv in Q1 as [S1 S2]. apply Forall_cons_iff in Q2 as [[L Hh] Q2].
    split; [|split; auto].
    - eapply good_frame; [exact A1|exact G|]. rewrite A2. apply G.
    - cbn [scans w_scans]. apply drop_eq_spec; auto; [eapply height_valid; eauto|].
      eapply Forall_impl; [|exact Q2]. intros a [_ K]. exact K.
  Qed.
  (** After reset the queue holds the heights of the minima. *)
  Lemma push_minima_ok vs l : vs_valid vs -> forall s s', verts s = vs -> StronglySorted nle (scans s) -> Forall (at_height vs) (scans s) ->
    push_minima s l = Ok s' ->
    fin s' = fin s /\ edges s' = edges s /\ StronglySorted nle (scans s') /\ Forall (at_height vs) (scans s').
  Proof.
    intros V. induction l as [|m l IH]; intros s s' HV S H E; cbn [push_minima] in E; [binvs; auto|]. binvs.
    assert (K : at_height vs (vy (v_pt x0))) by (eapply height_at; rewrite <- HV; eauto).
    apply IH in E as (A & B & C & D); auto; cbn.
    - apply (insert_sorted vs); auto.
    - eapply Permutation_Forall; [apply insert_by_perm|]. constructor; auto.
  Qed.
  Lemma reset_climbs vs s1 s2 : vs_valid vs -> verts s1 = vs -> edges s1 = [] -> scans s1 = [] -> all_valleys s1 -> reset s1 = Ok s2 ->
    good vs s2 /\ StronglySorted nle (scans s2) /\ Forall (at_height vs) (scans s2).
  Proof.
    intros V HV E Q A H. unfold reset in H. apply bind_ok in H as (s & F & H). injection H as <-.
    apply (push_minima_ok vs) in F as (B1 & B2 & B3 & B4); auto; try (cbn; rewrite Q; constructor).
    cbn [scans w_obl w_ael]. csplit; auto. unfold VFrame.fin in B1. cbn in B1. injection B1 as C1 C2 C3 C4 C5 C6 C7.
    unfold good, all_valleys. cbn [verts edges minima lmins w_obl w_ael]. rewrite B2, C1, C2, C3. cbn. rewrite E. csplit; auto.
    - intros i e Hi. destruct i; discriminate.
    - intros m Hm. apply A. eapply Permutation_in; [symmetry; apply sort_by_perm|exact Hm].
  Qed.
  Lemma drop_any vs y q : StronglySorted nle q -> Forall (at_height vs) q -> StronglySorted nle (drop_eq y q) /\ Forall (at_height vs) (drop_eq y q).
  Proof.
    induction q as [|x q IH]; intros S H; cbn [drop_eq]; auto. destruct (n_eqb x y); auto.
    apply StronglySorted_inv in S as [S _]. apply Forall_cons_iff in H as [_ H]. auto.
  Qed.
  Lemma visits_climb en n s0 op fill s1 ys s : process_intersect en (w_op s0 op fill) = Ok s1 -> edges s1 = [] -> scans s1 = [] ->
    vs_valid (verts s1) -> all_valleys s1 -> visits en n s0 op fill ys s ->
    exists y r, ys = y :: r /\ good (verts s1) s /\ queue_ok (verts s1) y (scans s) /\
      StronglySorted (fun a b => n_ltb b a = true) ys /\ Forall (at_height (verts s1)) ys.
  Proof.
    intros HP E Q V A. induction 1 as [s1' s2 s3 y P1 P2 P3|y ys s s2 s3 s4 y' H IH P1 P2 P3].
    - rewrite HP in P1. injection P1 as <-. exists y, []. split; auto.
      destruct (reset_climbs (verts s1) s1 s2) as (G & S & H); auto.
      pose proof (pop_scanline_frame _ _ _ _ P3) as (A1 & _ & _ & A2 & _).
      destruct (drop_any (verts s1) (n_neg n_huge) _ S H) as [S' H'].
      unfold pop_scanline in P3. destruct (drop_eq (n_neg n_huge) (scans s2)) as [|x q]; [discriminate|]. injection P3 as -> <-.
      apply StronglySorted_inv in S' as [S1 S2]. apply Forall_cons_iff in H' as [H1 H2].
      csplit; [| |repeat constructor|repeat constructor; auto].
      + eapply good_frame; [exact A1|exact G|]. rewrite A2. apply G.
      + cbn [scans w_scans]. apply drop_eq_spec; auto. eapply height_valid; eauto.
    - destruct IH as (y0 & r & E0 & G & K & S & H'). injection E0 as <- <-. exists y', (y :: ys). split; auto.
      assert (Vy : nvalid y) by (apply Forall_cons_iff in H' as [H' _]; eapply height_valid; eauto).
      destruct (scan_at_climbs _ _ _ _ _ V Vy G K P1) as [G1 K1].
      destruct (pop_climbs _ _ _ _ _ V G1 K1 Vy P2) as (G2 & K2 & L & Hh).
      destruct (beam_climbs _ _ _ _ _ V (height_valid _ _ V Hh) G2 K2 P3) as [G3 K3].
      csplit; auto. constructor; auto. apply StronglySorted_inv in S as [S1 S2]. constructor; auto.
      apply Forall_cons_iff in H' as [_ H']. rewrite Forall_forall in S2, H' |- *. intros z Hz.
      apply (nlt_trans z y y'); auto; eapply height_valid; eauto.
  Qed.
  Lemma sorted_nodup ys : StronglySorted (fun a b => n_ltb b a = true) ys -> NoDup (ys : list T).
  Proof.
    induction 1 as [|a l S IH F]; constructor; auto. intros K. rewrite Forall_forall in F. apply F in K. rewrite nlt_irrefl in K. discriminate.
  Qed.
  Lemma scanlines_lemma en n s0 op fill s1 ys s : process_intersect en (w_op s0 op fill) = Ok s1 -> edges s1 = [] -> scans s1 = [] ->
    Forall (fun v => nvalid (vy (v_pt v))) (verts s1) -> all_valleys s1 -> visits en n s0 op fill ys s ->
    StronglySorted (fun a b => n_ltb b a = true) ys /\ Forall (fun y => exists v, In v (verts s1) /\ y = vy (v_pt v)) ys /\
    length ys <= length (verts s1).
  Proof.
    intros HP E Q V A H. rewrite Forall_forall in V.
    destruct (visits_climb _ _ _ _ _ _ _ _ HP E Q V A H) as (y & r & _ & _ & _ & S & F). csplit; auto.
    rewrite <- (map_length (fun v => vy (v_pt v)) (verts s1)). apply NoDup_incl_length; [now apply sorted_nodup|].
    intros z Hz. rewrite Forall_forall in F. destruct (F z Hz) as (v & H1 & ->). now apply (in_map (fun v => vy (v_pt v))).
  Qed.
End Climb.
