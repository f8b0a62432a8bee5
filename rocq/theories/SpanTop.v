(** The active edges at the top of a scan beam. *)
From Coq Require Import ZArith Bool List Permutation Lia.
From Verif Require Import Outcome Num Order OrdTac Rmath Segment VState VPath VBreak VAel VOut VMain VLemmas VFrame AelSpec VAelProofs VEdges VAelRun VRun
  RingSpec SortProofs ClimbSpec VClimb SpanSpec SpanRing.
Import ListNotations.
Local Open Scope out.

Section Top.
  Context {T : Type} {N : Num T} {O : OrdNum T}.
  Variable vs : list (vertex T).
  Notation Y := (height vs).
  Variables P M : nat -> Prop.
  Hypothesis MK : marked vs P M.
  Implicit Types s : clipper T.
  Implicit Types es : list (edge T).
  Let valid := mk_valid _ _ _ MK.
  Let sP := side_P vs P M MK.
  Let sP' := side_P' vs P M MK.
  Hint Resolve valid sP sP' : nv.

  (** The edge stands on a side of a contour. *)
  Definition placed (e : edge T) : Prop :=
    P (e_vtop e) /\ exists j v, P j /\ side vs (edge_up e) j (e_vtop e) /\ nth_error vs j = Some v /\ e_bot e = v_pt v.
  Definition standing es : Prop := forall i e, nth_error es i = Some e -> climbing vs e /\ placed e.
  Lemma placed_same e f : same_way e f -> placed e -> placed f.
  Proof. intros (A & B & C & D) H. unfold placed, edge_up in *. now rewrite B, C, D. Qed.
  Lemma standing_rel es fs : erel same_way es fs -> standing es -> standing fs.
  Proof.
    intros H K i f F. destruct (erel_back _ _ _ _ _ H F) as (e & E & S). destruct (K i e E). split; [eapply climbing_same|eapply placed_same]; eauto.
  Qed.
  Lemma side_of_way es fs i : erel same_way es fs -> i < length es -> side_of fs i = side_of es i.
  Proof.
    intros [_ H] L. unfold side_of. destruct (nth_error es i) as [e|] eqn:E; [|apply nth_error_None in E; lia].
    destruct (H i e E) as (f & F & A & B & C & _). rewrite F. unfold edge_side, edge_up. now rewrite B, C.
  Qed.
  Lemma height_some' i v : nth_error vs i = Some v -> Y i = vy (v_pt v).
  Proof. intros H. unfold height. now rewrite H. Qed.
  Lemma top_height e : climbing vs e -> vy (e_top e) = Y (e_vtop e).
  Proof. intros [(v & A & ->) _]. symmetry. now apply height_some'. Qed.

  (** One step along the contour *)
  Lemma next_edge_moves s i e s' : verts s = vs -> standing (edges s) -> nth_error (edges s) i = Some e -> is_maxima s e = Ok false -> next_edge s i = Ok s' ->
    verts s' = vs /\ standing (edges s') /\ length (edges s') = length (edges s) /\ (forall i0, i0 <> i -> side_of (edges s') i0 = side_of (edges s) i0) /\
    scans s' = scans s /\
    exists e' v, nth_error vs (e_vtop e) = Some v /\ v_max v = false /\ nth_error (edges s') i = Some e' /\ e_bot e' = e_top e /\ edge_up e' = edge_up e /\
      side vs (edge_up e) (e_vtop e) (e_vtop e') /\ n_leb (vy (e_bot e')) (vy (e_top e')) = true.
  Proof.
    intros HV ST E Mx H. destruct (ST i e E) as [C Pl].
    assert (OK : edges_ok vs (edges s)) by (intros k f F; apply (ST k f F)).
    destruct (next_edge_climbs s i e s' vs HV E C Mx OK H) as (K1 & K2 & K3 & e' & K4 & K5 & K6 & K7).
    destruct Pl as [Pv _]. destruct (mk_some _ _ _ MK _ Pv) as [v V]. destruct (mk_side _ _ _ MK (edge_up e) _ Pv) as (j & Pj & Sj).
    unfold is_maxima, at_ in Mx. rewrite HV, V in Mx. cbn in Mx. injection Mx as Mx.
    unfold next_edge, at_ in H. rewrite E in H. cbn [of_opt bind] in H. rewrite HV, V in H. cbn [of_opt bind] in H.
    pose proof Sj as (v' & w & A1 & A2 & A3 & A4). rewrite V in A1. injection A1 as <-.
    unfold neighbour in A3. rewrite A3 in H. cbn [deref of_opt bind] in H. rewrite A2 in H. cbn [of_opt bind] in H. mods.
    assert (Ee : e' = Edge (e_top e) (v_pt w) (vx (e_top e)) (e_dx e) (e_cnt e) (e_cnt2 e) (e_prev e) (e_next e) (e_bound e) j (e_lmin e)).
    { cbn [edges w_edges] in K4. rewrite nth_upd, Nat.eqb_refl, E in K4. cbn in K4. now injection K4 as <-. }
    assert (Pl' : placed e').
    { rewrite Ee. split; [exact Pj|]. exists (e_vtop e), v. csplit; auto. cbn. destruct C as [(v2 & V2 & ->) _]. congruence. }
    csplit; auto; cbn [edges w_edges].
    - intros k f Hk. cbn [edges w_edges] in *. split; [eapply K1; eauto|]. rewrite nth_upd in Hk. destruct (Nat.eqb i k) eqn:Q; [|eapply ST; eauto].
      apply Nat.eqb_eq in Q as <-. rewrite E in Hk. injection Hk as <-. rewrite <- Ee. exact Pl'.
    - apply length_upd.
    - intros i0 NE. unfold side_of. rewrite nth_upd. destruct (Nat.eqb i i0) eqn:Q; auto. apply Nat.eqb_eq in Q. congruence.
    - exists e', v. csplit; auto; subst e'; auto.
  Qed.

  (** From the side [j]-[k] on: at [k] if that is higher, else on the way *)
  Definition goes (fwd : bool) (j k : nat) (r : option nat) : Prop :=
    (n_ltb (Y j) (Y k) = true /\ r = Some k) \/ (n_eqb (Y j) (Y k) = true /\ adv vs fwd k r).
  Lemma adv_goes fwd k v k' r : nth_error vs k = Some v -> v_max v = false -> side vs fwd k k' -> goes fwd k k' r -> adv vs fwd k r.
  Proof. intros A B C [[D ->]|[D E]]; [eapply adv_rise|eapply adv_flat]; eauto. Qed.
  Lemma climb_moves fuel : forall s a i b e n s' j, verts s = vs -> active s (a ++ i :: b) -> standing (edges s) -> nth_error (edges s) i = Some e ->
    side vs (edge_up e) j (e_vtop e) -> n_leb (vy (e_bot e)) (vy (e_top e)) = true -> climb fuel s i = Ok (n, s') ->
    n = hd_or b None /\ verts s' = vs /\ standing (edges s') /\ length (edges s') = length (edges s) /\
    (forall i0, i0 <> i -> i0 < length (edges s) -> side_of (edges s') i0 = side_of (edges s) i0) /\
    exists r, goes (edge_up e) j (e_vtop e) r /\
      match r with
      | None => active s' (a ++ b) /\ scans s' = scans s
      | Some k => active s' (a ++ i :: b) /\ side_of (edges s') i = (edge_up e, k) /\ scans s' = insert_by n_ltb (Y k) (scans s)
      end.
  Proof.
    induction fuel; intros s a i b e n s' j HV HA ST E SD LE H; [discriminate|].
    pose proof H as H0. cbn [climb] in H. apply bind_ok in H as (x & Ex & H). apply at_ok in Ex. rewrite E in Ex. injection Ex as <-.
    destruct (ST i e E) as [C (Pv & j' & v' & Pj & SD' & V' & Eb)]. rewrite <- (side_inj _ _ _ _ _ SD SD') in *. clear j' SD'.
    assert (Hb : vy (e_bot e) = Y j) by (rewrite Eb; symmetry; now apply height_some').
    pose proof (top_height e C) as Ht. rewrite Hb, Ht in LE.
    destruct (is_horz e) eqn:Hz; unfold is_horz in Hz; rewrite Hb, Ht in Hz.
    - apply bind_ok in H as (m & Mx & H). destruct m.
      + unfold is_maxima, at_ in Mx. cbn in Mx. rewrite HV in Mx. destruct (nth_error vs (e_vtop e)) as [v|] eqn:V; [|discriminate]. cbn in Mx. injection Mx as Mx.
        pose proof (do_maxima_way _ _ _ _ H) as W. destruct (do_maxima_ok (push_change s (vx (e_top e))) a i b n s' HA H) as (K1 & K2 & _).
        apply do_maxima_frame in H as (F1 & _ & _ & F2). unfold VFrame.fin, fq in *. cbn in *.
        csplit; auto; [congruence|eapply standing_rel; eauto|apply W|intros; now apply side_of_way|].
        exists None. split; [|split; [auto|congruence]]. right. split; auto. eapply adv_gone; eauto.
      + apply bind_ok in H as (s1 & F & H).
        destruct (next_edge_moves (push_change s (vx (e_top e))) i e s1 HV ST E Mx F) as (K1 & K2 & K3 & K4 & K5 & e' & v & K6 & K7 & K8 & K9 & K10 & K11 & K12).
        cbn in K3, K4, K5.
        apply (next_edge_active _ _ _ (a ++ i :: b)) in F; auto.
        destruct (IHfuel s1 a i b e' n s' (e_vtop e) K1 F K2 K8) as (L1 & L2 & L3 & L4 & L5 & r & L6 & L7); auto; [now rewrite K10|].
        csplit; auto; [congruence| |].
        * intros i0 NE Li. rewrite L5 by (auto; lia). now apply K4.
        * exists r. rewrite K10 in L6, L7. split.
          -- right. split; auto. eapply adv_goes; eauto.
          -- rewrite K5 in L7. exact L7.
    - binvs. cbn [edges insert_scanline w_scans verts]. destruct (active_split s a i b HA) as (f & E1 & E2 & E3). rewrite E in E1. injection E1 as <-.
      csplit; auto. exists (Some (e_vtop e)). split.
      + left. split; auto. ord.
      + cbn [scans edges w_scans]. csplit; auto; [unfold side_of; now rewrite E|now rewrite Ht].
  Qed.

  (** The sides of the active edges before and after *)
  Inductive moved (y : T) : list (bool * nat) -> list (bool * nat) -> Prop :=
  | moved_nil : moved y [] []
  | moved_keep u K K' : n_eqb (Y (snd u)) y = false -> moved y K K' -> moved y (u :: K) (u :: K')
  | moved_next fwd k k' K K' : n_eqb (Y k) y = true -> adv vs fwd k (Some k') -> moved y K K' -> moved y ((fwd, k) :: K) ((fwd, k') :: K')
  | moved_gone fwd k K K' : n_eqb (Y k) y = true -> adv vs fwd k None -> moved y K K' -> moved y ((fwd, k) :: K) K'.

  Lemma top_loop_moves fuel : forall s y lx c a b s', verts s = vs -> active s (a ++ b) -> c = hd_or b None -> standing (edges s) ->
    (forall i, In i b -> n_eqb (Y (snd (side_of (edges s) i))) y = false -> In (Y (snd (side_of (edges s) i))) (scans s)) ->
    top_loop fuel s y lx c = Ok s' ->
    exists b', active s' (a ++ b') /\ verts s' = vs /\ standing (edges s') /\
      length (edges s') = length (edges s) /\
      (forall i, In i a -> side_of (edges s') i = side_of (edges s) i) /\
      (forall z, In z (scans s) -> In z (scans s')) /\
      (forall i, In i b' -> In (Y (snd (side_of (edges s') i))) (scans s')) /\
      moved y (map (side_of (edges s)) b) (map (side_of (edges s')) b').
  Proof.
    induction fuel; intros s y lx c a b s' HV HA Hc ST Q H; cbn [top_loop] in H.
    { destruct c; [discriminate|]. destruct b; [|discriminate]. binvs. exists []. csplit; auto; try contradiction. constructor. }
    destruct b as [|i b]; cbn [hd_or] in Hc; subst c.
    { binvs. exists []. csplit; auto; try contradiction. constructor. }
    binv H. apply at_ok in E. destruct (active_split s a i b HA) as (e & E1 & E2 & E3). rewrite E in E1. injection E1 as <-.
    destruct (ST i x E) as [C Pl]. pose proof (top_height x C) as Ht.
    assert (Si : side_of (edges s) i = (edge_up x, e_vtop x)) by (unfold side_of; now rewrite E).
    assert (ND : NoDup (a ++ i :: b)) by apply HA.
    assert (Ni : ~ In i a /\ ~ In i b).
    { apply NoDup_remove_2 in ND. rewrite in_app_iff in ND. tauto. }
    destruct Ni as [Nia Nib].
    assert (Len : forall k, In k (a ++ i :: b) -> k < length (edges s)).
    { intros k Hk. eapply active_bound_len; eauto. }
    destruct (n_eqb (vy (e_top x)) y) eqn:Ey; rewrite Ht in Ey.
    - apply bind_ok in H as (s1 & F1 & H). apply bind_ok in H as (s2 & F2 & H). apply bind_ok in H as (m & F3 & H).
      pose proof (extend_bound_frame _ _ _ F2) as (G1 & _ & G3 & G4 & G5 & _).
      assert (S2 : erel same_way (edges s) (edges s2)).
      { rewrite G5. apply emod_ok in F1 as [_ ->]. destruct (n_eqb (vx (e_top x)) lx); cbn;
          (apply erel_upd; [apply pre_way|intros; repeat split; reflexivity]). }
      assert (A2 : active s2 (a ++ i :: b)).
      { apply (emod_active _ _ _ _ (a ++ i :: b)) in F1; auto.
        eapply active_rel with (R := fun e f => e = f) (s := s1); [intros ? ? ->; auto| | |exact F1].
        - rewrite G5. destruct (n_eqb (vx (e_top x)) lx); split; cbn; eauto.
        - rewrite G4. destruct (n_eqb (vx (e_top x)) lx); reflexivity. }
      assert (V2 : verts s2 = vs /\ scans s2 = scans s).
      { apply emod_ok in F1 as [_ ->]. unfold VFrame.fin, fq in *. destruct (n_eqb (vx (e_top x)) lx); cbn in *; split; congruence. }
      destruct V2 as [V2 Q2]. pose proof (standing_rel _ _ S2 ST) as ST2. pose proof S2 as [SL2 SF2].
      destruct (SF2 i x E) as (x2 & E2' & W2). pose proof W2 as (W21 & W22 & W23 & W24).
      assert (Mx2 : is_maxima s2 x2 = Ok m) by (unfold is_maxima in *; now rewrite W23).
      assert (U2 : edge_up x2 = edge_up x) by (unfold edge_up; now rewrite W22).
      destruct m.
      + apply bind_ok in H as ([n s3] & F4 & H). pose proof (do_maxima_way _ _ _ _ F4) as W3.
        destruct (do_maxima_ok s2 a i b n s3 A2 F4) as (K1 & K2 & _). apply do_maxima_frame in F4 as (G6 & _ & _ & G7). unfold VFrame.fin, fq in *.
        assert (S3 : erel same_way (edges s) (edges s3)) by (eapply erel_trans; [apply pre_way|exact S2|exact W3]).
        assert (Keep : forall k, In k (a ++ i :: b) -> side_of (edges s3) k = side_of (edges s) k) by (intros; apply side_of_way; auto).
        destruct (IHfuel s3 y (vx (e_top x)) n a b s') as (b' & B1 & B2 & B3 & B4 & B5 & B6 & B7 & B8); auto; try congruence.
        { eapply standing_rel; eauto. }
        { intros k Hk. rewrite Keep by (apply in_or_app; right; now right). intros NQ. replace (scans s3) with (scans s) by congruence. apply Q; auto. now right. }
        assert (EL : length (edges s3) = length (edges s)) by apply S3.
        exists b'. csplit; auto; [congruence| | |].
        * intros k Hk. rewrite B5 by auto. apply Keep, in_or_app. auto.
        * intros z Hz. apply B6. replace (scans s3) with (scans s) by congruence. auto.
        * cbn [map]. rewrite Si. apply moved_gone; auto.
          -- unfold is_maxima, at_ in Mx2. rewrite V2, W23 in Mx2. destruct (nth_error vs (e_vtop x)) as [v|] eqn:V; [|discriminate]. cbn in Mx2. injection Mx2 as Mx2.
             eapply adv_gone; eauto.
          -- rewrite (map_ext_in (side_of (edges s)) (side_of (edges s3))); auto. intros k Hk. symmetry. apply Keep, in_or_app. right; now right.
      + apply bind_ok in H as (s3 & F4 & H). apply bind_ok in H as ([n s4] & F5 & H).
        destruct (next_edge_moves s2 i x2 s3 V2 ST2 E2' Mx2 F4) as (K1 & K2 & K3 & K4 & K5 & e' & v & K6 & K7 & K8 & K9 & K10 & K11 & K12).
        apply (next_edge_active _ _ _ (a ++ i :: b)) in F4; auto.
        rewrite W23, U2 in *.
        destruct (climb_moves (S (length (verts s3))) s3 a i b e' n s4 (e_vtop x) K1 F4 K2 K8) as (L1 & L2 & L3 & L4 & L5 & r & L6 & L7); auto; [now rewrite K10|].
        assert (EL : length (edges s4) = length (edges s)) by lia.
        assert (Keep : forall k, In k (a ++ b) -> side_of (edges s4) k = side_of (edges s) k).
        { intros k Hk. assert (k <> i) by (intros ->; apply in_app_or in Hk as [|]; auto).
          assert (In k (a ++ i :: b)) by (apply in_app_or in Hk as [|]; apply in_or_app; cbn; auto).
          rewrite L5, K4 by (auto; rewrite K3, SL2; auto). apply side_of_way; auto. }
        rewrite K10 in L6, L7. assert (AD : adv vs (edge_up x) (e_vtop x) r) by (eapply adv_goes; eauto).
        assert (Qs : forall z, In z (scans s) -> In z (scans s4)).
        { intros z Hz. rewrite <- Q2, <- K5 in Hz. destruct r; destruct L7 as (? & L7); [destruct L7 as [_ L7]|]; rewrite L7; auto.
          eapply Permutation_in; [apply insert_by_perm|]. now right. }
        assert (Mb : map (side_of (edges s)) b = map (side_of (edges s4)) b).
        { apply map_ext_in. intros k Hk. symmetry. apply Keep, in_or_app. auto. }
        destruct r as [k'|].
        * destruct L7 as (L7 & L8 & L9). rewrite (app_assoc a [i] b : a ++ i :: b = (a ++ [i]) ++ b) in L7.
          destruct (IHfuel s4 y (vx (e_top x)) n (a ++ [i]) b s') as (b' & B1 & B2 & B3 & B4 & B5 & B6 & B7 & B8); auto.
          { intros k Hk NQ. rewrite Keep in * by (apply in_or_app; auto). apply Qs, Q; auto. now right. }
          exists (i :: b'). rewrite <- app_assoc in B1. 
          assert (Sn : side_of (edges s') i = (edge_up x, k')) by (rewrite B5; [exact L8|apply in_or_app; right; now left]).
          csplit; auto; [congruence| | |].
          -- intros k Hk. rewrite B5 by (apply in_or_app; auto). apply Keep, in_or_app. auto.
          -- intros k [<-|Hk]; auto. rewrite Sn. cbn [snd]. apply B6. rewrite L9. eapply Permutation_in; [apply insert_by_perm|]. now left.
          -- cbn [map]. rewrite Si, Sn, Mb. apply moved_next; auto.
        * destruct L7 as (L7 & L8).
          destruct (IHfuel s4 y (vx (e_top x)) n a b s') as (b' & B1 & B2 & B3 & B4 & B5 & B6 & B7 & B8); auto.
          { intros k Hk NQ. rewrite Keep in * by (apply in_or_app; auto). apply Qs, Q; auto. now right. }
          exists b'. csplit; auto; [congruence| |].
          -- intros k Hk. rewrite B5 by auto. apply Keep, in_or_app. auto.
          -- cbn [map]. rewrite Si, Mb. apply moved_gone; auto.
    - apply bind_ok in H as (s1 & F1 & H). apply bind_ok in H as (e' & F2 & H). apply bind_ok in H as (s2 & F3 & H).
      pose proof (update_x_way _ _ _ _ F1) as W. pose proof (update_x_frame _ _ _ _ F1) as (G5 & _ & G6 & G7).
      assert (A1 : active s1 (a ++ i :: b)).
      { unfold update_x in F1. binvs. eapply emod_active; [|exact F1|exact HA]; auto. }
      assert (B0 : verts s2 = verts s1 /\ scans s2 = scans s1) by (destruct (e_bound e'); dmatch; auto).
      apply bmod_opt_edges in F3 as [G1 G2].
      apply at_ok in F2. destruct (active_split s1 a i b A1) as (e1 & N1 & N2 & N3). rewrite F2 in N1. injection N1 as <-.
      rewrite N3 in H. rewrite (app_assoc a [i] b : a ++ i :: b = (a ++ [i]) ++ b) in A1.
      set (s2' := if n_eqb (e_x e') lx then push_change s2 lx else s2) in *.
      assert (X : edges s2' = edges s1 /\ verts s2' = vs /\ scans s2' = scans s /\ ael s2' = ael s1).
      { unfold VFrame.fin, fq in *. destruct B0. subst s2'. destruct (n_eqb (e_x e') lx); cbn; csplit; congruence. }
      destruct X as (X1 & X2 & X3 & X4).
      assert (A3 : active s2' ((a ++ [i]) ++ b)).
      { destruct A1 as (Y1 & Y2 & Y3). split; [congruence|split; auto]. rewrite X1. auto. }
      assert (Keep : forall k, In k (a ++ i :: b) -> side_of (edges s2') k = side_of (edges s) k).
      { intros k Hk. rewrite X1. apply side_of_way; auto. }
      destruct (IHfuel s2' y (e_x e') (hd_or b None) (a ++ [i]) b s') as (b' & B1 & B2 & B3 & B4 & B5 & B6 & B7 & B8); auto.
      { rewrite X1. eapply standing_rel; eauto. }
      { intros k Hk. rewrite Keep by (apply in_or_app; right; now right). intros NQ. rewrite X3. apply Q; auto. now right. }
      exists (i :: b'). rewrite <- app_assoc in B1.
      assert (Sn : side_of (edges s') i = side_of (edges s) i).
      { rewrite B5 by (apply in_or_app; right; now left). apply Keep, in_or_app. right; now left. }
      assert (EL : length (edges s2') = length (edges s)) by (rewrite X1; apply W).
      csplit; auto; [congruence| | | |].
      + intros k Hk. rewrite B5 by (apply in_or_app; auto). apply Keep, in_or_app. auto.
      + intros z Hz. apply B6. now rewrite X3.
      + intros k [<-|Hk]; auto. rewrite Sn. apply B6. rewrite X3. apply Q; [now left|]. rewrite Si. cbn [snd]. exact Ey.
      + cbn [map]. rewrite Sn. apply moved_keep; [rewrite Si; exact Ey|].
        rewrite (map_ext_in (side_of (edges s)) (side_of (edges s2'))); auto. intros k Hk. symmetry. apply Keep, in_or_app. right; now right.
  Qed.
End Top.
