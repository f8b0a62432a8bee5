(** What becomes of each active edge at the top of a scan beam. *)
From Coq Require Import ZArith Bool List Reals Lra Lia Permutation.
From Verif Require Import Outcome Num Order OrdTac Rmath RTac Segment VState VAel VOut VMain VLemmas VFrame RingSpec LineSpec ClimbSpec AelSpec VAelProofs VEdges VAelRun VRun VClimb
  SpanSpec SpanRing SpanTop PlaneSpec PlaneGeo PlaneSort.
Import ListNotations.
Local Open Scope R_scope.
Local Open Scope out.

(** The x of an edge at the height [y] *)
Definition xof (es : list (edge R)) (y : R) (i : nat) : R := match nth_error es i with Some e => ex e y | None => 0 end.
(** Wherever two neighbours have the same x, the first of them after [lx], it is noted. *)
Fixpoint told (lx : R) (xs : list R) (ch : list R) : Prop :=
  match xs with [] => True | x :: r => (x = lx -> In x ch) /\ told x r ch end.
Definition carried (e e' : edge R) : Prop := e_dx e' = e_dx e /\ e_cnt e' = e_cnt e /\ e_cnt2 e' = e_cnt2 e /\ e_lmin e' = e_lmin e.
Lemma do_maxima_links {T} {N : Num T} (s : clipper T) a i b n s' : active s (a ++ i :: b) -> do_maxima s i = Ok (n, s') -> erel same_but_links (edges s) (edges s').
Proof.
  intros HA H. unfold do_maxima in H. binv H. apply bind_ok in H as (s1 & F & H).
  assert (A1 : active s1 (a ++ i :: b) /\ erel same_but_links (edges s) (edges s1)).
  { destruct (e_bound x); binvs.
    - mods. split; [|cbn; apply erel_upd; [apply pre_links|intros []; reflexivity]].
      eapply (emod_active (w_bounds s (upd (bounds s) n0 (set_bedge None))) i (set_ebound None)); [auto| |exact HA].
      eapply emod_run. eassumption.
    - split; auto. apply erel_refl, pre_links. }
  destruct A1 as [A1 A2]. destruct (delete_active_edge_ok s1 a i b n s' A1 H) as (K1 & K2 & K3 & _).
  eapply erel_trans; [apply pre_links|exact A2|]. eapply erel_mono; [apply edge_links|exact K3].
Qed.

Section Top.
  Variable vs : list (vertex R).
  Notation Y := (height vs).
  Variables P M : nat -> Prop.
  Hypothesis MK : marked vs P M.
  Hypothesis PL : plane vs P M.
  Variable y : R.
  Implicit Types s : clipper R.
  Implicit Types es : list (edge R).
  Notation standing := (standing vs P).

  Inductive stepped es es' : list nat -> list nat -> Prop :=
  | stp_nil : stepped es es' [] []
  | stp_keep i b b' e e' : nth_error es i = Some e -> nth_error es' i = Some e' -> vy (e_top e) <> y -> carried e e' -> same_line e e' -> e_vtop e' = e_vtop e ->
      e_x e' = ex e y -> stepped es es' b b' -> stepped es es' (i :: b) (i :: b')
  | stp_next i b b' e e' : nth_error es i = Some e -> nth_error es' i = Some e' -> vy (e_top e) = y -> carried e e' -> e_bot e' = e_top e ->
      side vs (edge_up e) (e_vtop e) (e_vtop e') -> y < vy (e_top e') ->
      e_x e' = vx (e_top e) -> stepped es es' b b' -> stepped es es' (i :: b) (i :: b')
  | stp_gone i b b' e v : nth_error es i = Some e -> vy (e_top e) = y -> nth_error vs (e_vtop e) = Some v -> v_max v = true -> stepped es es' b b' -> stepped es es' (i :: b) b'.

  Definition same_on (es es' : list (edge R)) (l : list nat) : Prop :=
    forall i e, In i l -> nth_error es i = Some e -> exists f, nth_error es' i = Some f /\ same_but_links e f.
  Lemma links_back e f : same_but_links (T := R) e f -> same_but_links f e.
  Proof. intros ->. destruct e; reflexivity. Qed.
  Lemma links_parts e f : same_but_links (T := R) e f -> e_bot f = e_bot e /\ e_top f = e_top e /\ e_x f = e_x e /\ e_dx f = e_dx e /\ e_cnt f = e_cnt e /\ e_cnt2 f = e_cnt2 e /\ e_vtop f = e_vtop e /\ e_lmin f = e_lmin e.
  Proof. intros ->. csplit; reflexivity. Qed.
  Lemma stepped_from es1 es es' b b' : (forall i, In i b -> exists e, nth_error es1 i = Some e) -> same_on es1 es b -> stepped es es' b b' -> stepped es1 es' b b'.
  Proof.
    intros X SO H. induction H as [|i b b' e e' A B C D E F G H IH|i b b' e e' A B C D E F G H I IH|i b b' e v A B C D H IH].
    - constructor.
    - destruct (X i) as (e0 & E0); [now left|]. destruct (SO i e0 (or_introl eq_refl) E0) as (e1 & E1 & S). rewrite A in E1. injection E1 as <-.
      apply links_parts in S as (S1 & S2 & S3 & S4 & S5 & S6 & S7 & S8). destruct D as (D1 & D2 & D3 & D4), E as (E1 & E2).
      eapply stp_keep; eauto; try congruence; [unfold carried; csplit; congruence|split; congruence| |].
      + rewrite G. unfold ex. now rewrite S1, S2.
      + apply IH; [intros; apply X; now right|intros k ? Hk; apply SO; now right].
    - destruct (X i) as (e0 & E0); [now left|]. destruct (SO i e0 (or_introl eq_refl) E0) as (e1 & E1 & S). rewrite A in E1. injection E1 as <-.
      apply links_parts in S as (S1 & S2 & S3 & S4 & S5 & S6 & S7 & S8). destruct D as (D1 & D2 & D3 & D4).
      eapply stp_next; eauto; try congruence; [unfold carried; csplit; congruence| |].
      + unfold edge_up in *. rewrite S4, S7 in F. exact F.
      + apply IH; [intros; apply X; now right|intros k ? Hk; apply SO; now right].
    - destruct (X i) as (e0 & E0); [now left|]. destruct (SO i e0 (or_introl eq_refl) E0) as (e1 & E1 & S). rewrite A in E1. injection E1 as <-.
      apply links_parts in S as (S1 & S2 & S3 & S4 & S5 & S6 & S7 & S8).
      eapply stp_gone; eauto; try congruence. apply IH; [intros; apply X; now right|intros k ? Hk; apply SO; now right].
  Qed.
  Lemma same_on_refl es l : same_on es es l.
  Proof. intros i e _ E. exists e. split; auto. destruct e; reflexivity. Qed.
  Lemma same_on_rel es es' l : erel same_but_links es es' -> same_on es es' l.
  Proof. intros [_ H] i e _ E. auto. Qed.
  Lemma same_on_upd es i f l : ~ In i l -> same_on es (upd es i f) l.
  Proof. intros NI k e Hk E. exists e. rewrite nth_upd. destruct (Nat.eqb i k) eqn:Q; [apply Nat.eqb_eq in Q; subst; contradiction|]. split; auto. destruct e; reflexivity. Qed.
  Lemma same_on_trans es1 es2 es3 l : same_on es1 es2 l -> same_on es2 es3 l -> same_on es1 es3 l.
  Proof.
    intros A B i e Hi E. destruct (A i e Hi E) as (f & F & S). destruct (B i f Hi F) as (g & G & S'). exists g. split; auto.
    eapply pre_links; eauto.
  Qed.
  Lemma told_more lx xs ch ch' : (forall x, In x ch -> In x ch') -> told lx xs ch -> told lx xs ch'.
  Proof. intros H. revert lx. induction xs as [|x r IH]; intros lx; cbn; auto. intros [A B]. split; auto. Qed.
  Lemma xof_same es es' l : same_on es es' l -> (forall i, In i l -> exists e, nth_error es i = Some e) -> map (xof es y) l = map (xof es' y) l.
  Proof.
    intros S X. apply map_ext_in. intros i Hi. destruct (X i Hi) as (e & E). destruct (S i e Hi E) as (f & F & L). unfold xof. rewrite E, F.
    apply links_parts in L as (A & B & _). unfold ex. now rewrite A, B.
  Qed.

  Lemma top_loop_steps fuel : forall s lx c a b s', verts s = vs -> active s (a ++ b) -> c = hd_or b None -> standing (edges s) ->
    (forall i, In i b -> exists e, nth_error (edges s) i = Some e /\ vy (e_bot e) < y <= vy (e_top e)) ->
    top_loop fuel s y lx c = Ok s' ->
    exists b', active s' (a ++ b') /\ stepped (edges s) (edges s') b b' /\ same_on (edges s) (edges s') a /\
      (forall x, In x (changes s) -> In x (changes s')) /\ told lx (map (xof (edges s) y) b) (changes s').
  Proof.
    induction fuel; intros s lx c a b s' HV HA Hc ST RG H; cbn [top_loop] in H.
    { destruct c; [discriminate|]. destruct b; [|discriminate]. binvs. exists []. csplit; auto using same_on_refl; [constructor|exact I]. }
    destruct b as [|i b]; cbn [hd_or] in Hc; subst c.
    { binvs. exists []. csplit; auto using same_on_refl; [constructor|exact I]. }
    binv H. apply at_ok in E. destruct (active_split s a i b HA) as (e & E1 & E2 & E3). rewrite E in E1. injection E1 as <-.
    destruct (RG i (or_introl eq_refl)) as (e0 & E0 & Ye). rewrite E in E0. injection E0 as <-.
    destruct (ST i x E) as [C Pl]. pose proof (top_height vs x C) as Ht.
    assert (RX : rises vs P x) by (split; [exact Pl|split; [exact C|lra]]).
    assert (ND : NoDup (a ++ i :: b)) by apply HA.
    assert (Ni : ~ In i a /\ ~ In i b) by (apply NoDup_remove_2 in ND; rewrite in_app_iff in ND; tauto).
    destruct Ni as [Nia Nib].
    assert (SomeB : forall k, In k b -> exists e, nth_error (edges s) k = Some e) by (intros k Hk; destruct (RG k (or_intror Hk)) as (f & F & _); eauto).
    assert (Someab : forall k, In k (a ++ b) -> exists e, nth_error (edges s) k = Some e).
    { intros k Hk. eapply active_in; [exact HA|]. rewrite in_app_iff in *. cbn. tauto. }
    (* what to do with the rest *)
    assert (Rest : forall s1 n a1 lx1, verts s1 = vs -> active s1 (a1 ++ b) -> n = hd_or b None -> standing (edges s1) -> same_on (edges s) (edges s1) (a ++ b) ->
      (forall x0, In x0 (changes s) -> In x0 (changes s1)) -> top_loop fuel s1 y lx1 n = Ok s' ->
      exists b', active s' (a1 ++ b') /\ stepped (edges s) (edges s') b b' /\ same_on (edges s1) (edges s') a1 /\
        (forall x0, In x0 (changes s1) -> In x0 (changes s')) /\ (forall x0, In x0 (changes s) -> In x0 (changes s')) /\ told lx1 (map (xof (edges s) y) b) (changes s')).
    { intros s1 n a1 lx1 V1 A1 N1 ST1 SO CH H1.
      assert (SOb : same_on (edges s) (edges s1) b) by (intros k e Hk; apply SO, in_or_app; auto).
      destruct (IHfuel s1 lx1 n a1 b s' V1 A1 N1 ST1) as (b' & B1 & B2 & B3 & B4 & B5); auto.
      - intros k Hk. destruct (RG k (or_intror Hk)) as (f & F & L). destruct (SOb k f Hk F) as (f' & F' & S). exists f'. split; auto.
        apply links_parts in S as (S1 & S2 & _). now rewrite S1, S2.
      - exists b'. csplit; auto.
        + eapply stepped_from; eauto.
        + rewrite (xof_same (edges s) (edges s1) b); auto. }
    assert (Xx : xof (edges s) y i = ex x y) by (unfold xof; now rewrite E).
    cbn [map told]. rewrite Xx.
    rops. destruct (Reqb (vy (e_top x)) y) eqn:Ey; rbool.
    - (* the end of the side *)
      assert (Ex : ex x y = vx (e_top x)) by (unfold ex; rewrite <- Ey; apply xat_top; lra). rewrite Ex.
      apply bind_ok in H as (s1 & F1 & H). apply bind_ok in H as (s2 & F2 & H). apply bind_ok in H as (m & F3 & H).
      pose proof (extend_bound_frame _ _ _ F2) as (G1 & _ & G3 & G4 & G5 & _).
      set (s1' := if Reqb (vx (e_top x)) lx then push_change s1 lx else s1) in *.
      assert (X1 : edges s1' = edges s1 /\ verts s1' = verts s1 /\ ael s1' = ael s1 /\ (forall z, In z (changes s1) -> In z (changes s1')) /\ (vx (e_top x) = lx -> In (vx (e_top x)) (changes s1'))).
      { unfold s1'. destruct (Reqb (vx (e_top x)) lx) eqn:Q; rbool; csplit; auto; try contradiction; cbn.
        - intros z Hz. apply in_or_app. auto.
        - intros _. apply in_or_app. right. now left. }
      destruct X1 as (X1 & X2 & X3 & X4 & X5).
      assert (A1 : active s1 (a ++ i :: b)) by (apply (emod_active _ _ _ _ (a ++ i :: b)) in F1; auto).
      pose proof F1 as F1'. apply emod_ok in F1' as [_ F1'].
      assert (ES2 : edges s2 = upd (edges s) i (set_ex (vx (e_top x)))) by (rewrite G5, X1, F1'; reflexivity).
      assert (V2 : verts s2 = vs) by (unfold VFrame.fin in G1; injection G1 as -> _ _ _ _ _ _; rewrite X2, F1'; exact HV).
      assert (C2 : forall z, In z (changes s) -> In z (changes s2)).
      { intros z Hz. unfold fq in G3. injection G3 as _ -> _. apply X4. rewrite F1'. exact Hz. }
      assert (CN : vx (e_top x) = lx -> In (vx (e_top x)) (changes s2)) by (unfold fq in G3; injection G3 as _ -> _; exact X5).
      assert (A2 : active s2 (a ++ i :: b)).
      { eapply active_rel with (R := fun e f => e = f) (s := s1); [intros ? ? ->; auto| | |exact A1]; [split; [congruence|]; intros; exists e; split; [congruence|auto]|congruence]. }
      assert (S2 : erel same_way (edges s) (edges s2)) by (rewrite ES2; apply erel_upd; [apply pre_way|intros; repeat split; reflexivity]).
      pose proof (standing_rel vs P _ _ S2 ST) as ST2.
      assert (Ei2 : nth_error (edges s2) i = Some (set_ex (vx (e_top x)) x)) by (rewrite ES2; eapply nth_upd_same; eauto).
      assert (SO2 : same_on (edges s) (edges s2) (a ++ b)) by (rewrite ES2; apply same_on_upd; rewrite in_app_iff; tauto).
      assert (Mx2 : is_maxima s2 (set_ex (vx (e_top x)) x) = Ok m) by exact F3.
      destruct m.
      + (* a maximum *)
        apply bind_ok in H as ([n s3] & F4 & H). pose proof (do_maxima_links _ _ _ _ _ _ A2 F4) as W3.
        destruct (do_maxima_ok s2 a i b n s3 A2 F4) as (K1 & K2 & _). pose proof (do_maxima_way _ _ _ _ F4) as W4. apply do_maxima_frame in F4 as (G6 & _ & _ & G7). unfold VFrame.fin, fq in *.
        destruct (Rest s3 n a (vx (e_top x))) as (b' & B1 & B2 & B3 & B4 & B5 & B6); auto.
        { congruence. } { eapply standing_rel; eauto. } { eapply same_on_trans; [exact SO2|now apply same_on_rel]. } { injection G7 as _ -> _. auto. }
        exists b'. csplit; auto.
        * unfold is_maxima, at_ in F3. rewrite V2 in F3. destruct (nth_error vs (e_vtop x)) as [v|] eqn:V; [|discriminate]. cbn in F3. injection F3 as F3.
          eapply stp_gone; eauto.
        * eapply same_on_trans; [|exact B3]. eapply same_on_trans; [|apply same_on_rel; exact W3]. intros k e Hk; apply SO2, in_or_app; auto.
        * intros Q. apply B4. injection G7 as _ -> _. auto.
      + (* on along the contour *)
        apply bind_ok in H as (s3 & F4 & H). apply bind_ok in H as ([n s4] & F5 & H).
        destruct (next_edge_moves vs P M MK s2 i _ s3 V2 ST2 Ei2 F3 F4) as (K1 & K2 & K3 & K4 & K5 & e' & v & K6 & K7 & K8 & K9 & K10 & K11 & K12). cbn [set_ex e_top e_vtop] in *.
        assert (A3 : active s3 (a ++ i :: b)) by (apply (next_edge_active _ _ _ (a ++ i :: b)) in F4; auto).
        assert (C3 : changes s3 = changes s2 /\ exists f, edges s3 = upd (edges s2) i f /\ forall e, carried e (f e) /\ e_x (f e) = vx (e_top e)).
        { clear - F4. unfold next_edge in F4. binvs. mods. cbn. split; auto. eexists. split; [reflexivity|]. intros e. split; [unfold carried; csplit; reflexivity|reflexivity]. }
        destruct C3 as (C3 & f & ES3 & Cf).
        assert (Ee' : e' = f (set_ex (vx (e_top x)) x)) by (rewrite ES3, (nth_upd_same _ _ _ _ Ei2) in K8; now injection K8 as <-).
        (* the new side rises *)
        assert (Rs : y < vy (e_top e')).
        { destruct (K2 i e' K8) as [C' Pl']. destruct (placed_ends vs P e' Pl' C') as (j & v1 & w1 & Pj & Pk & S & V1 & W1 & Eb & Et & Yb & Yt).
          rops. rbool. rewrite K9 in K12, Yb. assert (Y j <> Y (e_vtop e')) by (eapply (side_ne vs P M MK PL); eauto). lra. }
        (* so [climb] stops at once *)
        cbn [climb] in F5. apply bind_ok in F5 as (e2 & N2 & F5). apply at_ok in N2. rewrite K8 in N2. injection N2 as <-.
        assert (NH : is_horz e' = false) by (unfold is_horz; rops; apply Reqb_false; rewrite K9; lra).
        rewrite NH in F5. injection F5 as <- <-.
        destruct (active_split s3 a i b A3) as (e3 & N3 & _ & N4). rewrite K8 in N3. injection N3 as <-. rewrite N4 in H.
        assert (A3' : active (insert_scanline s3 (vy (e_top e'))) ((a ++ [i]) ++ b)) by (rewrite <- app_assoc; exact A3).
        destruct (Rest (insert_scanline s3 (vy (e_top e'))) (hd_or b None) (a ++ [i]) (vx (e_top x))) as (b' & B1 & B2 & B3 & B4 & B5 & B6); auto.
        { cbn [edges insert_scanline w_scans]. eapply same_on_trans; [exact SO2|]. rewrite ES3. apply same_on_upd. rewrite in_app_iff. tauto. }
        { cbn [changes insert_scanline w_scans]. rewrite C3. exact C2. }
        cbn [edges changes insert_scanline w_scans] in *.
        destruct (B3 i e') as (e4 & E4 & S4); [apply in_or_app; right; now left|exact K8|]. apply links_parts in S4 as (L1 & L2 & L3 & L4 & L5 & L6 & L7 & L8).
        destruct (Cf (set_ex (vx (e_top x)) x)) as [(Q1 & Q2 & Q3 & Q4) Q5]. rewrite <- Ee' in Q1, Q2, Q3, Q4, Q5. cbn in Q1, Q2, Q3, Q4, Q5.
        exists (i :: b'). rewrite <- app_assoc in B1. csplit; auto.
        * apply (stp_next _ _ i b b' x e4); auto; try congruence.
          -- unfold carried; csplit; congruence.
          -- rewrite L7. exact K11.
        * eapply same_on_trans; [|intros k e0 Hk; apply B3, in_or_app; auto]. eapply same_on_trans; [intros k e0 Hk; apply SO2, in_or_app; auto|]. rewrite ES3. now apply same_on_upd.
        * intros Q. apply B4. rewrite C3. auto.
    - (* the side goes on *)
      apply bind_ok in H as (s1 & F1 & H). apply bind_ok in H as (e' & F2 & H). apply bind_ok in H as (s2 & F3 & H).
      pose proof (update_x_way _ _ _ _ F1) as W. pose proof (update_x_frame _ _ _ _ F1) as (G5 & _ & G6 & G7).
      assert (A1 : active s1 (a ++ i :: b)) by (unfold update_x in F1; binvs; eapply emod_active; [|exact F1|exact HA]; auto).
      assert (ES1 : edges s1 = upd (edges s) i (set_ex (ex x y))).
      { unfold update_x in F1. unfold at_ in F1. rewrite E in F1. cbn [of_opt bind] in F1. rewrite (edge_x_at_ex vs P M PL s x y HV RX) in F1. cbn [bind] in F1. apply emod_ok in F1 as [_ ->]. reflexivity. }
      assert (B0 : verts s2 = verts s1 /\ fq s2 = fq s1) by (destruct (e_bound e'); dmatch; auto). destruct B0 as [B0 B0'].
      apply bmod_opt_edges in F3 as [G1 G2]. apply at_ok in F2. rewrite ES1, (nth_upd_same _ _ _ _ E) in F2. injection F2 as <-. cbn [e_x e_next set_ex] in H.
      destruct (active_split s1 a i b A1) as (e1 & N1 & _ & N3). rewrite ES1, (nth_upd_same _ _ _ _ E) in N1. injection N1 as <-. cbn in N3. rewrite N3 in H.
      set (s2' := if Reqb (ex x y) lx then push_change s2 lx else s2) in *.
      assert (X : edges s2' = edges s1 /\ verts s2' = vs /\ ael s2' = ael s1 /\ (forall z, In z (changes s) -> In z (changes s2')) /\ (ex x y = lx -> In (ex x y) (changes s2'))).
      { assert (CC : changes s2 = changes s) by (unfold fq in *; congruence). unfold VFrame.fin in *. unfold s2'. destruct (Reqb (ex x y) lx) eqn:Q; rbool; cbn [push_change edges verts ael changes w_changes].
        - csplit; try congruence; [intros z Hz; rewrite CC; apply in_or_app; auto|intros _; apply in_or_app; right; left; congruence].
        - csplit; try congruence. }
      destruct X as (X1 & X2 & X3 & X4 & X5).
      assert (A2 : active s2' ((a ++ [i]) ++ b)).
      { rewrite <- app_assoc. eapply active_rel with (R := fun e f => e = f) (s := s1); [intros ? ? ->; auto| | |exact A1]; [split; [congruence|]; intros; exists e; split; [congruence|auto]|congruence]. }
      assert (SO2 : same_on (edges s) (edges s2') (a ++ b)) by (rewrite X1, ES1; apply same_on_upd; rewrite in_app_iff; tauto).
      destruct (Rest s2' _ _ (ex x y) X2 A2 eq_refl) as (b' & B1 & B2 & B3 & B4 & B5 & B6); auto.
      { rewrite X1. eapply standing_rel; eauto. }
      destruct (B3 i (set_ex (ex x y) x)) as (e4 & E4 & S4); [apply in_or_app; right; now left|rewrite X1, ES1; eapply nth_upd_same; eauto|].
      apply links_parts in S4 as (L1 & L2 & L3 & L4 & L5 & L6 & L7 & L8). cbn in L1, L2, L3, L4, L5, L6, L7, L8.
      exists (i :: b'). rewrite <- app_assoc in B1. csplit; auto.
      + eapply stp_keep; eauto. unfold carried; csplit; congruence. split; congruence.
      + eapply same_on_trans; [intros k e0 Hk; apply SO2, in_or_app; auto|intros k e0 Hk; apply B3, in_or_app; auto].
  Qed.
End Top.
