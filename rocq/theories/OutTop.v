(** What the top of a scan beam does to the output. *)
From Coq Require Import ZArith Bool List Reals Lra Lia Permutation.
From Verif Require Import Outcome Num Order OrdTac Rmath RTac Segment VState VAel VOut VMain VLemmas VFrame RingSpec LineSpec ClimbSpec AelSpec VAelProofs VEdges VAelRun VRun VClimb
  SpanSpec SpanRing SpanTop PlaneSpec PlaneGeo PlaneSort PlaneTop PlaneCount OutSpec OutPath OutAlt OutList OutClose.
Import ListNotations.
Local Open Scope Z_scope.
Local Open Scope out.

(** *** Changes that leave the polygons and the list of bounds alone *)
Definition still (b c : bound R) : Prop := ob_prev c = ob_prev b /\ ob_next c = ob_next b /\ ob_owner c = ob_owner b /\ ob_dx c = ob_dx b.
Lemma outs_less (s s' : clipper R) pos bl : outs s pos bl [] -> obl s' = obl s -> polys s' = polys s ->
  (forall c x, nth_error (bounds s) c = Some x -> exists x', nth_error (bounds s') c = Some x' /\ still x x') ->
  linked (edges s') (bounds s') -> (forall i c, ebof (edges s') i = Some c -> ebof (edges s) i = Some c) -> outs s' pos bl [].
Proof.
  intros [CH PA LK ON NW LV] HO HP HB LK' LE. constructor; auto; try rewrite HP.
  - eapply chain_owner; eauto. intros i b _ E. destruct (HB i b E) as (x' & E' & A & B & _). eauto.
  - eapply paths_bounds; [|exact PA]. intros i b E. destruct (HB i b E) as (x' & E' & A & B & C & D). exists x'. split; auto. split; auto.
  - intros c x [].
  - intros i c H. eauto.
Qed.
Lemma still_upd (bs : list (bound R)) b f : (forall x, still x (f x)) -> forall c x, nth_error bs c = Some x -> exists x', nth_error (upd bs b f) c = Some x' /\ still x x'.
Proof. intros H c x E. rewrite nth_upd, E. destruct (Nat.eqb b c); cbn; eexists; split; eauto. unfold still. auto. Qed.
Lemma ebof_upd (es : list (edge R)) i f : (forall e, e_bound (f e) = e_bound e) -> forall j, ebof (upd es i f) j = ebof es j.
Proof. intros H j. unfold ebof. rewrite nth_upd. destruct (Nat.eqb i j), (nth_error es j); cbn; auto. Qed.
Lemma beof_upd (bs : list (bound R)) i f : (forall e, ob_edge (f e) = ob_edge e) -> forall j, beof (upd bs i f) j = beof bs j.
Proof. intros H j. unfold beof. rewrite nth_upd. destruct (Nat.eqb i j), (nth_error bs j); cbn; auto. Qed.
Lemma linked_ext (es es' : list (edge R)) (bs bs' : list (bound R)) : linked es bs -> (forall i, ebof es' i = ebof es i) -> (forall b, beof bs' b = beof bs b) -> linked es' bs'.
Proof. intros H A B i c. rewrite A, B. apply H. Qed.
Lemma linked_clear (es es' : list (edge R)) (bs bs' : list (bound R)) i c : linked es bs -> ebof es i = Some c -> (forall j, ebof es' j = if Nat.eqb j i then None else ebof es j) -> (forall b, beof bs' b = if Nat.eqb b c then None else beof bs b) -> linked es' bs'.
Proof.
  intros H E A B j b. rewrite A, B. destruct (Nat.eqb_spec j i) as [->|N], (Nat.eqb_spec b c) as [->|N']; try (split; discriminate).
  - split; [discriminate|]. intros K. apply H in K. congruence.
  - split; [|discriminate]. intros K. apply H in K. apply H in E. congruence.
  - apply H.
Qed.
(** Clearing the link between an edge and its bound *)
Lemma clear_run (s s1 s2 : clipper R) pos bl i e : outs s pos bl [] -> nth_error (edges s) i = Some e ->
  (match e_bound e with Some b => bmod s b (set_bedge None) | None => Ok s end) = Ok s1 -> emod s1 i (set_ebound None) = Ok s2 ->
  outs s2 pos bl [] /\ (forall j, ebof (edges s2) j = if Nat.eqb j i then None else ebof (edges s) j) /\ polys s2 = polys s /\ obl s2 = obl s /\
  (forall c x, nth_error (bounds s) c = Some x -> exists x', nth_error (bounds s2) c = Some x' /\ ob_stop_x x' = ob_stop_x x /\ ob_dx x' = ob_dx x).
Proof.
  intros O E H1 H2. apply emod_ok in H2 as [_ ->]. cbn [edges w_edges].
  assert (EB : ebof (edges s) i = e_bound e) by (unfold ebof; now rewrite E).
  assert (CL : forall es, es = edges s -> forall j, ebof (upd es i (set_ebound None)) j = if Nat.eqb j i then None else ebof (edges s) j).
  { intros es -> j. unfold ebof. rewrite nth_upd, (Nat.eqb_sym j i). destruct (Nat.eqb i j); auto. destruct (nth_error (edges s) j); auto. }
  destruct (e_bound e) as [b|].
  - apply bmod_ok in H1 as [[x Ex] ->]. cbn [edges w_bounds]. assert (EB' : forall j, ebof (upd (edges s) i (set_ebound None)) j = if Nat.eqb j i then None else ebof (edges s) j) by (apply CL; auto).
    csplit; auto.
    + eapply outs_less; [exact O|reflexivity|reflexivity| | |].
      * cbn. apply still_upd. intros []; unfold still; auto.
      * cbn [edges bounds w_edges w_bounds]. eapply linked_clear; [apply (os_link _ _ _ _ O)|exact EB|exact EB'|]. intros c. unfold beof. rewrite nth_upd, (Nat.eqb_sym c b). destruct (Nat.eqb b c); auto. destruct (nth_error (bounds s) c); auto.
      * cbn. intros j c. rewrite EB'. destruct (Nat.eqb j i); [discriminate|auto].
    + cbn. intros c z E'. rewrite nth_upd, E'. destruct (Nat.eqb b c); cbn; eexists; split; eauto.
  - injection H1 as <-. assert (EB' : forall j, ebof (upd (edges s) i (set_ebound None)) j = if Nat.eqb j i then None else ebof (edges s) j) by (apply CL; auto).
    csplit; auto; [|intros c z E'; exists z; auto].
    eapply outs_less; [exact O|reflexivity|reflexivity|intros c z E'; exists z; unfold still; auto| |].
    + cbn. eapply linked_ext; [apply (os_link _ _ _ _ O)| |reflexivity]. intros j. rewrite EB'. destruct (Nat.eqb_spec j i); [subst; auto|reflexivity].
    + cbn. intros j c. rewrite EB'. destruct (Nat.eqb j i); [discriminate|auto].
Qed.

(** *** The part of a side below a height, as a signed crossing *)
Definition epass (x z : R) (e : edge R) : Z :=
  if Rleb (vy (e_bot e)) z && Rltb z (vy (e_top e)) then if Rltb (ex e z) x then e_dx e else 0 else 0.
Lemma epass_dir e x z : (vy (e_bot e) < vy (e_top e))%R -> e_dx e = 1 \/ e_dx e = -1 ->
  (if edge_up e then passes (e_bot e) (e_top e) x z else passes (e_top e) (e_bot e) x z) = epass x z e.
Proof.
  intros L D. unfold epass, passes, edge_up, ex. rewrite (xat_rev (e_top e) (e_bot e)) by lra. destruct D as [D|D]; rewrite D; cbn [Z.ltb Z.compare];
    destruct (Rleb (vy (e_bot e)) z) eqn:A, (Rltb z (vy (e_top e))) eqn:B, (Rleb (vy (e_top e)) z) eqn:C, (Rltb z (vy (e_bot e))) eqn:F; cbn [andb]; auto; rbool; lra.
Qed.

Section Top.
  Variable vs : list (vertex R).
  Notation Y := (height vs).
  Variables P M : nat -> Prop.
  Hypothesis MK : marked vs P M.
  Hypothesis PL : plane vs P M.
  Variable y : R.
  Implicit Types s : clipper R.
  Implicit Types es : list (edge R).
  Notation standing := (standing vs P).

  Lemma copy_line s e : verts s = vs -> rises vs P e -> copy_seg s e false = Ok (SLine (if edge_up e then e_top e else e_bot e)).
  Proof.
    intros HV (Pe & Ce & H). destruct (placed_ends vs P e Pe Ce) as (j & v & w & Pj & Pk & S & V & W & Eb & Et & Yb & Yt).
    unfold copy_seg, get_seg, at_. rewrite HV, W. cbn [of_opt bind].
    destruct (edge_up e) eqn:U.
    - destruct (pl_line _ _ _ PL j _ Pj S) as (v' & w' & V' & W' & G). rewrite V in V'. injection V' as <-. rewrite W in W'. injection W' as <-.
      destruct S as (v1 & w1 & V1 & W1 & _ & N). rewrite W in W1. injection W1 as <-. cbn in N. rewrite N. cbn [deref of_opt bind]. rewrite V. cbn [of_opt bind fst snd].
      rewrite G. cbn [of_opt bind]. now rewrite Et.
    - apply side_sym in S. cbn in S. destruct (pl_line _ _ _ PL _ _ Pk S) as (w' & v' & W' & V' & G). rewrite V in V'. injection V' as <-. rewrite W in W'. injection W' as <-.
      rewrite G. cbn [of_opt bind fst snd]. now rewrite Eb.
  Qed.
  (** An edge and its bound agree. *)
  Definition agree es (bs : list (bound R)) pos (i c : nat) : Prop := exists e x, nth_error es i = Some e /\ nth_error bs c = Some x /\ ob_dx x = e_dx e /\ pos c = e_bot e.
  Lemma extend_ok s s' pos bl i e : outs s pos bl [] -> nth_error (edges s) i = Some e -> verts s = vs -> rises vs P e -> e_dx e = 1 \/ e_dx e = -1 ->
    (forall c, ebof (edges s) i = Some c -> agree (edges s) (bounds s) pos i c) -> extend_bound s i = Ok s' ->
    exists pos', outs s' pos' bl [] /\
      (forall c, ebof (edges s) i <> Some c -> nth_error (bounds s') c = nth_error (bounds s) c /\ pos' c = pos c) /\
      (forall c, ebof (edges s) i = Some c -> pos' c = e_top e /\ exists x x', nth_error (bounds s) c = Some x /\ nth_error (bounds s') c = Some x' /\ ob_stop_x x' = e_x e /\ ob_dx x' = ob_dx x) /\
      edges s' = edges s /\
      (forall x z, tw (polys s') pos' x z = tw (polys s) pos x z + match ebof (edges s) i with Some _ => epass x z e | None => 0 end).
  Proof.
    intros O E HV RX D AG H. unfold extend_bound in H. rewrite (proj2 (at_ok _ _ _) E) in H. cbn [bind] in H.
    assert (EB : ebof (edges s) i = e_bound e) by (unfold ebof; now rewrite E). rewrite EB in *.
    destruct (e_bound e) as [b|].
    2: { injection H as <-. exists pos. csplit; auto; try discriminate. intros x z. lia. }
    destruct (AG b eq_refl) as (e' & bx & E' & Bx & Dx & Pb). rewrite E in E'. injection E' as <-.
    rewrite (proj2 (at_ok _ _ _) Bx) in H. cbn [bind] in H.
    assert (UP : bound_up bx = edge_up e) by (unfold bound_up, edge_up; now rewrite Dx). rewrite UP, xorb_nilpotent, copy_line in H by auto. cbn [bind] in H.
    apply bind_ok in H as (o & Ho & H). unfold deref in Ho. apply of_opt_ok in Ho. apply bind_ok in H as (s1 & F1 & H).
    apply pmod_ok in F1 as [_ ->]. apply bmod_ok in H as [_ ->]. cbn [bounds w_polys edges w_bounds polys].
    pose proof O as [CH PA LK ON NW LV]. rewrite app_nil_r in PA.
    assert (Ib : In b bl) by (rewrite <- (app_nil_r bl); eapply LV; eauto).
    set (g := SLine (if edge_up e then e_top e else e_bot e)) in *.
    destruct (paths_push _ _ _ _ b bx o g (e_top e) PA Ib Bx Ho) as [PA' TW]; [eexists; reflexivity|rewrite UP; unfold g; cbn; destruct (edge_up e); congruence|].
    rewrite UP in PA', TW. rewrite Pb in TW. exists (setp pos b (e_top e)). csplit.
    - constructor; cbn [bounds polys edges w_bounds w_polys]; rewrite ?app_nil_r; auto.
      + apply (chain_owner s); [reflexivity| |exact CH]. cbn. intros k x _ K. rewrite nth_upd, K. destruct (Nat.eqb b k); cbn; eexists; split; eauto.
      + eapply paths_bounds; [|exact PA']. apply owners_upd. intros []; split; reflexivity.
      + eapply linked_ext; [exact LK|reflexivity|]. apply beof_upd. now intros [].
      + now rewrite app_nil_r in ON.
      + intros c x [].
      + intros k c K. rewrite <- (app_nil_r bl). eauto.
    - intros c NE. assert (c <> b) by congruence. rewrite setp_other by auto. split; auto. apply nth_upd_other; auto.
    - intros c Q. injection Q as <-. split; [apply setp_same|]. exists bx, (set_bstop (e_x e) bx). csplit; auto. now apply nth_upd_same.
    - reflexivity.
    - intros x z. rewrite TW. f_equal. apply epass_dir; auto. apply RX.
  Qed.

  (** What a finished side adds *)
  Definition tip (x z : R) es i : Z := match nth_error es i with Some e => if Reqb (vy (e_top e)) y then match e_bound e with Some _ => epass x z e | None => 0 end else 0 | None => 0 end.
  Definition topd s s' pos pos' (r : list nat) : Prop :=
    (forall i e c, In i r -> nth_error (edges s) i = Some e -> ebof (edges s) i = Some c ->
      pos' c = (if Reqb (vy (e_top e)) y then e_top e else e_bot e) /\ exists x x', nth_error (bounds s) c = Some x /\ nth_error (bounds s') c = Some x' /\ ob_stop_x x' = ex e y /\ ob_dx x' = ob_dx x) /\
    (forall c, (forall i, In i r -> ebof (edges s) i <> Some c) -> nth_error (bounds s') c = nth_error (bounds s) c /\ pos' c = pos c) /\
    (forall i c, ebof (edges s') i = Some c <-> ebof (edges s) i = Some c /\ (In i r -> gone vs y (edges s) i = false)) /\
    (forall x z, tw (polys s') pos' x z = tw (polys s) pos x z + zsum (tip x z (edges s)) r).
  Definition bsame es es' i : Prop := ebof es' i = ebof es i.
  Lemma tip_same es es' x z i : (forall e, nth_error es i = Some e -> exists f, nth_error es' i = Some f /\ e_bot f = e_bot e /\ e_top f = e_top e /\ e_dx f = e_dx e /\ e_bound f = e_bound e) -> (exists e, nth_error es i = Some e) -> tip x z es' i = tip x z es i.
  Proof. intros H (e & E). destruct (H e E) as (f & F & A & B & C & D). unfold tip, epass, ex. now rewrite E, F, A, B, C, D. Qed.
  (** One edge after the other *)
  Lemma topd_step s s1 s' pos pos1 pos' i e r : linked (edges s) (bounds s) -> ~ In i r -> nth_error (edges s) i = Some e ->
    (forall j, In j r -> exists e f, nth_error (edges s) j = Some e /\ nth_error (edges s1) j = Some f /\ e_bot f = e_bot e /\ e_top f = e_top e /\ e_dx f = e_dx e /\ e_bound f = e_bound e /\ e_vtop f = e_vtop e) ->
    (forall c, ebof (edges s) i = Some c -> pos1 c = (if Reqb (vy (e_top e)) y then e_top e else e_bot e) /\ exists x x', nth_error (bounds s) c = Some x /\ nth_error (bounds s1) c = Some x' /\ ob_stop_x x' = ex e y /\ ob_dx x' = ob_dx x) ->
    (forall c, ebof (edges s) i <> Some c -> nth_error (bounds s1) c = nth_error (bounds s) c /\ pos1 c = pos c) ->
    (forall j c, ebof (edges s1) j = Some c <-> ebof (edges s) j = Some c /\ (j = i -> gone vs y (edges s) i = false)) ->
    (forall x z, tw (polys s1) pos1 x z = tw (polys s) pos x z + tip x z (edges s) i) ->
    topd s1 s' pos1 pos' r -> topd s s' pos pos' (i :: r).
  Proof.
    intros LK NI E RS H1 H2 H3 H4 (T1 & T2 & T3 & T4).
    assert (EBR : forall j, In j r -> ebof (edges s1) j = ebof (edges s) j) by (intros j Hj; destruct (RS j Hj) as (a & b & A & B & _ & _ & _ & Q & _); unfold ebof; now rewrite A, B, Q).
    unfold topd. csplit.
    - intros j f c Hj F Fc. destruct Hj as [<-|Hj].
      + rewrite E in F. injection F as <-. destruct (H1 c Fc) as (A & x & x' & B1 & B2 & B3 & B4).
        destruct (T2 c) as [U1 U2]. { intros k Hk K. rewrite EBR in K by auto. apply LK in K. apply LK in Fc. assert (k = i) by congruence. subst. contradiction. }
        rewrite U1, U2. split; auto. exists x, x'. auto.
      + destruct (RS j Hj) as (a & b & A & B & Q1 & Q2 & Q3 & Q4 & _). rewrite F in A. injection A as <-. destruct (T1 j b c Hj B) as (C1 & x & x' & C2 & C3 & C4 & C5); [rewrite EBR; auto|].
        destruct (H2 c) as [U1 U2]. { intros K. apply LK in K. apply LK in Fc. assert (j = i) by congruence. subst. contradiction. }
        rewrite U1 in C2. unfold ex in *. rewrite Q1, Q2 in *. split; auto. exists x, x'. auto.
    - intros c Hc. destruct (T2 c) as [U1 U2]. { intros k Hk. rewrite EBR by auto. apply Hc. now right. }
      destruct (H2 c) as [U3 U4]. { apply Hc. now left. } rewrite U1, U2, U3, U4. auto.
    - intros j c. rewrite T3, H3. assert (G : In j r -> gone vs y (edges s1) j = gone vs y (edges s) j).
      { intros Hj. destruct (RS j Hj) as (a & b & A & B & Q1 & Q2 & Q3 & Q4 & Q5). unfold gone. now rewrite A, B, Q2, Q5. }
      split.
      + intros [[A B] C]. split; auto. intros [<-|Hj]; auto. rewrite <- G; auto.
      + intros [A B]. csplit; auto.
        * intros ->. apply B. now left.
        * intros Hj. rewrite G by auto. apply B. now right.
    - intros x z. rewrite T4, H4, zsum_cons. rewrite (zsum_ext (tip x z (edges s1)) (tip x z (edges s)) r); [lia|].
      intros j Hj. destruct (RS j Hj) as (a & b & A & B & Q1 & Q2 & Q3 & Q4 & Q5). apply tip_same; [|eauto]. intros a' A'. rewrite A in A'. injection A' as <-. exists b. csplit; auto.
  Qed.

  Definition same_on_b es es' (l : list nat) : Prop := forall i, In i l -> exists e f, nth_error es i = Some e /\ nth_error es' i = Some f /\ same_but_links e f /\ e_bound f = e_bound e.
  Lemma rest_of es es' l : same_on_b es es' l -> forall j, In j l -> exists e f, nth_error es j = Some e /\ nth_error es' j = Some f /\ e_bot f = e_bot e /\ e_top f = e_top e /\ e_dx f = e_dx e /\ e_bound f = e_bound e /\ e_vtop f = e_vtop e.
  Proof. intros H j Hj. destruct (H j Hj) as (e & f & E & F & S & B). exists e, f. apply links_parts in S. csplit; auto; tauto. Qed.

  Lemma top_loop_outs fuel : forall s lx c a b s' pos bl, verts s = vs -> active s (a ++ b) -> c = hd_or b None -> standing (edges s) ->
    (forall i, In i b -> exists e, nth_error (edges s) i = Some e /\ (vy (e_bot e) < y <= vy (e_top e))%R /\ (e_dx e = 1 \/ e_dx e = -1)) ->
    outs s pos bl [] -> (forall i c, In i b -> ebof (edges s) i = Some c -> agree (edges s) (bounds s) pos i c) ->
    top_loop fuel s y lx c = Ok s' -> exists pos', outs s' pos' bl [] /\ topd s s' pos pos' b.
  Proof.
    assert (NIL : forall s pos bl, outs s pos bl [] -> exists pos', outs s pos' bl [] /\ topd s s pos pos' []).
    { intros s pos bl O. exists pos. split; auto. unfold topd. csplit; auto; try contradiction. - intros i c. cbn [In]. tauto. - intros x z. cbn. lia. }
    induction fuel; intros s lx c a b s' pos bl HV HA Hc ST RG O AG H; cbn [top_loop] in H.
    { destruct c; [discriminate|]. destruct b; [|discriminate]. binvs. auto. }
    destruct b as [|i b]; cbn [hd_or] in Hc; subst c.
    { binvs. auto. }
    binv H. apply at_ok in E. destruct (active_split s a i b HA) as (e & E1 & E2 & E3). rewrite E in E1. injection E1 as <-.
    destruct (RG i (or_introl eq_refl)) as (e0 & E0 & Ye & De). rewrite E in E0. injection E0 as <-.
    destruct (ST i x E) as [C Pl]. pose proof (top_height vs x C) as Ht.
    assert (RX : rises vs P x) by (split; [exact Pl|split; [exact C|lra]]).
    assert (ND : NoDup (a ++ i :: b)) by apply HA.
    assert (Ni : ~ In i a /\ ~ In i b) by (apply NoDup_remove_2 in ND; rewrite in_app_iff in ND; tauto).
    destruct Ni as [Nia Nib].
    assert (SomeB : forall k, In k b -> exists e, nth_error (edges s) k = Some e) by (intros k Hk; destruct (RG k (or_intror Hk)) as (f & F & _); eauto).
    assert (LK := os_link _ _ _ _ O). assert (EBi : ebof (edges s) i = e_bound x) by (unfold ebof; now rewrite E).
    assert (Rest : forall s1 n a1 lx1 pos1, verts s1 = vs -> active s1 (a1 ++ b) -> n = hd_or b None -> standing (edges s1) -> same_on_b (edges s) (edges s1) b -> outs s1 pos1 bl [] ->
      (forall c, ebof (edges s) i = Some c -> pos1 c = (if Reqb (vy (e_top x)) y then e_top x else e_bot x) /\ exists z x', nth_error (bounds s) c = Some z /\ nth_error (bounds s1) c = Some x' /\ ob_stop_x x' = ex x y /\ ob_dx x' = ob_dx z) ->
      (forall c, ebof (edges s) i <> Some c -> nth_error (bounds s1) c = nth_error (bounds s) c /\ pos1 c = pos c) ->
      (forall j c, ebof (edges s1) j = Some c <-> ebof (edges s) j = Some c /\ (j = i -> gone vs y (edges s) i = false)) ->
      (forall x z, tw (polys s1) pos1 x z = tw (polys s) pos x z + tip x z (edges s) i) ->
      top_loop fuel s1 y lx1 n = Ok s' -> exists pos', outs s' pos' bl [] /\ topd s s' pos pos' (i :: b)).
    { intros s1 n a1 lx1 pos1 V1 A1 N1 ST1 SO O1 H1 H2 H3 H4 HT.
      destruct (IHfuel s1 lx1 n a1 b s' pos1 bl V1 A1 N1 ST1) as (pos' & O' & T'); auto.
      - intros k Hk. destruct (RG k (or_intror Hk)) as (f & F & L & D). destruct (SO k Hk) as (f1 & f' & F1 & F' & S & _). rewrite F in F1. injection F1 as <-. exists f'. split; auto.
        apply links_parts in S as (S1 & S2 & S3 & S4 & _). rewrite S1, S2, S4. auto.
      - intros k c Hk K. destruct (SO k Hk) as (f & f' & F & F' & S & B). assert (K' : ebof (edges s) k = Some c) by (unfold ebof in *; rewrite F' in K; rewrite F; congruence).
        destruct (AG k c (or_intror Hk) K') as (f1 & z & F1 & Z & Dz & Pz). rewrite F in F1. injection F1 as <-. apply links_parts in S as (S1 & S2 & S3 & S4 & _).
        destruct (H2 c) as [U1 U2]. { intros Q. apply LK in Q. apply LK in K'. assert (k = i) by congruence. subst. contradiction. }
        exists f', z. rewrite U1, U2, S1, S4. auto.
      - exists pos'. split; auto. eapply topd_step; eauto. now apply rest_of. }
    rops. destruct (Reqb (vy (e_top x)) y) eqn:Ey; rbool.
    - (* the end of the side *)
      assert (Ex : ex x y = vx (e_top x)) by (unfold ex; rewrite <- Ey; apply xat_top; lra).
      apply bind_ok in H as (s1 & F1 & H). apply bind_ok in H as (s2 & F2 & H). apply bind_ok in H as (m & F3 & H).
      pose proof (extend_bound_frame _ _ _ F2) as (G1 & _ & G3 & G4 & G5 & _).
      set (s1' := if Reqb (vx (e_top x)) lx then push_change s1 lx else s1) in *.
      apply emod_ok in F1 as [_ F1].
      assert (X1 : edges s1' = edges s1 /\ verts s1' = verts s1 /\ ael s1' = ael s1 /\ bounds s1' = bounds s1 /\ polys s1' = polys s1 /\ obl s1' = obl s1).
      { unfold s1'. destruct (Reqb (vx (e_top x)) lx) eqn:Q; csplit; auto. }
      destruct X1 as (X1 & X2 & X3 & X4 & X5 & X6). rewrite F1 in X1, X2, X3, X4, X5, X6. cbn in X1, X2, X3, X4, X5, X6.
      assert (EBU : forall j, ebof (edges s1') j = ebof (edges s) j) by (rewrite X1; apply ebof_upd; now intros []).
      assert (O1 : outs s1' pos bl []).
      { eapply outs_less; [exact O|auto|auto| | |].
        - rewrite X4. intros k z K. exists z. unfold still. auto.
        - rewrite X4. eapply linked_ext; [exact LK|exact EBU|reflexivity].
        - intros j k. now rewrite EBU. }
      assert (Ei1 : nth_error (edges s1') i = Some (set_ex (vx (e_top x)) x)) by (rewrite X1; eapply nth_upd_same; eauto).
      assert (A1 : active s1 (a ++ i :: b)) by (rewrite F1; eapply (emod_active s i (set_ex (vx (e_top x)))); [|apply emod_run with (e := x); exact E|exact HA]; auto).
      destruct (extend_ok s1' s2 pos bl i _ O1 Ei1) as (pos2 & O2 & U1 & U2 & ES & TW); auto.
      { congruence. }
      { intros k K. rewrite EBU in K. destruct (AG i k (or_introl eq_refl) K) as (f & z & F & Z & Dz & Pz). rewrite E in F. injection F as <-. exists (set_ex (vx (e_top x)) x), z. rewrite X4. csplit; auto; destruct x; auto. }
      assert (ES2 : edges s2 = upd (edges s) i (set_ex (vx (e_top x)))) by congruence.
      assert (V2 : verts s2 = vs) by (unfold VFrame.fin in G1; injection G1 as -> _ _ _ _ _ _; congruence).
      assert (A2 : active s2 (a ++ i :: b)).
      { eapply active_rel with (R := fun e f => e = f) (s := s1); [intros ? ? ->; auto| | |exact A1]; [split; [rewrite ES2, F1; auto|]; intros; exists e; split; [rewrite ES2; rewrite F1 in H0; exact H0|auto]|rewrite F1; cbn; congruence]. }
      assert (S2 : erel same_way (edges s) (edges s2)) by (rewrite ES2; apply erel_upd; [apply pre_way|intros; repeat split; reflexivity]).
      pose proof (standing_rel vs P _ _ S2 ST) as ST2.
      assert (Ei2 : nth_error (edges s2) i = Some (set_ex (vx (e_top x)) x)) by (rewrite ES2; eapply nth_upd_same; eauto).
      assert (SO2 : same_on_b (edges s) (edges s2) b).
      { intros k Hk. destruct (SomeB k Hk) as (f & F). exists f, f. rewrite ES2, nth_upd_other by (intros ->; contradiction). csplit; auto. now destruct f. }
      assert (TIP : forall x0 z, match ebof (edges s1') i with Some _ => epass x0 z (set_ex (vx (e_top x)) x) | None => 0 end = tip x0 z (edges s) i).
      { intros x0 z. rewrite EBU. unfold tip. rewrite EBi, E, (proj2 (Reqb_true _ _) Ey). destruct (e_bound x); auto. }
      assert (H1 : forall c, ebof (edges s) i = Some c -> pos2 c = e_top x /\ exists z x', nth_error (bounds s) c = Some z /\ nth_error (bounds s2) c = Some x' /\ ob_stop_x x' = ex x y /\ ob_dx x' = ob_dx z).
      { intros k K. destruct (U2 k) as (B1 & z & z' & B2 & B3 & B4 & B5); [now rewrite EBU|]. split; auto. exists z, z'. rewrite X4 in B2. csplit; auto. rewrite B4, Ex. now destruct x. }
      assert (H2 : forall c, ebof (edges s) i <> Some c -> nth_error (bounds s2) c = nth_error (bounds s) c /\ pos2 c = pos c) by (intros k K; rewrite <- X4; apply U1; now rewrite EBU).
      assert (EB2 : forall j, ebof (edges s2) j = ebof (edges s) j) by (intros j; rewrite ES; auto).
      assert (TW2 : forall x0 z, tw (polys s2) pos2 x0 z = tw (polys s) pos x0 z + tip x0 z (edges s) i) by (intros x0 z; rewrite TW, TIP, X5; reflexivity).
      assert (Mx : exists v, nth_error vs (e_vtop x) = Some v /\ v_max v = m).
      { unfold is_maxima, at_ in F3. rewrite V2 in F3. destruct (nth_error vs (e_vtop x)) as [v|] eqn:W; [|discriminate]. cbn in F3. injection F3 as F3. eauto. }
      destruct Mx as (v & Wv & Mv).
      assert (GO : gone vs y (edges s) i = m) by (unfold gone; now rewrite E, Wv, (proj2 (Reqb_true _ _) Ey), Mv).
      destruct m.
      + (* a maximum *)
        apply bind_ok in H as ([n s3] & F4 & H). pose proof (do_maxima_links _ _ _ _ _ _ A2 F4) as W3.
        destruct (do_maxima_ok s2 a i b n s3 A2 F4) as (K1 & K2 & _). pose proof (do_maxima_way _ _ _ _ F4) as W4. pose proof F4 as F4'. apply do_maxima_frame in F4' as (G6 & _ & _ & G7). unfold VFrame.fin, fq in *.
        unfold do_maxima in F4. rewrite (proj2 (at_ok _ _ _) Ei2) in F4. cbn [bind] in F4. apply bind_ok in F4 as (s2' & F5 & F4).
        assert (CL : outs s2' pos2 bl [] /\ (forall j, ebof (edges s2') j = if Nat.eqb j i then None else ebof (edges s2) j) /\ polys s2' = polys s2 /\ obl s2' = obl s2 /\
          (forall c x, nth_error (bounds s2) c = Some x -> exists x', nth_error (bounds s2') c = Some x' /\ ob_stop_x x' = ob_stop_x x /\ ob_dx x' = ob_dx x) /\
          (forall c, ebof (edges s2) i <> Some c -> nth_error (bounds s2') c = nth_error (bounds s2) c)).
        { assert (EB : ebof (edges s2) i = e_bound (set_ex (vx (e_top x)) x)) by (unfold ebof; now rewrite Ei2). rewrite EB. destruct (e_bound (set_ex (vx (e_top x)) x)) as [k|] eqn:Bk.
          - apply bind_ok in F5 as (s2'' & F6 & F5). destruct (clear_run s2 s2'' s2' pos2 bl i _ O2 Ei2) as (C1 & C2 & C3 & C4 & C5); auto; [rewrite Bk; auto|].
            csplit; auto. intros k' NE. apply emod_ok in F5 as [_ ->]. apply bmod_ok in F6 as [_ ->]. cbn. apply nth_upd_other. congruence.
          - injection F5 as <-. csplit; auto; [|intros k z Z; exists z; auto]. intros j. destruct (Nat.eqb_spec j i); auto. now subst. }
        destruct CL as (C1 & C2 & C3 & C4 & C5 & C6).
        pose proof (delete_active_edge_frame _ _ _ _ F4) as (_ & D2 & _). unfold fout in D2. injection D2 as D2 D3 D4.
        assert (A2' : active s2' (a ++ i :: b)).
        { destruct (e_bound (set_ex (vx (e_top x)) x)) as [k|]; [|injection F5 as <-; exact A2]. apply bind_ok in F5 as (s2'' & F6 & F5). apply bmod_ok in F6 as [_ ->].
          eapply emod_active; [|exact F5|]; [auto|exact A2]. }
        destruct (delete_active_edge_ok _ _ _ _ _ _ A2' F4) as (_ & _ & OL).
        destruct OL as [OL _].
        assert (EB3 : forall j, ebof (edges s3) j = ebof (edges s2') j).
        { intros j. unfold ebof. destruct (nth_error (edges s2') j) as [f|] eqn:F.
          - destruct (proj2 OL j f F) as (f' & F' & S). rewrite F', S. reflexivity.
          - destruct (nth_error (edges s3) j) as [f'|] eqn:F'; auto. destruct (erel_back _ _ _ _ _ OL F') as (f & K & _). congruence. }
        assert (O3 : outs s3 pos2 bl []).
        { eapply outs_less; [exact C1|congruence|congruence| | |].
          - rewrite D2. intros k z K. exists z. unfold still. auto.
          - rewrite D2. eapply linked_ext; [apply (os_link _ _ _ _ C1)|exact EB3|reflexivity].
          - intros j k. now rewrite EB3. }
        eapply (Rest s3 n a (vx (e_top x)) pos2); auto.
        * congruence.
        * eapply standing_rel; eauto.
        * intros k Hk. destruct (SO2 k Hk) as (f & f2 & F & F2' & S & B). destruct (proj2 W3 k f2 F2') as (f3 & F3' & S3). exists f, f3. csplit; auto; [eapply pre_links; eauto|].
          assert (Q : ebof (edges s3) k = ebof (edges s) k) by (rewrite EB3, C2, EB2; destruct (Nat.eqb_spec k i); [subst; contradiction|reflexivity]). unfold ebof in Q. now rewrite F, F3' in Q.
        * intros k K. destruct (H1 k K) as (B1 & z & z' & B2 & B3 & B4 & B5). split; auto. destruct (C5 k z' B3) as (z'' & B6 & B7 & B8). exists z, z''. rewrite D2. csplit; auto; congruence.
        * intros k K. destruct (H2 k K) as [B1 B2]. rewrite D2, C6 by (rewrite EB2; auto). auto.
        * intros j k. rewrite EB3, C2, EB2, GO. destruct (Nat.eqb_spec j i) as [->|NE]; [split; [discriminate|intros [_ Q]; now specialize (Q eq_refl)]|]. split; [intros Q; split; auto; contradiction|tauto].
        * intros x0 z. rewrite D3, C3. auto.
      + (* on along the contour *)
        apply bind_ok in H as (s3 & F4 & H). apply bind_ok in H as ([n s4] & F5 & H).
        destruct (next_edge_moves vs P M MK s2 i _ s3 V2 ST2 Ei2 F3 F4) as (K1 & K2 & K3 & K4 & K5 & e' & v' & K6 & K7 & K8 & K9 & K10 & K11 & K12). cbn [set_ex e_top e_vtop] in *.
        assert (A3 : active s3 (a ++ i :: b)) by (apply (next_edge_active _ _ _ (a ++ i :: b)) in F4; auto).
        assert (C3 : bounds s3 = bounds s2 /\ polys s3 = polys s2 /\ obl s3 = obl s2 /\ exists f, edges s3 = upd (edges s2) i f /\ forall e, e_bound (f e) = e_bound e).
        { clear - F4. unfold next_edge in F4. binvs. mods. cbn. csplit; auto. eexists. split; [reflexivity|]. reflexivity. }
        destruct C3 as (C3 & C4 & C5 & f & ES3 & Cf).
        assert (Rs : (y < vy (e_top e'))%R).
        { destruct (K2 i e' K8) as [C' Pl']. destruct (placed_ends vs P e' Pl' C') as (j & v1 & w1 & Pj & Pk & S & V1 & W1 & Eb & Et & Yb & Yt).
          rops. rbool. rewrite K9 in K12, Yb. assert (Y j <> Y (e_vtop e')) by (eapply (side_ne vs P M MK PL); eauto). lra. }
        cbn [climb] in F5. apply bind_ok in F5 as (e2 & N2 & F5). apply at_ok in N2. rewrite K8 in N2. injection N2 as <-.
        assert (NH : is_horz e' = false) by (unfold is_horz; rops; apply Reqb_false; rewrite K9; lra).
        rewrite NH in F5. injection F5 as <- <-.
        destruct (active_split s3 a i b A3) as (e3 & N3 & _ & N4). rewrite K8 in N3. injection N3 as <-. rewrite N4 in H.
        assert (A3' : active (insert_scanline s3 (vy (e_top e'))) ((a ++ [i]) ++ b)) by (rewrite <- app_assoc; exact A3).
        assert (EB3 : forall j, ebof (edges s3) j = ebof (edges s2) j) by (rewrite ES3; now apply ebof_upd).
        eapply (Rest (insert_scanline s3 (vy (e_top e'))) (hd_or b None) (a ++ [i]) (vx (e_top x)) pos2); auto; cbn [edges bounds polys obl insert_scanline w_scans].
        * intros k Hk. destruct (SO2 k Hk) as (g & f2 & F & F2' & S & B). exists g, f2. rewrite ES3, nth_upd_other by (intros ->; contradiction). auto.
        * eapply outs_less; [exact O2|auto|auto| | |].
          -- cbn. rewrite C3. intros k z K. exists z. unfold still. auto.
          -- cbn. rewrite C3. eapply linked_ext; [apply (os_link _ _ _ _ O2)|exact EB3|reflexivity].
          -- cbn. intros j k. now rewrite EB3.
        * rewrite C3. auto.
        * rewrite C3. auto.
        * intros j k. rewrite EB3, EB2, GO. tauto.
        * rewrite C4. auto.
    - (* the side goes on *)
      apply bind_ok in H as (s1 & F1 & H). apply bind_ok in H as (e' & F2 & H). apply bind_ok in H as (s2 & F3 & H).
      pose proof (update_x_way _ _ _ _ F1) as W. pose proof (update_x_frame _ _ _ _ F1) as (G5 & G0 & G6 & G7).
      assert (A1 : active s1 (a ++ i :: b)) by (unfold update_x in F1; binvs; eapply emod_active; [|exact F1|exact HA]; auto).
      assert (ES1 : s1 = w_edges s (upd (edges s) i (set_ex (ex x y)))).
      { unfold update_x in F1. unfold at_ in F1. rewrite E in F1. cbn [of_opt bind] in F1. rewrite (edge_x_at_ex vs P M PL s x y HV RX) in F1. cbn [bind] in F1. apply emod_ok in F1 as [_ ->]. reflexivity. }
      apply at_ok in F2. rewrite ES1 in F2. cbn in F2. rewrite (nth_upd_same _ _ _ _ E) in F2. injection F2 as <-. cbn [e_x e_next set_ex] in H.
      destruct (active_split s1 a i b A1) as (e1 & N1 & _ & N3). rewrite ES1 in N1. cbn in N1. rewrite (nth_upd_same _ _ _ _ E) in N1. injection N1 as <-. cbn in N3. rewrite N3 in H.
      change (e_bound (set_ex (ex x y) x)) with (e_bound x) in F3. change (e_x (set_ex (ex x y) x)) with (ex x y) in F3.
      set (s2' := if Reqb (ex x y) lx then push_change s2 lx else s2) in *.
      assert (X : edges s2' = edges s2 /\ verts s2' = verts s2 /\ ael s2' = ael s2 /\ bounds s2' = bounds s2 /\ polys s2' = polys s2 /\ obl s2' = obl s2).
      { unfold s2'. destruct (Reqb (ex x y) lx); csplit; auto. }
      destruct X as (X1 & X2 & X3 & X4 & X5 & X6).
      assert (B0 : verts s2 = vs /\ edges s2 = upd (edges s) i (set_ex (ex x y)) /\ ael s2 = ael s /\ polys s2 = polys s /\ obl s2 = obl s /\ bounds s2 = match e_bound x with Some k => upd (bounds s) k (set_bstop (ex x y)) | None => bounds s end).
      { destruct (e_bound x) as [k|]; [apply bmod_ok in F3 as [_ ->]|injection F3 as <-]; rewrite ES1; cbn; csplit; auto. }
      destruct B0 as (B0 & B1 & B2 & B3 & B4 & B5).
      assert (EBU : forall j, ebof (edges s2') j = ebof (edges s) j) by (rewrite X1, B1; apply ebof_upd; now intros []).
      eapply (Rest s2' (hd_or b None) (a ++ [i]) (ex x y) pos); auto.
      + congruence.
      + rewrite <- app_assoc. eapply active_rel with (R := fun e f => e = f) (s := s1); [intros ? ? ->; auto| | |exact A1]; [split; [rewrite X1, B1, ES1; reflexivity|]; intros; exists e; split; [rewrite X1, B1; rewrite ES1 in H0; exact H0|auto]|rewrite X3, B2, ES1; reflexivity].
      + rewrite X1, B1. eapply standing_rel; [|exact ST]. rewrite ES1 in W. exact W.
      + intros k Hk. destruct (SomeB k Hk) as (f & F). exists f, f. rewrite X1, B1, nth_upd_other by (intros ->; contradiction). csplit; auto. now destruct f.
      + eapply outs_less; [exact O|congruence|congruence| | |].
        * rewrite X4, B5. destruct (e_bound x); [apply still_upd; intros []; unfold still; auto|intros k z K; exists z; unfold still; auto].
        * eapply linked_ext; [exact LK|exact EBU|]. rewrite X4, B5. destruct (e_bound x); auto. apply beof_upd. now intros [].
        * intros j k. now rewrite EBU.
      + intros k K. assert (K' := K). rewrite EBi in K'. destruct (AG i k (or_introl eq_refl) K) as (f & z & F & Z & Dz & Pz). rewrite E in F. injection F as <-.
        split; auto. exists z, (set_bstop (ex x y) z). rewrite X4, B5, K'. csplit; auto. now apply nth_upd_same.
      + intros k K. rewrite EBi in K. split; auto. rewrite X4, B5. destruct (e_bound x) as [k'|]; auto. apply nth_upd_other. congruence.
      + intros j k. rewrite EBU. split; [|tauto]. intros Q. split; auto. intros _. unfold gone. rewrite E. destruct (nth_error vs (e_vtop x)); auto. now rewrite (proj2 (Reqb_false _ _) Ey).
      + intros x0 z. rewrite X5, B3. unfold tip. rewrite E, (proj2 (Reqb_false _ _) Ey). lia.
  Qed.
End Top.
