(** Insertion and sorting keep the active edges in their order from left to right. *)
From Coq Require Import ZArith Bool List Reals Lra Lia Sorted Permutation.
From Verif Require Import Outcome Num Order OrdTac Rmath RTac Segment VState VAel VOut VMain VLemmas VFrame RingSpec LineSpec ClimbSpec AelSpec VAelProofs VEdges VAelRun VRun VClimb SortProofs
  SpanSpec SpanRing SpanTop PlaneSpec PlaneGeo.
Import ListNotations.
Local Open Scope R_scope.
Local Open Scope out.

(** All the changed x are in the tidied list. *)
Lemma tidy_in (xs : list R) x : In x (tidy_changes xs) <-> In x xs.
Proof.
  unfold tidy_changes. split; intros H.
  - apply unique_by_sub in H. eapply Permutation_in; [symmetry; apply sort_by_perm|exact H].
  - destruct (unique_by_rep n_eqb (fun z => z = x) (sort_by n_ltb xs) x) as (z & Hz & ->); auto.
    + intros a b E ->. rops. now rbool.
    + eapply Permutation_in; [apply sort_by_perm|exact H].
Qed.
Lemma tidy_sorted (xs : list R) : StronglySorted Rle (tidy_changes xs).
Proof.
  assert (S : StronglySorted nle (sort_by n_ltb xs)) by (apply sort_num_sorted; apply Forall_forall; intros; exact I).
  unfold tidy_changes. apply (unique_by_sorted n_eqb) in S. revert S. generalize (unique_by n_eqb (sort_by n_ltb xs)).
  induction 1; constructor; auto. eapply Forall_impl; [|exact H]. intros z Hz. unfold nle in Hz. rops. now rbool.
Qed.
Lemma ordered_R (es : list (edge R)) l : ordered es l <-> ForallOrdPairs (fun i j => forall e f, nth_error es i = Some e -> nth_error es j = Some f -> e_x e <= e_x f) l.
Proof.
  unfold ordered. split; induction 1 as [|i l F _ IH]; constructor; auto; (eapply Forall_impl; [|exact F]); intros j K e f E G; specialize (K e f E G).
  - rops. now rbool.
  - rops. now apply Rleb_true.
Qed.

(** Every edge at a changed x is taken out. *)
Lemma take_changed_all fuel : forall (s : clipper R) xs c acc a b s' r,
  active s (a ++ b) -> c = hd_or b None -> StronglySorted Rle xs -> ordered (edges s) b -> take_changed fuel s xs c acc = Ok (s', r) ->
  (forall j, In j acc -> In j r) /\ forall j e, In j b -> nth_error (edges s) j = Some e -> In (e_x e) xs -> In j r.
Proof.
  induction fuel; intros s xs c acc a b s' r HA Hc SX OR H.
  { cbn [take_changed] in H. destruct xs as [|x xs]; [binvs; split; auto; contradiction|]. destruct b as [|i b]; cbn [hd_or] in Hc; subst c; [binvs; split; auto; contradiction|discriminate]. }
  cbn [take_changed] in H. destruct xs as [|x xs]; [binvs; split; auto; contradiction|].
  destruct b as [|i b]; cbn [hd_or] in Hc; subst c; [binvs; split; auto; contradiction|].
  destruct (active_split s a i b HA) as (e & E1 & E2 & E3). binv H. apply at_ok in E. rewrite E1 in E. injection E as <-.
  pose proof OR as OR'. apply ordered_R in OR. inversion OR as [|? ? O1 O2]; subst. rewrite Forall_forall in O1.
  apply StronglySorted_inv in SX as [SX1 SX2]. rewrite Forall_forall in SX2.
  rops. destruct (Reqb (e_x e) x) eqn:Q; rbool.
  - apply bind_ok in H as (s1 & F1 & H). apply bind_ok in H as (s2 & F2 & H). apply bind_ok in H as (s3 & F3 & H).
    apply bmod_opt_edges in F1 as [F1 F1a]. apply emod_ok in F2 as [_ ->].
    assert (A2 : active (w_edges s1 (upd (edges s1) i (set_ebound None))) (a ++ i :: b)).
    { apply (active_bound s); auto. cbn. rewrite F1. apply erel_upd; [apply pre_bound|intros []; reflexivity]. }
    apply (take_from_ael_ok _ a i b) in F3 as [F3 F4]; auto.
    assert (RL : erel same_but_links (edges s) (edges s3)).
    { destruct F4 as [F4 _]. eapply erel_trans; [apply pre_links| |eapply erel_mono; [apply edge_links|exact F4]]. cbn. rewrite F1.
      apply erel_upd; [apply pre_links|intros []; reflexivity]. }
    rewrite E3 in H. eapply IHfuel in H as [K1 K2]; [|exact F3|reflexivity| |].
    + split; [intros j Hj; apply K1; apply in_or_app; auto|]. intros j f [<-|Hj] F G; [apply K1; apply in_or_app; right; now left|].
      destruct (proj2 RL j f F) as (f' & F' & S). apply (K2 j f' Hj F'). rewrite (same_links_x _ _ S). exact G.
    + constructor; auto. now apply Forall_forall.
    + eapply (ordered_rel same_but_links (edges s)); [apply same_links_x|exact RL| |].
      * intros j Hj. eapply active_in; [exact HA|]. apply in_or_app. right. now right.
      * now apply ordered_R.
  - destruct (Rltb x (e_x e)) eqn:L; rbool.
    + destruct (IHfuel _ _ _ _ _ _ _ _ HA eq_refl SX1 OR' H) as [K1 K2]. split; auto. intros j f Hj F [G|G]; eauto.
      exfalso. destruct Hj as [<-|Hj]; [rewrite E1 in F; injection F as <-; lra|]. specialize (O1 j Hj e f E1 F). lra.
    + rewrite E3 in H. replace (a ++ i :: b) with ((a ++ [i]) ++ b) in HA by (rewrite <- app_assoc; reflexivity).
      destruct (IHfuel s (x :: xs) _ acc _ _ s' r HA eq_refl) as [K1 K2]; auto.
      * constructor; auto. now apply Forall_forall.
      * now apply ordered_R.
      * split; auto. intros j f [<-|Hj] F G; eauto. exfalso. rewrite E1 in F. injection F as <-.
        destruct G as [G|G]; [congruence|]. specialize (SX2 _ G). lra.
Qed.

Lemma in_mid {A} (a b : list A) x j : In j (a ++ x :: b) -> In j (x :: a ++ b).
Proof. intros H. cbn. rewrite in_app_iff in *. cbn in H. tauto. Qed.
(** *** Order *)
Definition same_line (e f : edge R) : Prop := e_bot f = e_bot e /\ e_top f = e_top e.
Lemma before_same y e f e' f' : same_line e e' -> same_line f f' -> before y e f -> before y e' f'.
Proof. intros [A B] [C D] K z. unfold ex. rewrite A, B, C, D. apply K. Qed.
Lemma sorted_rel (Q : edge R -> edge R -> Prop) y es fs l : (forall e f, Q e f -> same_line e f) -> erel Q es fs ->
  (forall j, In j l -> exists e, nth_error es j = Some e) -> sorted y es l -> sorted y fs l.
Proof.
  intros HR [_ HE] X H. unfold sorted in *. induction l as [|i l IH]; constructor; inversion H; subst.
  - rewrite Forall_forall in *. intros j Hj e f E F.
    destruct (X i) as [e0 E0]; [simpl; auto|]. destruct (X j) as [f0 F0]; [simpl; auto|].
    destruct (HE i e0 E0) as (e1 & E1 & R1). destruct (HE j f0 F0) as (f1 & F1 & R2). rewrite E in E1. rewrite F in F1. injection E1 as <-. injection F1 as <-.
    eapply before_same; eauto.
  - apply IH; auto. intros; apply X; simpl; auto.
Qed.
Lemma links_line e f : same_but_links (T := R) e f -> same_line e f.
Proof. intros ->. split; reflexivity. Qed.
Lemma edge_line e f : same_edge (T := R) e f -> same_line e f.
Proof. intros ->. split; reflexivity. Qed.
Lemma bound_line e f : same_but_bound (T := R) e f -> same_line e f.
Proof. intros ->. split; reflexivity. Qed.
Lemma count_line e f : same_but_count (T := R) e f -> same_line e f.
Proof. intros ->. split; reflexivity. Qed.
Lemma sorted_perm_higher y y' es l : y <= y' -> sorted y es l -> sorted y' es l.
Proof.
  intros L H. unfold sorted in *. induction H as [|i l F _ IH]; constructor; auto. eapply Forall_impl; [|exact F].
  intros j K e f E G. eapply before_higher; eauto.
Qed.

Section Sort.
  Variable vs : list (vertex R).
  Variables P M : nat -> Prop.
  Hypothesis MK : marked vs P M.
  Hypothesis PL : plane vs P M.
  Variable y : R.
  Notation here := (here vs P y).
  Implicit Types s : clipper R.
  Definition all_here (es : list (edge R)) (l : list nat) : Prop := forall i, In i l -> exists e, nth_error es i = Some e /\ here e.
  Definition differ (es : list (edge R)) (l : list nat) : Prop := NoDup (map (side_of es) l).

  Lemma differ_ne es l i j e f : differ es l -> In i l -> In j l -> i <> j -> nth_error es i = Some e -> nth_error es j = Some f -> edge_side e <> edge_side f.
  Proof.
    unfold differ. induction l as [|k l IH]; intros D Hi Hj NE E F Q; [contradiction|]. cbn in D. inversion D as [|? ? D1 D2]; subst.
    assert (G : forall a b ea eb, a = k -> In b l -> nth_error es a = Some ea -> nth_error es b = Some eb -> edge_side ea = edge_side eb -> False).
    { intros a b ea eb -> Hb Ea Eb K. apply D1. apply in_map_iff. exists b. split; auto. unfold side_of. now rewrite Ea, Eb. }
    destruct Hi as [Ki|Hi]; destruct Hj as [Kj|Hj]; [congruence|apply (G i j e f); auto|apply (G j i f e); auto|exact (IH D2 Hi Hj NE E F Q)].
  Qed.
  Lemma differ_perm es l l' : Permutation l l' -> differ es l -> differ es l'.
  Proof. intros H. unfold differ. apply Permutation_NoDup. now apply Permutation_map. Qed.
  Lemma all_here_perm es l l' : Permutation l l' -> all_here es l -> all_here es l'.
  Proof. intros H K i Hi. apply K. eapply Permutation_in; [symmetry; exact H|exact Hi]. Qed.
  (** the parts of an edge that matter here are its side and its x *)
  Definition same_spot (e f : edge R) : Prop := same_way e f /\ e_x f = e_x e.
  Lemma here_spot e f : same_spot e f -> here e -> here f.
  Proof.
    intros [W X] ((( Pl & C & L) & B) & E). pose proof W as (A1 & A2 & A3 & A4). unfold PlaneGeo.here, over, rises, ex in *. rewrite A1, A4, X.
    assert (placed vs P f) by (eapply placed_same; eauto). assert (climbing vs f) by (eapply climbing_same; eauto). tauto.
  Qed.
  Lemma all_here_rel (Q : edge R -> edge R -> Prop) es fs l : (forall e f, Q e f -> same_spot e f) -> erel Q es fs -> all_here es l -> all_here fs l.
  Proof. intros HQ [_ H] A i Hi. destruct (A i Hi) as (e & E & K). destruct (H i e E) as (f & F & S). exists f. split; auto. eapply here_spot; eauto. Qed.
  Lemma differ_rel (Q : edge R -> edge R -> Prop) es fs l : (forall e f, Q e f -> same_spot e f) -> erel Q es fs -> (forall j, In j l -> exists e, nth_error es j = Some e) -> differ es l -> differ fs l.
  Proof.
    intros HQ [_ H] A D. unfold differ in *. erewrite map_ext_in; [exact D|]. intros i Hi. destruct (A i Hi) as (e & E). destruct (H i e E) as (f & F & S).
    unfold side_of. rewrite E, F. apply HQ in S as [(S1 & S2 & S3 & _) _]. unfold edge_side, edge_up. now rewrite S2, S3.
  Qed.
  Lemma links_spot e f : same_but_links (T := R) e f -> same_spot e f.
  Proof. intros ->. unfold same_spot, same_way. csplit; reflexivity. Qed.
  Lemma edge_spot e f : same_edge (T := R) e f -> same_spot e f.
  Proof. intros ->. unfold same_spot, same_way. csplit; reflexivity. Qed.
  Lemma bound_spot e f : same_but_bound (T := R) e f -> same_spot e f.
  Proof. intros ->. unfold same_spot, same_way. csplit; reflexivity. Qed.
  Lemma count_spot e f : same_but_count (T := R) e f -> same_spot e f.
  Proof. intros ->. unfold same_spot, same_way. csplit; reflexivity. Qed.
  Lemma here_get es l i e : all_here es l -> In i l -> nth_error es i = Some e -> here e.
  Proof. intros A Hi E. destruct (A i Hi) as (e' & E' & K). congruence. Qed.

  Lemma sorted_between es l1 nw l2 nc : sorted y es (l1 ++ l2) -> nth_error es nw = Some nc -> all_here es (nw :: l1 ++ l2) -> differ es (nw :: l1 ++ l2) -> ~ In nw (l1 ++ l2) ->
    (forall j, In j l1 -> exists e, nth_error es j = Some e /\ before y e nc) ->
    match l2 with [] => True | j :: _ => exists e, nth_error es j = Some e /\ before y nc e end ->
    sorted y es (l1 ++ nw :: l2).
  Proof.
    unfold sorted. intros S Nw AH D NI B A. apply fop_app in S as (S1 & S2 & S3). apply fop_app. csplit; auto.
    - constructor; auto. apply Forall_forall. intros j Hj e f E F. rewrite Nw in E. injection E as <-. destruct l2 as [|k l2]; [contradiction|]. destruct A as (g & G & A).
      destruct Hj as [->|Hj]; [rewrite G in F; injection F as <-; exact A|]. inversion S2 as [|? ? S4 _]; subst. rewrite Forall_forall in S4.
      assert (Hk : In k (nw :: l1 ++ k :: l2)) by (right; apply in_or_app; right; now left). assert (Hj' : In j (nw :: l1 ++ k :: l2)) by (right; apply in_or_app; right; now right).
      apply (before_trans vs P M PL y nc g f); auto; try (apply (here_get es (nw :: l1 ++ k :: l2)); auto; fail).
      + exact (proj1 (here_get es _ nw nc AH (or_introl eq_refl) Nw)).
      + exact (proj1 (here_get es _ k g AH Hk G)).
      + exact (proj1 (here_get es _ j f AH Hj' F)).
      + eapply (differ_ne es (nw :: l1 ++ k :: l2) nw j); eauto; [now left|]. intros ->. apply NI. apply in_or_app. right. now right.
      + apply (S4 j Hj g f G F).
    - intros i j Hi [<-|Hj] e f E F; [|exact (S3 i j Hi Hj e f E F)]. rewrite Nw in F. injection F as <-. destruct (B i Hi) as (e' & E' & K). rewrite E in E'. injection E' as <-. exact K.
  Qed.
  Lemma insert_sorted s l nw s' : verts s = vs -> active s l -> ~ In nw l -> sorted y (edges s) l -> all_here (edges s) (nw :: l) -> differ (edges s) (nw :: l) ->
    insert_into_ael s nw = Ok s' -> exists l1 l2, l = l1 ++ l2 /\ active s' (l1 ++ nw :: l2) /\ sorted y (edges s') (l1 ++ nw :: l2) /\ only_links s s'.
  Proof.
    intros HV HA Hn SO AH D H. destruct (insert_into_ael_ok s l nw s' HA Hn H) as (l1 & l2 & nc & -> & K1 & K2 & K3 & K4 & K5). exists l1, l2. csplit; auto.
    assert (Hw : here nc) by (apply (here_get _ _ nw nc AH); [now left|auto]).
    assert (G : forall j e, In j (l1 ++ l2) -> nth_error (edges s) j = Some e -> here e /\ edge_side e <> edge_side nc).
    { intros j e Hj E. split; [apply (here_get _ _ j e AH); auto; now right|]. eapply (differ_ne _ _ j nw); eauto; [now right|now left|]. intros ->. contradiction. }
    eapply (sorted_rel same_edge); [apply edge_line|apply K2| |].
    - intros j Hj. assert (K : In j (nw :: l1 ++ l2)) by now apply in_mid. destruct (AH j K) as (e & E & _). eauto.
    - eapply sorted_between; eauto.
      + intros j Hj. destruct (K4 j Hj) as (e & E & V). exists e. split; auto. destruct (G j e) as [G1 G2]; auto; [apply in_or_app; auto|].
        apply (valid_order_before vs P M PL y s e nc true); auto.
      + destruct l2 as [|j l2]; auto. destruct K5 as (e & E & V). exists e. split; auto. destruct (G j e) as [G1 G2]; auto; [apply in_or_app; right; now left|].
        apply (valid_order_before vs P M PL y s e nc false); auto.
  Qed.
  Lemma insert_after_sorted s a r b nw s' er enw : verts s = vs -> active s (a ++ r :: b) -> ~ In nw (a ++ r :: b) ->
    sorted y (edges s) (a ++ r :: b) -> all_here (edges s) (nw :: a ++ r :: b) -> differ (edges s) (nw :: a ++ r :: b) ->
    nth_error (edges s) r = Some er -> nth_error (edges s) nw = Some enw -> before y er enw -> insert_after s r nw = Ok s' ->
    exists b1 b2, r :: b = b1 ++ b2 /\ active s' (a ++ b1 ++ nw :: b2) /\ sorted y (edges s') (a ++ b1 ++ nw :: b2) /\ only_links s s'.
  Proof.
    intros HV HA Hn SO AH D Hr Hw Hb H.
    destruct (insert_after_ok s a r b nw s' HA Hn H) as (b1 & b2 & nc & K0 & K0' & K1 & K2 & K3 & K4 & K5).
    rewrite Hw in K3. injection K3 as <-. exists b1, b2. csplit; auto.
    assert (G : forall j e, In j (a ++ r :: b) -> nth_error (edges s) j = Some e -> here e /\ edge_side e <> edge_side enw).
    { intros j e Hj E. split; [apply (here_get _ _ j e AH); auto; now right|]. eapply (differ_ne _ _ j nw); eauto; [now right|now left|]. intros ->. contradiction. }
    assert (Hnw : here enw) by (apply (here_get _ _ nw enw AH); [now left|auto]).
    assert (RB : forall j, In j (a ++ [r]) -> exists e, nth_error (edges s) j = Some e /\ before y e enw).
    { intros j Hj. apply in_app_or in Hj as [Hj|[<-|[]]]; [|eauto]. destruct (AH j) as (e & E & He); [right; apply in_or_app; auto|]. exists e. split; auto.
      apply fop_app in SO as (_ & _ & S3). specialize (S3 j r Hj (or_introl eq_refl) e er E Hr).
      destruct (G j e) as [G1 G2]; auto; [apply in_or_app; auto|]. destruct (G r er) as [G3 G4]; auto; [apply in_or_app; right; now left|].
      apply (before_trans vs P M PL y e er enw); auto; [exact (proj1 G1)|exact (proj1 G3)|exact (proj1 Hnw)]. }
    rewrite K0, !app_assoc in *.
    eapply (sorted_rel same_edge); [apply edge_line|apply K2| |].
    - intros j Hj. assert (K : In j (nw :: (a ++ b1) ++ b2)) by now apply in_mid. destruct (AH j K) as (e & E & _). eauto.
    - eapply sorted_between; eauto.
      + intros j Hj. destruct b1 as [|x b1]; [congruence|]. cbn [app] in K0. injection K0 as <- K0. cbn [tl] in K4.
        apply in_app_or in Hj as [Hj|[<-|Hj]]; [apply RB, in_or_app; auto|apply RB, in_or_app; right; now left|].
        destruct (K4 j Hj) as (e & E & V). exists e. split; auto. destruct (G j e) as [G1 G2]; auto; [rewrite !in_app_iff; cbn; auto|].
        apply (valid_order_before vs P M PL y s e enw true); auto.
      + destruct b2 as [|j b2]; auto. destruct K5 as (e & E & V). exists e. split; auto. destruct (G j e) as [G1 G2]; auto; [apply in_or_app; right; now left|].
        apply (valid_order_before vs P M PL y s e enw false); auto.
  Qed.
  Lemma insert_left_sorted s l1 l2 nw s' : verts s = vs -> active s (l1 ++ l2) -> ~ In nw (l1 ++ l2) ->
    sorted y (edges s) (l1 ++ l2) -> all_here (edges s) (nw :: l1 ++ l2) -> differ (edges s) (nw :: l1 ++ l2) ->
    (forall p ep enw, last_or None l1 = Some p -> nth_error (edges s) p = Some ep -> nth_error (edges s) nw = Some enw -> before y ep enw) ->
    insert_into_ael_left s (last_or None l1) nw = Ok s' ->
    exists m1 m2, l1 ++ l2 = m1 ++ m2 /\ active s' (m1 ++ nw :: m2) /\ sorted y (edges s') (m1 ++ nw :: m2) /\ only_links s s'.
  Proof.
    intros HV HA Hn SO AH D Hle H. destruct (snoc_cases l1) as [->|(a & p & ->)].
    - destruct (insert_sorted s l2 nw s' HV HA Hn SO AH D H) as (m1 & m2 & K). exists m1, m2. exact K.
    - rewrite last_or_snoc in *. cbn [insert_into_ael_left] in H. rewrite <- app_assoc in *. cbn [app] in *.
      destruct (active_in s _ p HA) as [ep Ep]; [apply in_or_app; simpl; auto|].
      destruct (AH nw) as (enw & Enw & _); [now left|].
      destruct (insert_after_sorted s a p l2 nw s' ep enw) as (b1 & b2 & K1 & K2 & K3 & K4); auto.
      { eapply Hle; eauto. }
      exists (a ++ b1), b2. rewrite <- !app_assoc, K1. auto.
  Qed.
  Lemma insert_all_sorted t : forall s k s', verts s = vs -> active s k -> NoDup (t ++ k) -> sorted y (edges s) k -> all_here (edges s) (t ++ k) -> differ (edges s) (t ++ k) ->
    insert_all s t = Ok s' -> exists l, Permutation (t ++ k) l /\ active s' l /\ sorted y (edges s') l /\ erel same_edge (edges s) (edges s').
  Proof.
    induction t as [|i t IH]; intros s k s' HV HA ND SO AH D H; simpl in H.
    - binvs. exists k. csplit; auto. apply same_edges_refl.
    - binv H. simpl in ND. inversion ND; subst. assert (Hi : ~ In i k) by (intros K; apply H2; apply in_or_app; auto).
      assert (AS : all_here (edges s) (i :: k)). { intros j Hj. apply AH. destruct Hj as [<-|Hj]; [now left|right; apply in_or_app; auto]. }
      assert (DS : differ (edges s) (i :: k)).
      { unfold differ in *. cbn [map app] in *. inversion D as [|? ? D1 D2]; subst. rewrite map_app in *. constructor; [intros K; apply D1; apply in_or_app; auto|].
        clear - D2. induction (map (side_of (edges s)) t); auto. cbn in D2. inversion D2; auto. }
      destruct (insert_sorted s k i x HV HA Hi SO AS DS E) as (l1 & l2 & K1 & K2 & K3 & K4).
      assert (Q1 : Permutation (i :: k) (l1 ++ i :: l2)) by (rewrite K1; apply Permutation_middle).
      assert (Q : Permutation ((i :: t) ++ k) (t ++ l1 ++ i :: l2)) by (rewrite <- Q1; simpl; apply Permutation_middle).
      assert (HV' : verts x = vs) by (destruct K4 as [_ ->]; exact HV).
      destruct (IH x _ s' HV' K2) as (l & L1 & L2 & L3 & L4); auto.
      + eapply Permutation_NoDup; [|exact ND]. exact Q.
      + eapply (all_here_rel same_edge); [apply edge_spot|apply K4|]. eapply all_here_perm; eauto.
      + eapply (differ_rel same_edge); [apply edge_spot|apply K4| |eapply differ_perm; eauto].
        intros j Hj. destruct (AH j) as (e & Ej & _); eauto. eapply Permutation_in; [symmetry; exact Q|exact Hj].
      + exists l. csplit; auto.
        * now rewrite Q.
        * eapply same_edges_trans; [apply K4|exact L4].
  Qed.
  Lemma resort_sorted s l s' : verts s = vs -> active s l -> ordered (edges s) l -> all_here (edges s) l -> differ (edges s) l ->
    (forall i j e f, In i l -> In j l -> i <> j -> nth_error (edges s) i = Some e -> nth_error (edges s) j = Some f -> e_x e = e_x f -> In (e_x e) (changes s)) ->
    resort_ael s = Ok s' ->
    exists l', Permutation l l' /\ active s' l' /\ sorted y (edges s') l' /\ erel same_but_links (edges s) (edges s').
  Proof.
    intros HV HA HO AH D CH H. pose proof (resort_ael_ok s l s' HA H) as (_ & _ & _ & RL).
    unfold resort_ael in H. binv H. destruct x as [s1 t].
    set (s0 := w_changes s (tidy_changes (changes s))) in *.
    assert (HA' : active s0 ([] ++ l)) by exact HA.
    destruct (take_changed_ok _ _ _ _ _ _ _ _ _ HA' (proj1 HA') E) as (t' & k & K1 & K2 & K3 & _ & K4 & K5). simpl in K1; subst t'.
    assert (TA : forall j e, In j l -> nth_error (edges s0) j = Some e -> In (e_x e) (changes s0) -> In j t).
    { apply (take_changed_all _ s0 _ _ [] [] l s1 t HA' (proj1 HA') (tidy_sorted _) HO E). }
    assert (S : forall j, In j k -> In j l).
    { intros j Hj. eapply Permutation_in; [symmetry; exact K2|]. apply in_or_app; auto. }
    assert (ND : NoDup (t ++ k)) by (eapply Permutation_NoDup; [exact K2|]; apply HA).
    assert (NT : forall j, In j k -> ~ In j t).
    { intros j Hj Ht. clear - ND Hj Ht. induction t as [|a t IH]; [contradiction|]. cbn in ND. inversion ND; subst. destruct Ht as [->|Ht]; [apply H1; apply in_or_app; auto|auto]. }
    assert (HV1 : verts s1 = vs).
    { rewrite <- HV. assert (G : verts s' = verts s1).
      { clear - H. revert s1 H. induction t as [|i t IH]; intros s1 H; cbn in H; [binvs; auto|]. binv H. apply IH in H. apply insert_into_ael_frame in E as (E & _). unfold VFrame.fin in E. congruence. }
      assert (G' : verts s' = verts s).
      { assert (H' : resort_ael s = Ok s') by (unfold resort_ael; fold s0; rewrite E; exact H). apply resort_ael_frame in H' as (H' & _). unfold VFrame.fin in H'. congruence. }
      congruence. }
    assert (AH1 : all_here (edges s1) (t ++ k)).
    { eapply (all_here_rel same_but_links); [apply links_spot|exact K5|]. eapply all_here_perm; [exact K2|exact AH]. }
    destruct (insert_all_sorted t s1 k s' HV1 K4 ND) as (l' & L1 & L2 & L3 & L4); auto.
    - eapply (sorted_rel same_but_links); [apply links_line|exact K5| |].
      + intros j Hj. destruct (AH j) as (e & Ej & _); eauto.
      + assert (OK : ordered (edges s) k) by (eapply fop_subseq; eauto). apply ordered_R in OK. assert (NK : NoDup k) by (clear - ND; induction t; auto; cbn in ND; inversion ND; auto).
        clear - OK AH D CH PL NT S TA HV NK. change (edges s0) with (edges s) in *. unfold sorted. induction OK as [|i k F _ IH]; constructor.
        * rewrite Forall_forall in *. intros j Hj e f Ei Ej. specialize (F j Hj e f Ei Ej). inversion NK as [|? ? N1 _]; subst.
          assert (Hi : here e) by (apply (here_get _ _ i e AH); auto; apply S; now left). assert (Hj' : here f) by (apply (here_get _ _ j f AH); auto; apply S; now right).
          assert (NE : i <> j) by (intros ->; contradiction).
          apply (lt_before vs P M PL); [apply Hi|apply Hj'|eapply (differ_ne _ l i j); eauto; apply S; cbn; auto|].
          rewrite <- (proj2 Hi), <- (proj2 Hj'). destruct (Rle_lt_or_eq_dec _ _ F) as [|Q]; auto. exfalso.
          apply (NT i); [now left|]. apply (TA i e); auto; [apply S; now left|]. cbn [changes w_changes s0]. apply tidy_in. eapply (CH i j e f); eauto; apply S; cbn; auto.
        * inversion NK; subst. apply IH; auto; intros; [apply S|apply NT]; now right.
    - eapply (differ_rel same_but_links); [apply links_spot|exact K5| |eapply differ_perm; [exact K2|exact D]].
      intros j Hj. destruct (AH j) as (e & Ej & _); eauto. eapply Permutation_in; [symmetry; exact K2|exact Hj].
    - exists l'. csplit; auto. now rewrite K2.
  Qed.
End Sort.
