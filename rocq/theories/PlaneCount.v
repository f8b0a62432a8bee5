(** Winding counts as sums of directions, and how a beam changes them. *)
From Coq Require Import ZArith Bool List Reals Lra Lia Permutation Sorted.
From Verif Require Import Outcome Num Order OrdTac Rmath RTac Segment VState VAel VOut VMain VLemmas VFrame RingSpec LineSpec ClimbSpec AelSpec VAelProofs VEdges VAelRun VRun VClimb SortProofs
  ClipSpec WindSpec VWind SpanSpec SpanRing SpanTop SpanStep SpanRun PlaneSpec PlaneGeo PlaneSort PlaneTop PlaneRun.
Import ListNotations.
Local Open Scope Z_scope.
Local Open Scope out.

(** *** Sums *)
Definition zsum {A} (f : A -> Z) (l : list A) : Z := fold_right (fun a z => f a + z) 0 l.
Lemma zsum_app {A} (f : A -> Z) a b : zsum f (a ++ b) = zsum f a + zsum f b.
Proof. induction a as [|x a IH]; cbn; [reflexivity|]. fold (zsum f (a ++ b)). fold (zsum f a). rewrite IH. lia. Qed.
Lemma zsum_cons {A} (f : A -> Z) x a : zsum f (x :: a) = f x + zsum f a.
Proof. reflexivity. Qed.
Lemma zsum_perm {A} (f : A -> Z) a b : Permutation a b -> zsum f a = zsum f b.
Proof. induction 1; rewrite ?zsum_cons; lia. Qed.
Lemma zsum_ext {A} (f g : A -> Z) l : (forall a, In a l -> f a = g a) -> zsum f l = zsum g l.
Proof. induction l as [|x l IH]; intros H; [reflexivity|]. rewrite !zsum_cons, (H x (or_introl eq_refl)), IH; [reflexivity|]. intros a Ha. apply H. now right. Qed.
Lemma zsum_0 {A} (f : A -> Z) l : (forall a, In a l -> f a = 0) -> zsum f l = 0.
Proof. induction l as [|x l IH]; intros H; [reflexivity|]. rewrite zsum_cons, (H x (or_introl eq_refl)), IH; [reflexivity|]. intros a Ha. apply H. now right. Qed.
Lemma zsum_map {A B} (f : B -> Z) (g : A -> B) l : zsum f (map g l) = zsum (fun a => f (g a)) l.
Proof. induction l; cbn; auto. f_equal. auto. Qed.
Lemma zsum_opp {A} (f : A -> Z) l : zsum (fun a => - f a) l = - zsum f l.
Proof. induction l as [|x l IH]; [reflexivity|]. rewrite !zsum_cons, IH. lia. Qed.
(** A sum over pairs of opposite terms *)
Lemma zsum_pairs {A} (f : A -> Z) (g : A -> A) l : NoDup l -> (forall a, g (g a) = a) -> (forall a, In a l -> In (g a) l) -> (forall a, In a l -> f (g a) = - f a) -> zsum f l = 0.
Proof.
  intros ND I C O. assert (Pm : Permutation l (map g l)).
  { apply NoDup_Permutation; auto.
    - apply FinFun.Injective_map_NoDup; auto. intros a b E. rewrite <- (I a), <- (I b). now f_equal.
    - intros a. split.
      + intros H. apply in_map_iff. exists (g a). auto.
      + intros H. apply in_map_iff in H as (b & <- & Hb). auto. }
  pose proof (zsum_perm f _ _ Pm) as E. rewrite zsum_map, (zsum_ext (fun a => f (g a)) (fun a => - f a)), zsum_opp in E by auto. lia.
Qed.
(** The sum over the members left of [x] *)
Definition before_x (X : nat -> R) (W : nat -> Z) (x : R) (i : nat) : Z := if Rltb (X i) x then W i else 0.
Definition left_sum (X : nat -> R) (W : nat -> Z) (l : list nat) (x : R) : Z := zsum (before_x X W x) l.
Lemma left_sum_prefix X W a i b : ForallOrdPairs (fun j k => (X j <= X k)%R) (a ++ i :: b) -> NoDup (a ++ i :: b) -> (forall j, In j (a ++ i :: b) -> j <> i -> X j <> X i) ->
  zsum W a = left_sum X W (a ++ i :: b) (X i).
Proof.
  intros O ND U. unfold left_sum. rewrite zsum_app, zsum_cons. apply fop_app in O as (_ & O2 & O3). inversion O2 as [|? ? O4 _]; subst. rewrite Forall_forall in O4.
  assert (Ni : ~ In i (a ++ b)) by (now apply NoDup_remove_2). rewrite in_app_iff in Ni.
  rewrite (zsum_0 _ b).
  - rewrite (zsum_ext W (before_x X W (X i)) a).
    + assert (Q : before_x X W (X i) i = 0) by (unfold before_x; rewrite (proj2 (Rltb_false _ _)); auto; lra). lia.
    + intros j Hj. unfold before_x. rewrite (proj2 (Rltb_true _ _)); [reflexivity|]. specialize (O3 j i Hj (or_introl eq_refl)). assert (X j <> X i) by (apply U; [apply in_or_app; auto|intros ->; tauto]). lra.
  - intros j Hj. unfold before_x. rewrite (proj2 (Rltb_false _ _)); [reflexivity|]. specialize (O4 j Hj). lra.
Qed.

(** *** Weights of edges *)
Section Weights.
  Variable lms : list lmin.
  Implicit Types es : list (edge R).
  Definition wt (t : path_type) (e : edge R) : Z :=
    match nth_error lms (e_lmin e) with Some m => if ptype_eqb (lm_type m) t then e_dx e else 0 | None => 0 end.
  Definition wtof es (t : path_type) (i : nat) : Z := match nth_error es i with Some e => wt t e | None => 0 end.
  Definition xnow es (i : nat) : R := match nth_error es i with Some e => e_x e | None => 0%R end.
  Definition fits (fill : fill_rule) (e : edge R) (w v : Z) : Prop :=
    match fill with even_odd => e_cnt e = e_dx e /\ e_cnt2 e = v mod 2 | _ => e_cnt e = deeper w (w + e_dx e) /\ e_cnt2 e = v end.
  (** No other edge is at the x of [i], and its counts are right. *)
  Definition alone (X : nat -> R) (l : list nat) (i : nat) : Prop := forall j, In j l -> j <> i -> X j <> X i.
  Definition right_at fill es l i : Prop := alone (xnow es) l i /\ forall e m, nth_error es i = Some e -> nth_error lms (e_lmin e) = Some m ->
    fits fill e (left_sum (xnow es) (wtof es (lm_type m)) l (e_x e)) (left_sum (xnow es) (wtof es (other (lm_type m))) l (e_x e)).
  Lemma wind_sum (s : clipper R) t l w : lmins s = lms -> wind s t l w -> w = zsum (wtof (edges s) t) l.
  Proof.
    intros HL. induction 1 as [|i l w d (e & m & A & B & C & D) _ IH|i l w d (e & m & A & B & C & D) _ IH]; [reflexivity| |]; rewrite zsum_cons, <- IH; unfold wtof at 1; rewrite A; unfold wt; rewrite <- HL, B, C.
    - now rewrite ptype_eqb_refl, D.
    - now rewrite ptype_eqb_other.
  Qed.
  Lemma counted_fits fill (s : clipper R) l i e m : lmins s = lms -> directed s l -> nth_error (edges s) i = Some e -> nth_error lms (e_lmin e) = Some m -> counted fill s l i ->
    fits fill e (zsum (wtof (edges s) (lm_type m)) l) (zsum (wtof (edges s) (other (lm_type m))) l).
  Proof.
    intros HL D E Em C. destruct (wind_ex s (lm_type m) l D) as [w Hw]. destruct (wind_ex s (other (lm_type m)) l D) as [v Hv].
    assert (K : edge_is s i (lm_type m) (e_dx e)) by (exists e, m; rewrite HL; auto).
    specialize (C e _ _ w v E K Hw Hv). rewrite <- (wind_sum s _ l w HL Hw), <- (wind_sum s _ l v HL Hv). destruct fill; exact C.
  Qed.
  Lemma fits_counted fill (s : clipper R) l i : lmins s = lms ->
    (forall e m, nth_error (edges s) i = Some e -> nth_error lms (e_lmin e) = Some m -> fits fill e (zsum (wtof (edges s) (lm_type m)) l) (zsum (wtof (edges s) (other (lm_type m))) l)) ->
    counted fill s l i.
  Proof.
    intros HL F e t d w v E (e' & m & E' & Em & <- & <-) Hw Hv. rewrite E in E'. injection E' as <-. rewrite HL in Em. specialize (F e m E Em).
    rewrite (wind_sum s _ l w HL Hw), (wind_sum s _ l v HL Hv). destruct fill; exact F.
  Qed.
  Lemma right_counted fill (s : clipper R) a i b : lmins s = lms -> ForallOrdPairs (fun j k => (xnow (edges s) j <= xnow (edges s) k)%R) (a ++ i :: b) -> NoDup (a ++ i :: b) ->
    right_at fill (edges s) (a ++ i :: b) i -> counted fill s a i.
  Proof.
    intros HL O ND [A F]. apply fits_counted; auto. intros e m E Em. specialize (F e m E Em). assert (X : xnow (edges s) i = e_x e) by (unfold xnow; now rewrite E).
    rewrite <- X, <- !left_sum_prefix in F; auto.
  Qed.
  (** Edges that differ in links and bounds only *)
  Lemma xnow_rel (Q : edge R -> edge R -> Prop) es fs i : (forall e f, Q e f -> same_but_links e f) -> erel Q es fs -> (i < length es)%nat -> xnow fs i = xnow es i.
  Proof. intros K [L H] Hi. destruct (nth_error es i) as [e|] eqn:E; [|apply nth_error_None in E; lia]. destruct (H i e E) as (f & F & S). apply K in S. unfold xnow. rewrite E, F. now rewrite S. Qed.
  Lemma wtof_rel (Q : edge R -> edge R -> Prop) es fs t i : (forall e f, Q e f -> same_but_links e f) -> erel Q es fs -> (i < length es)%nat -> wtof fs t i = wtof es t i.
  Proof. intros K [L H] Hi. destruct (nth_error es i) as [e|] eqn:E; [|apply nth_error_None in E; lia]. destruct (H i e E) as (f & F & S). apply K in S. unfold wtof. rewrite E, F. unfold wt. now rewrite S. Qed.
  Lemma left_sum_ext X X' W W' l x : (forall i, In i l -> X i = X' i /\ W i = W' i) -> left_sum X W l x = left_sum X' W' l x.
  Proof. intros H. apply zsum_ext. intros i Hi. destruct (H i Hi) as [A B]. unfold before_x. now rewrite A, B. Qed.
  Lemma left_sum_perm X W l l' x : Permutation l l' -> left_sum X W l x = left_sum X W l' x.
  Proof. apply zsum_perm. Qed.
  Lemma alone_dec X l i : alone X l i \/ exists j, In j l /\ j <> i /\ X j = X i.
  Proof.
    induction l as [|j l IH]; [left; intros ? []|]. destruct IH as [IH|(k & A & B & C)]; [|right; exists k; cbn; auto].
    destruct (Nat.eq_dec j i) as [->|NE]; [|destruct (Req_EM_T (X j) (X i)) as [E|E]].
    - left. intros k [<-|Hk] K; [congruence|auto].
    - right. exists j. cbn. auto.
    - left. intros k [<-|Hk] K; auto.
  Qed.
End Weights.

Section Count.
  Variable vs : list (vertex R).
  Notation Y := (height vs).
  Variables P M : nat -> Prop.
  Hypothesis MK : marked vs P M.
  Hypothesis V : vs_valid vs.
  Hypothesis PL : plane vs P M.
  Implicit Types s : clipper R.
  Implicit Types es : list (edge R).
  Variable lms : list lmin.
  Variable ms : list nat.
  Notation lv := (lv lms).
  (** The type of the contour a vertex belongs to *)
  Variable ty : nat -> path_type.
  Hypothesis ty_side : forall j k, P j -> side vs true j k -> ty j = ty k.
  (** Every edge goes up or down, and belongs to a contour of the type of its minimum. *)
  Definition known es (l : list nat) : Prop := forall i e, In i l -> nth_error es i = Some e -> (e_dx e = 1 \/ e_dx e = -1) /\ exists m, nth_error lms (e_lmin e) = Some m /\ lm_type m = ty (e_vtop e).
  Lemma ty_any fwd j k : P j -> side vs fwd j k -> ty j = ty k.
  Proof. intros Pj S. destruct fwd; auto. apply side_sym in S. cbn in S. symmetry. apply ty_side; auto. apply side_sym in S. eapply side_P; eauto. Qed.
  Lemma known_directed s l : lmins s = lms -> known (edges s) l -> (forall i, In i l -> exists e, nth_error (edges s) i = Some e) -> directed s l.
  Proof. intros HL K A i Hi. destruct (A i Hi) as (e & E). destruct (K i e Hi E) as [D (m & Em & _)]. exists (lm_type m), (e_dx e). split; auto. exists e, m. rewrite HL. auto. Qed.

  (** *** Edges that end at a maximum come in pairs *)
  Definition gone y es i : bool := match nth_error es i with Some e => match nth_error vs (e_vtop e) with Some v => Reqb (vy (e_top e)) y && v_max v | None => false end | None => false end.
  Lemma stepped_sum y es es' b b' (f f' : nat -> Z) : stepped vs y es es' b b' -> standing vs P es -> standing vs P es' -> (forall i, In i b' -> f' i = f i) -> zsum f' b' + zsum f (filter (gone y es) b) = zsum f b.
  Proof.
    induction 1 as [|i b b' e e' A B C D E F G H IH|i b b' e e' A B C D E F G H I IH|i b b' e v A B C D H IH]; intros ST ST' K; [reflexivity| | |]; cbn [filter].
    - assert (Q : gone y es i = false).
      { unfold gone. rewrite A. destruct (nth_error vs (e_vtop e)); auto. now rewrite (proj2 (Reqb_false _ _) C). }
      rewrite Q, !zsum_cons, (K i (or_introl eq_refl)), <- IH; [lia|auto..|]. intros j Hj. apply K. now right.
    - assert (Q : gone y es i = false).
      { unfold gone. rewrite A. destruct (nth_error vs (e_vtop e)) as [v|] eqn:W; auto. destruct (v_max v) eqn:X; [|apply andb_false_r]. exfalso.
        destruct (ST i e A) as [Ce Pe]. assert (Pt : P (e_vtop e)) by apply Pe. destruct (mk_max _ _ _ MK (e_vtop e) v Pt W X) as [X1 X2].
        pose proof F as F0. apply side_sym in F0. assert (X3 : comes vs true (negb (edge_up e)) (e_vtop e)) by (destruct (edge_up e); auto).
        assert (Pk : P (e_vtop e')) by (eapply side_P; eauto).
        inversion X3 as [? p S1 S2|? p S1 S2 S3]; subst.
        + assert (p = e_vtop e') by (eapply side_inj; eauto). subst p. rops. rbool.
          pose proof (top_height vs e Ce). rewrite (height_some' vs _ v W) in *. assert (vy (e_top e') = Y (e_vtop e')) by (apply top_height; apply (ST' i e' B)). lra.
        + apply (side_ne vs P M MK PL _ p (e_vtop e) (side_P' vs P M MK _ _ _ Pt S1) S1). rops. now rbool. }
      rewrite Q, !zsum_cons, (K i (or_introl eq_refl)), <- IH; [lia|auto..|]. intros j Hj. apply K. now right.
    - assert (Q : gone y es i = true).
      { unfold gone. rewrite A, C. now rewrite (proj2 (Reqb_true _ _) B), D. }
      rewrite Q, !zsum_cons, <- IH; [lia|auto..].
  Qed.

  Hypothesis ms_some : forall m, In m ms -> exists x, nth_error lms m = Some x.
  Hypothesis ms_M : forall i, M i <-> In i (map lv ms).
  Notation ready := (ready vs P lms ms).
  Notation ended := (ended vs P lms ms).
  Notation all_here := (all_here vs P).
  Lemma nodup_filter {A B} (f : A -> B) (g : A -> bool) l : NoDup (map f l) -> NoDup (map f (filter g l)).
  Proof.
    induction l as [|a l IH]; cbn; intros H; [constructor|]. apply NoDup_cons_iff in H as [H1 H2]. destruct (g a); auto. cbn. constructor; auto.
    intros K. apply H1. apply in_map_iff in K as (b & <- & Hb). apply filter_In in Hb as [Hb _]. now apply in_map.
  Qed.
  Definition tip_weight (t : path_type) (x : R) (u : bool * nat) : Z :=
    match nth_error vs (snd u) with Some v => if Rltb (vx (v_pt v)) x then if ptype_eqb (ty (snd u)) t then if fst u then -1 else 1 else 0 else 0 | None => 0 end.
  Lemma gone_zero y s y' s2 l t x : ended y s -> active s l -> all_here y (edges s) l -> known (edges s) l -> pop_scanline s y = (Some y', s2) ->
    zsum (before_x (xof (edges s) y') (wtof lms (edges s) t) x) (filter (gone y' (edges s)) l) = 0.
  Proof.
    intros EN HA AH KN HP. destruct (pop_gap vs P M MK V lms ms ms_M y s y' s2 EN HP) as [GAP LY].
    pose proof EN as [Vy SL G Q AP (l0 & HA0 & EX & TQ) _]. rewrite (active_fun _ _ _ HA0 HA) in *. clear l0 HA0.
    destruct EX as [ND EX].
    rewrite (zsum_ext _ (fun i => tip_weight t x (side_of (edges s) i))).
    2: { intros i Hi. apply filter_In in Hi as [Hi Gi]. destruct (AH i Hi) as (e & E & [[(Pl & C & L) He] _]). unfold gone in Gi. rewrite E in Gi.
      destruct (nth_error vs (e_vtop e)) as [v|] eqn:W; [|discriminate]. apply andb_true_iff in Gi as [G1 G2]. apply Reqb_true in G1.
      destruct (KN i e Hi E) as [D (m & Em & Tm)]. unfold before_x, xof, wtof, wt, tip_weight, side_of, edge_side. rewrite E. cbn [fst snd]. rewrite W, Em, Tm.
      assert (X : ex e y' = vx (v_pt v)).
      { unfold ex. rewrite <- G1, xat_top by auto. destruct C as [(w & W' & ->) _]. congruence. }
      rewrite X. destruct (Rltb _ _); auto. destruct (ptype_eqb _ _); auto. unfold edge_up. destruct D as [D|D]; rewrite D; reflexivity. }
    rewrite <- zsum_map. apply (zsum_pairs _ (fun u => (negb (fst u), snd u))).
    - now apply nodup_filter.
    - intros [f k]. cbn. now rewrite negb_involutive.
    - intros u Hu. apply in_map_iff in Hu as (i & <- & Hi). apply filter_In in Hi as [Hi Gi]. destruct (AH i Hi) as (e & E & [[(Pl & C & L) He] _]). unfold gone in Gi. rewrite E in Gi.
      destruct (nth_error vs (e_vtop e)) as [v|] eqn:W; [|discriminate]. apply andb_true_iff in Gi as [G1 G2]. apply Reqb_true in G1.
      assert (Pt : P (e_vtop e)) by apply Pl. destruct (mk_max _ _ _ MK _ v Pt W G2) as [X1 X2]. unfold side_of. rewrite E. unfold edge_side. cbn [fst snd].
      assert (X3 : comes vs true (negb (edge_up e)) (e_vtop e)) by (destruct (edge_up e); auto).
      assert (T : Y (e_vtop e) = y') by (rewrite <- G1; symmetry; now apply top_height).
      assert (In (negb (edge_up e), e_vtop e) (map (side_of (edges s)) l)) as K.
      { apply EX. inversion X3 as [? p S1 S2|? p S1 S2 S3]; subst.
        - exists p. cbn [fst snd]. pose proof (side_P' vs P M MK _ _ _ Pt S1) as Pp. csplit; auto.
          + rops. rbool. apply Rleb_true. destruct (Rle_lt_dec (Y p) y) as [|K]; auto. apply GAP in K; auto. lra.
          + rops. apply Rltb_true. lra.
        - exfalso. apply (side_ne vs P M MK PL _ p (e_vtop e) (side_P' vs P M MK _ _ _ Pt S1) S1). rops. now rbool. }
      apply in_map_iff in K as (j & K & Hj). apply in_map_iff. exists j. split; [exact K|]. apply filter_In. split; auto.
      destruct (AH j Hj) as (f & F & [[(Pf & Cf & Lf) Hf] _]). unfold side_of in K. rewrite F in K. unfold edge_side in K. injection K as K1 K2.
      unfold gone. rewrite F, K2, W, G2. rewrite (top_height vs f Cf), K2, T. now rewrite (proj2 (Reqb_true y' y')).
    - intros u Hu. unfold tip_weight. cbn [fst snd]. destruct (nth_error vs (snd u)); auto. destruct (Rltb _ _); auto. destruct (ptype_eqb _ _); auto. now destruct (fst u).
  Qed.
  Lemma beam_count fill y s y' s2 n s' l es3 l1 l' : ended y s -> active s l -> all_here y (edges s) l -> known (edges s) l -> all_counted fill s l ->
    pop_scanline s y = (Some y', s2) -> beam n s2 y' = Ok s' -> stepped vs y' (edges s) es3 l l1 -> erel same_but_links es3 (edges s') -> Permutation l1 l' ->
    (forall i j, In i l -> In j l -> i <> j -> xof (edges s) y' i = xof (edges s) y' j -> In (xof (edges s) y' i) (changes s')) ->
    ForallOrdPairs (fun i j => (xof (edges s) y' i <= xof (edges s) y' j)%R) l ->
    known (edges s') l' /\ forall i, In i l' -> In (xnow (edges s') i) (changes s') \/ right_at lms fill (edges s') l' i.
  Proof.
    intros EN HA AH KN AC HP HB ST ER PM CH XL.
    pose proof (pop_ready vs P M MK V lms ms ms_some ms_M y s y' s2 n s' EN HP HB) as RD.
    assert (NDl : NoDup l) by apply HA. pose proof (stepped_sub _ _ _ _ _ _ ST) as SUB.
    assert (HL : lmins s = lms) by apply (ed_lists _ _ _ _ _ _ EN).
    assert (ST' : standing vs P (edges s')) by (apply standing_all; [apply (rd_good _ _ _ _ _ _ RD)|apply (rd_placed _ _ _ _ _ _ RD)]).
    assert (ST3 : standing vs P es3).
    { intros i e E. destruct (proj2 ER i e E) as (f & F & S). destruct (ST' i f F) as [C Pl]. split.
      - apply (climbing_same vs f e); auto. rewrite S. unfold same_way. csplit; reflexivity.
      - apply (placed_same vs P f e); auto. rewrite S. unfold same_way. csplit; reflexivity. }
    assert (ST0 : standing vs P (edges s)) by (apply standing_all; [apply (ed_good _ _ _ _ _ _ EN)|apply (ed_placed _ _ _ _ _ _ EN)]).
    assert (FX : forall i, In i l1 -> exists e f, In i l /\ nth_error (edges s) i = Some e /\ nth_error (edges s') i = Some f /\ carried e f /\ e_x f = xof (edges s) y' i /\ ty (e_vtop f) = ty (e_vtop e)).
    { intros i Hi. destruct (stepped_get vs y' _ _ _ _ i ST NDl Hi) as (e & e' & E & E' & (D1 & D2 & D3 & D4) & K).
      assert (Hl : In i l) by (eapply sub_in'; eauto). destruct (AH i Hl) as (e0 & E0 & He). rewrite E in E0. injection E0 as <-.
      destruct (proj2 ER i e' E') as (f & F & S). apply links_parts in S as (S1 & S2 & S3 & S4 & S5 & S6 & S7 & S8).
      exists e, f. csplit; auto; try congruence.
      - unfold carried. csplit; congruence.
      - unfold xof. rewrite E, S3. destruct K as [(K1 & K2 & K3 & K4)|(K1 & K2 & K3 & K4 & K5)]; auto. rewrite K5. unfold ex. rewrite <- K1. symmetry. apply xat_top. apply He.
      - rewrite S7. destruct K as [(K1 & K2 & K3 & K4)|(K1 & K2 & K3 & K4 & K5)]; [congruence|]. symmetry. eapply ty_any; [|exact K3]. apply (ST0 i e E). }
    assert (FL : forall i, In i l' -> In i l1) by (intros i Hi; eapply Permutation_in; [symmetry; exact PM|exact Hi]).
    assert (XN : forall i, In i l1 -> xnow (edges s') i = xof (edges s) y' i /\ forall t, wtof lms (edges s') t i = wtof lms (edges s) t i).
    { intros i Hi. destruct (FX i Hi) as (e & f & _ & E & F & (D1 & D2 & D3 & D4) & X & _). split; [unfold xnow; now rewrite F|]. intros t. unfold wtof, wt. now rewrite E, F, D1, D4. }
    split.
    - intros i f Hi F. destruct (FX i (FL i Hi)) as (e & f' & Hl & E & F' & (D1 & D2 & D3 & D4) & X & T). rewrite F in F'. injection F' as <-.
      destruct (KN i e Hl E) as [D (m & Em & Tm)]. rewrite D1, D4. split; auto. exists m. split; congruence.
    - intros i Hi. apply FL in Hi as Hi1. destruct (FX i Hi1) as (e & f & Hl & E & F & (D1 & D2 & D3 & D4) & X & T).
      destruct (alone_dec (xof (edges s) y') l i) as [AL|(j & J1 & J2 & J3)].
      2: { left. unfold xnow. rewrite F, X. apply (CH i j); auto. }
      right. split.
      + intros j Hj NE. apply FL in Hj as Hj1. rewrite (proj1 (XN j Hj1)), (proj1 (XN i Hi1)). apply AL; auto. eapply sub_in'; eauto.
      + intros f' m F' Em. rewrite F in F'. injection F' as <-. rewrite D4 in Em.
        apply in_split in Hl as (a & b & Eq). specialize (AC a i b Eq).
        assert (DR : directed s a).
        { apply known_directed; auto.
          - intros j e1 Hj. apply KN. rewrite Eq. apply in_or_app; auto.
          - intros j Hj. destruct (AH j) as (e1 & E1 & _); eauto. rewrite Eq. apply in_or_app; auto. }
        pose proof (counted_fits lms fill s a i e m HL DR E Em AC) as FT.
        assert (SM : forall t, zsum (wtof lms (edges s) t) a = left_sum (xnow (edges s')) (wtof lms (edges s') t) l' (e_x f)).
        { intros t. rewrite X. rewrite (left_sum_prefix (xof (edges s) y') _ a i b); [|rewrite <- Eq; auto..]. rewrite <- Eq.
          rewrite <- (left_sum_perm _ _ l1 l' _ PM). unfold left_sum.
          rewrite <- (stepped_sum y' _ es3 l l1 _ (before_x (xnow (edges s')) (wtof lms (edges s') t) (xof (edges s) y' i)) ST ST0 ST3).
          - rewrite (gone_zero y s y' s2 l t _ EN HA AH KN HP). apply Z.add_0_r.
          - intros j Hj. unfold before_x. destruct (XN j Hj) as [-> W]. now rewrite W. }
        rewrite <- !SM. unfold fits in *. now rewrite D1, D2, D3.
  Qed.
End Count.
