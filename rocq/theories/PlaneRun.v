(** The order from left to right through a beam and through the new minima. *)
From Coq Require Import ZArith Bool List Reals Lra Lia Permutation Sorted.
From Verif Require Import Outcome Num Order OrdTac Rmath RTac Segment VState VAel VOut VMain VLemmas VFrame RingSpec LineSpec ClimbSpec AelSpec VAelProofs VEdges VAelRun VRun VClimb SortProofs
  ClipSpec SpanSpec SpanRing SpanTop SpanStep SpanRun PlaneSpec PlaneGeo PlaneSort PlaneTop.
Import ListNotations.
Local Open Scope R_scope.
Local Open Scope out.

Lemma lseg_fun {T} (es : list (edge T)) : forall l l' p p', lseg es p l None -> lseg es p' l' None -> hd_or l None = hd_or l' None -> l = l'.
Proof.
  induction l as [|i l IH]; intros [|j l'] p p' A B H; auto; try discriminate. injection H as <-.
  destruct A as (e & E1 & _ & E2 & A). destruct B as (f & F1 & _ & F2 & B). rewrite E1 in F1. injection F1 as <-. rewrite E2 in F2. f_equal. eapply IH; eauto.
Qed.
Lemma active_fun {T} (s : clipper T) l l' : active s l -> active s l' -> l = l'.
Proof. intros (A & B & _) (C & D & _). eapply lseg_fun; eauto. congruence. Qed.

Lemma told_all ch xs : forall lx, ForallOrdPairs Rle xs -> told lx xs ch -> ForallOrdPairs (fun a b => a = b -> In a ch) xs.
Proof.
  induction xs as [|x r IH]; intros lx S H; [constructor|]. inversion S as [|? ? S1 S2]; subst. destruct H as [_ H]. constructor; [|eapply IH; eauto].
  apply Forall_forall. intros b Hb Q. subst b. destruct r as [|z r]; [contradiction|]. destruct H as [H _]. rewrite Forall_forall in S1.
  assert (z <= x) by (destruct Hb as [->|Hb]; [lra|]; inversion S2 as [|? ? S3 _]; subst; rewrite Forall_forall in S3; auto).
  assert (x <= z) by (apply S1; now left). replace x with z by lra. apply H. lra.
Qed.
Lemma fop_map {A B} (f : A -> B) (Q : B -> B -> Prop) l : ForallOrdPairs Q (map f l) <-> ForallOrdPairs (fun a b => Q (f a) (f b)) l.
Proof.
  split.
  - induction l as [|a l IH]; intros H; constructor; inversion H as [|? ? A1 A2]; subst; auto. rewrite Forall_forall in *. intros b Hb. apply A1. now apply in_map.
  - induction 1 as [|a l F _ IH]; cbn; constructor; auto. rewrite Forall_forall in *. intros b Hb. apply in_map_iff in Hb as (c & <- & Hc). auto.
Qed.
Lemma fop_pair {A} (Q : A -> A -> Prop) l : ForallOrdPairs Q l -> forall a b, In a l -> In b l -> a <> b -> Q a b \/ Q b a.
Proof.
  induction 1 as [|x l F _ IH]; intros a b Ha Hb NE; [contradiction|]. rewrite Forall_forall in F.
  destruct Ha as [<-|Ha], Hb as [<-|Hb]; auto. congruence.
Qed.
Lemma fop_mono_in {A} (Q Q' : A -> A -> Prop) l : (forall a b, In a l -> In b l -> Q a b -> Q' a b) -> ForallOrdPairs Q l -> ForallOrdPairs Q' l.
Proof.
  intros H K. induction K as [|x l F _ IH]; constructor.
  - rewrite Forall_forall in *. intros b Hb. apply H; cbn; auto.
  - apply IH. intros a b Ha Hb. apply H; cbn; auto.
Qed.

Lemma resort_changes (s s' : clipper R) : resort_ael s = Ok s' -> changes s' = tidy_changes (changes s).
Proof.
  unfold resort_ael. intros H. binv H. destruct x as [s5 t]. apply insert_all_frame in H as (_ & _ & H). apply take_changed_frame in E as (_ & E & _). unfold fq in *. cbn in E. congruence.
Qed.

Section Run.
  Variable vs : list (vertex R).
  Notation Y := (height vs).
  Variables P M : nat -> Prop.
  Hypothesis MK : marked vs P M.
  Hypothesis V : vs_valid vs.
  Hypothesis PL : plane vs P M.
  Implicit Types s : clipper R.
  Implicit Types es : list (edge R).
  Variable lms : list lmin.
  Variable ms : list nat.
  Notation lv := (lv lms).
  Hypothesis ms_some : forall m, In m ms -> exists x, nth_error lms m = Some x.
  Hypothesis ms_nodup : NoDup (map lv ms).
  Hypothesis ms_M : forall i, M i <-> In i (map lv ms).
  Hypothesis ms_sorted : StronglySorted (fun a b => nle (Y (lv a)) (Y (lv b))) ms.
  Notation ready := (ready vs P lms ms).
  Notation ended := (ended vs P lms ms).
  Notation all_here := (all_here vs P).

  (** *** A beam *)
  (** There is no vertex between two scan lines. *)
  Lemma pop_gap y s y' s2 : ended y s -> pop_scanline s y = (Some y', s2) -> (forall x, P x -> y < Y x -> y' <= Y x) /\ y < y'.
  Proof.
    intros [Vy SL G Q AP (l & HA & EX & TQ) (ds & rs & D1 & D2 & D3 & D4)] HP.
    pose proof (pop_in vs V y s y' s2 Q Vy HP) as PI.
    destruct (pop_climbs vs y s y' s2 V G Q Vy HP) as (G2 & Q2 & L & Hh).
    split; [|unfold nlt in L; rops; now rbool].
    assert (NB : forall x, P x -> n_ltb y (Y x) = true -> n_leb y' (Y x) = true).
    { apply (nothing_below vs P M MK (fun x => n_ltb y (Y x)) y'); auto; try exact I.
      - intros i j Pi Pj E K. rops. rbool. apply Rltb_true. lra.
      - intros m Mm K. apply ms_M, in_map_iff in Mm as (k & <- & Hk).
        rewrite D1, in_app_iff in Hk. destruct Hk as [Hk|Hk]; [apply D3 in Hk; exfalso; rops; rbool; lra|]. apply D4 in Hk as [_ Hk]. now apply PI.
      - intros fwd i k Pi SD _ Li Lk. assert (In (fwd, k) (map (side_of (edges s)) l)) as K.
        { apply EX. exists i. cbn [fst snd]. csplit; auto. rops. rbool. apply Rleb_true. lra. }
        apply in_map_iff in K as (x & K1 & K2). apply TQ in K2. rewrite K1 in K2. now apply PI. }
    intros x Px H. specialize (NB x Px). rops. rewrite Rltb_true, Rleb_true in NB. auto.
  Qed.
  Lemma stepped_sub y es es' b b' : stepped vs y es es' b b' -> subseq b' b.
  Proof. induction 1; [constructor|apply sub_keep; auto|apply sub_keep; auto|apply sub_skip; auto]. Qed.
  Lemma sub_in' {A} (k b : list A) : subseq k b -> forall x, In x k -> In x b.
  Proof. induction 1; simpl; auto. intros y [->|Hy]; auto. Qed.
  Lemma stepped_get y es es' b b' i : stepped vs y es es' b b' -> NoDup b -> In i b' -> exists e e', nth_error es i = Some e /\ nth_error es' i = Some e' /\ carried e e' /\
    ((vy (e_top e) <> y /\ same_line e e' /\ e_vtop e' = e_vtop e /\ e_x e' = ex e y) \/
     (vy (e_top e) = y /\ e_bot e' = e_top e /\ side vs (edge_up e) (e_vtop e) (e_vtop e') /\ y < vy (e_top e') /\ e_x e' = vx (e_top e))).
  Proof.
    induction 1 as [|k b b' e e' A B C D E F G H IH|k b b' e e' A B C D E F G H I IH|k b b' e v A B C D H IH]; intros ND Hi; [contradiction| | |]; apply NoDup_cons_iff in ND as [_ ND]; auto;
      destruct Hi as [<-|Hi]; auto; exists e, e'.
    - assert (same_line e e' /\ e_vtop e' = e_vtop e /\ e_x e' = ex e y) by (csplit; auto). tauto.
    - assert (vy (e_top e) = y /\ e_bot e' = e_top e /\ side vs (edge_up e) (e_vtop e) (e_vtop e') /\ y < vy (e_top e') /\ e_x e' = vx (e_top e)) by (csplit; auto). tauto.
  Qed.
  Lemma beam_plane y s y' s2 n s' l : ended y s -> active s l -> all_here y (edges s) l -> sorted y (edges s) l ->
    pop_scanline s y = (Some y', s2) -> beam n s2 y' = Ok s' ->
    exists es3 l1 l', stepped vs y' (edges s) es3 l l1 /\ erel same_but_links es3 (edges s') /\ Permutation l1 l' /\ active s' l' /\ sorted y' (edges s') l' /\
      all_here y' (edges s') l' /\ (forall i j, In i l -> In j l -> i <> j -> xof (edges s) y' i = xof (edges s) y' j -> In (xof (edges s) y' i) (changes s')) /\
      ForallOrdPairs (fun i j => xof (edges s) y' i <= xof (edges s) y' j) l.
  Proof.
    intros EN HA AH SO HP H. pose proof (pop_ready vs P M MK V lms ms ms_some ms_M y s y' s2 n s' EN HP H) as RD.
    destruct (pop_gap y s y' s2 EN HP) as [GAP LY].
    pose proof EN as [Vy SL G Q AP (l0 & HA0 & EX & TQ) _]. rewrite (active_fun _ _ _ HA0 HA) in *. clear l0 HA0.
    pose proof (pop_scanline_frame _ _ _ _ HP) as (P1 & _ & P2 & P3 & P4 & _).
    pose proof (pop_climbs vs y s y' s2 V G Q Vy HP) as (G2 & Q2 & _ & Hh).
    pose proof H as H0. unfold beam in H. apply bind_ok in H as (s3 & F1 & H). apply bind_ok in H as (s4 & F2 & H). unfold do_top_of_scanbeam in F1.
    set (s2' := w_changes s2 []) in *.
    assert (ES : edges s2' = edges s) by exact P3.
    assert (HA2 : active s2' ([] ++ l)).
    { destruct HA as (X1 & X2 & X3). split; [cbn; congruence|]. rewrite ES. auto. }
    assert (SL2 : verts s2' = vs) by (unfold VFrame.fin in P1; injection P1 as X _ _ _ _ _ _; cbn; rewrite X; apply SL).
    assert (ST : standing vs P (edges s2')) by (rewrite ES; now apply standing_all).
    (* the edges of the list reach at least to the new line *)
    assert (RG : forall i, In i l -> exists e, nth_error (edges s) i = Some e /\ here vs P y e /\ vy (e_bot e) < y' <= vy (e_top e)).
    { intros i Hi. destruct (AH i Hi) as (e & E & He). exists e. csplit; auto.
      - destruct He as [[_ He] _]. lra.
      - destruct He as [[(Pl & C & _) He] _]. pose proof (top_height vs e C) as Ht. rewrite Ht in *. apply GAP; [apply Pl|lra]. }
    assert (XL : ForallOrdPairs (fun i j => xof (edges s) y' i <= xof (edges s) y' j) l).
    { eapply fop_mono_in; [|exact SO]. intros i j Hi Hj K. destruct (RG i Hi) as (e & E & He & Ye). destruct (RG j Hj) as (f & F & Hf & Yf).
      unfold xof. rewrite E, F. apply (before_le vs P y y' e f); try apply He; try apply Hf; auto; lra. }
    pose proof F1 as F1'.
    apply (top_loop_steps vs P M MK PL y' _ s2' _ _ [] l s3) in F1 as (l1 & B1 & B2 & _ & B4 & B5); auto.
    2: apply (proj1 HA2). 2: { rewrite ES. intros i Hi. destruct (RG i Hi) as (e & E & _ & K). eauto. }
    rewrite ES in *. cbn [app] in B1.
    assert (CH3 : forall i j, In i l -> In j l -> i <> j -> xof (edges s) y' i = xof (edges s) y' j -> In (xof (edges s) y' i) (changes s3)).
    { assert (K : ForallOrdPairs (fun i j => xof (edges s) y' i = xof (edges s) y' j -> In (xof (edges s) y' i) (changes s3)) l).
      { apply (fop_map (xof (edges s) y') (fun a b => a = b -> In a (changes s3))). eapply told_all; [|exact B5]. now apply fop_map. }
      intros i j Hi Hj NE E. destruct (fop_pair _ _ K i j Hi Hj NE) as [K'|K']; [auto|]. rewrite E. auto. }
    (* standing after the loop *)
    assert (ST3 : standing vs P (edges s3) /\ verts s3 = vs).
    { apply (top_loop_moves vs P M MK _ s2' y' _ _ [] l s3) in F1' as (l1' & _ & C2 & C3 & _).
      2: exact SL2. 2: exact HA2. 2: apply (proj1 HA2). 2: { rewrite ES. exact ST. }
      2: { rewrite ES. intros i Hi NE. destruct (pop_in vs V y s y' s2 Q Vy HP _ (TQ i Hi)) as [_ [K|K]]; [congruence|exact K]. }
      split; [|exact C2]. intros i e Hi. exact (C3 i e Hi). }
    destruct ST3 as [ST3 V3].
    assert (NDl : NoDup l) by apply HA.
    assert (G3 : forall i, In i l1 -> exists e e', nth_error (edges s) i = Some e /\ nth_error (edges s3) i = Some e' /\ here vs P y' e' /\ e_x e' = xof (edges s) y' i).
    { intros i Hi. destruct (stepped_get y' _ _ _ _ i B2 NDl Hi) as (e & e' & E & E' & _ & K). exists e, e'. csplit; auto.
      - destruct (RG i) as (e0 & E0 & He & Ye); [eapply sub_in'; [eapply stepped_sub; exact B2|exact Hi]|]. rewrite E in E0. injection E0 as <-.
        destruct (ST3 i e' E') as [C Pl]. destruct K as [(K1 & [K2 K3] & K4 & K5)|(K1 & K2 & K3 & K4 & K5)].
        + split; [split; [split; [exact Pl|split; [exact C|]]|]|]; rewrite ?K2, ?K3; try lra. rewrite K5. unfold ex. now rewrite K2, K3.
        + split; [split; [split; [exact Pl|split; [exact C|]]|]|]; rewrite ?K2; try lra. rewrite K5. unfold ex. rewrite K2, <- K1. symmetry. apply xat_bot.
      - unfold xof. rewrite E. destruct K as [(K1 & [K2 K3] & K4 & K5)|(K1 & K2 & K3 & K4 & K5)]; auto. rewrite K5. unfold ex. rewrite <- K1. symmetry. apply xat_top.
        destruct (RG i) as (e0 & E0 & He & Ye); [eapply sub_in'; [eapply stepped_sub; exact B2|exact Hi]|]. rewrite E in E0. injection E0 as <-. lra. }
    pose proof (stepped_sub _ _ _ _ _ B2) as SUB.
    (* closing the output *)
    pose proof (close_output_eb _ _ _ _ F2) as R2. pose proof (close_output_frame _ _ _ _ F2) as (C1 & C2 & C3 & C4).
    assert (A4 : active s4 l1) by (eapply active_bound; [exact R2|tauto|exact B1]).
    assert (V4 : verts s4 = vs) by (unfold VFrame.fin in C1; injection C1 as X _ _ _ _ _ _; congruence).
    assert (CH4 : changes s4 = changes s3) by (unfold fq in *; congruence).
    assert (AH4 : all_here y' (edges s4) l1).
    { eapply (all_here_rel vs P y' same_but_bound); [apply bound_spot|exact R2|]. intros i Hi. destruct (G3 i Hi) as (e & e' & _ & E' & K & _). eauto. }
    assert (X4 : forall i f, In i l1 -> nth_error (edges s4) i = Some f -> e_x f = xof (edges s) y' i).
    { intros i f Hi F. destruct (G3 i Hi) as (e & e' & _ & E' & _ & K). destruct (proj2 R2 i e' E') as (f' & F' & S). rewrite F in F'. injection F' as <-. rewrite S. exact K. }
    assert (OR4 : ordered (edges s4) l1).
    { apply ordered_R. eapply fop_mono_in; [|eapply fop_subseq; [exact SUB|exact XL]]. cbn beta. intros i j Hi Hj K e f E F. now rewrite (X4 i e Hi E), (X4 j f Hj F). }
    pose proof (resort_ael_way _ _ H) as R3.
    destruct (resort_ael_ok s4 _ s' A4 H) as (l'' & PM & A' & _).
    assert (D4 : differ (edges s4) l1).
    { destruct (rd_active _ _ _ _ _ _ RD) as (l2 & HA2' & [ND2 _] & _). rewrite <- (active_fun _ _ _ A' HA2') in ND2.
      unfold differ. eapply Permutation_NoDup; [apply Permutation_sym, Permutation_map, PM|]. erewrite (map_ext_in (side_of (edges s4))); [exact ND2|].
      intros i Hi. symmetry. apply side_of_way; auto. eapply active_bound_len; [exact A4|]. eapply Permutation_in; [symmetry; exact PM|exact Hi]. }
    destruct (resort_sorted vs P M PL y' s4 l1 s' V4 A4 OR4 AH4 D4) as (l' & L1 & L2 & L3 & L4); auto.
    { intros i j e f Hi Hj NE E F Q'. rewrite (X4 i e Hi E), (X4 j f Hj F) in *. rewrite CH4. apply (CH3 i j); auto; eapply sub_in'; eauto. }
    exists (edges s3), l1, l'. csplit; auto.
    - eapply erel_trans; [apply pre_links|eapply erel_mono; [|exact R2]|exact L4]. intros e f ->. destruct e; reflexivity.
    - eapply (all_here_rel vs P y' same_but_links); [apply links_spot|exact L4|]. eapply all_here_perm; eauto.
    - intros i j Hi Hj NE E. assert (K : changes s' = tidy_changes (changes s4)).
      { now apply resort_changes. }
      rewrite K. apply tidy_in. rewrite CH4. apply (CH3 i j); auto.
  Qed.

  (** *** A new minimum *)
  Definition new_edge (v w : vertex R) (dx : Z) (k m : nat) : edge R := Edge (v_pt v) (v_pt w) (vx (v_pt v)) dx 0 0 None None None k m.
  Lemma start_way fwd i r : P i -> start vs fwd i r -> side vs fwd i r /\ Y i < Y r.
  Proof.
    intros Pi H. inversion H as [? k A B|? k ? A B C]; subst.
    - split; auto. rops. now rbool.
    - exfalso. apply (side_ne vs P M MK PL fwd i k Pi A). rops. now rbool.
  Qed.
  Lemma skip_horz_none fuel s i s' e : nth_error (edges s) i = Some e -> vy (e_bot e) <> vy (e_top e) -> skip_horz fuel s i = Ok s' -> s' = s.
  Proof.
    intros E NE H. destruct fuel; cbn [skip_horz] in H; unfold at_ in H; rewrite E in H; cbn [of_opt bind] in H; unfold is_horz in H; rops; rewrite (proj2 (Reqb_false _ _) NE) in H; now binvs.
  Qed.
  Lemma start_edge_new s m v top w dx s' : verts s = vs -> nth_error vs top = Some w -> vy (v_pt v) <> vy (v_pt w) ->
    start_edge s m (v_pt v) top dx = Ok s' -> edges s' = edges s ++ [new_edge v w dx top m] /\ changes s' = changes s ++ [vx (v_pt v)].
  Proof.
    intros HV W NE H. unfold start_edge in H. unfold at_ at 1 in H. rewrite HV, W in H. cbn [of_opt bind] in H. binv H.
    eapply skip_horz_none in E; [|cbn [edges w_edges push_change w_changes]; apply nth_snoc_last|exact NE]. subst x. binv H. apply emod_ok in H as [_ ->].
    cbn [edges w_edges push_change w_changes changes] in *. apply at_ok in E. rewrite nth_snoc_last in E. injection E as <-. rewrite upd_snoc. split; reflexivity.
  Qed.
  Lemma vec_eq (p q : vec2 R) : vx p = vx q -> vy p = vy q -> p = q.
  Proof. destruct p, q. cbn. congruence. Qed.
  Lemma minimum_plane y s m x v l s' : verts s = vs -> all_placed vs P (edges s) -> nth_error (lmins s) m = Some x -> M (lm_vert x) -> nth_error vs (lm_vert x) = Some v ->
    vy (v_pt v) = y -> active s l -> all_here y (edges s) l -> sorted y (edges s) l -> differ (edges s) l ->
    (forall i e, In i l -> nth_error (edges s) i = Some e -> e_bot e <> v_pt v) ->
    insert_minimum s m = Ok s' -> edges_ok vs (edges s') ->
    exists p n vp vn l', side vs false (lm_vert x) p /\ side vs true (lm_vert x) n /\ nth_error vs p = Some vp /\ nth_error vs n = Some vn /\
      erel same_edge (edges s ++ [new_edge v vp 1 p m; new_edge v vn (-1) n m]) (edges s') /\
      Permutation (length (edges s) :: S (length (edges s)) :: l) l' /\ active s' l' /\ sorted y (edges s') l' /\ all_here y (edges s') l' /\ differ (edges s') l' /\
      In (vx (v_pt v)) (changes s') /\ (forall z, In z (changes s) -> In z (changes s')).
  Proof.
    intros HV AP Hx Mx Ev Hy HA AH SO D NB H OK. pose proof (start_P _ _ _ MK _ Mx) as Px.
    destruct (way_up vs P M MK false _ Mx) as [p Rp]. destruct (way_up vs P M MK true _ Mx) as [n Rn].
    apply start_way in Rp as [Sp Lp]; auto. apply start_way in Rn as [Sn Ln]; auto.
    pose proof Sp as (v' & vp & X1 & Vp & Np & _). rewrite Ev in X1. injection X1 as <-. cbn in Np.
    pose proof Sn as (v' & vn & X1 & Vn & Nn & _). rewrite Ev in X1. injection X1 as <-. cbn in Nn.
    rewrite (height_some' vs _ v Ev), (height_some' vs _ vp Vp) in Lp. rewrite (height_some' vs _ v Ev), (height_some' vs _ vn Vn) in Ln.
    set (a := length (edges s)) in *. set (ea := new_edge v vp 1 p m). set (eb := new_edge v vn (-1) n m).
    unfold insert_minimum in H. unfold at_ at 1 2 in H. rewrite Hx, HV in H. cbn [of_opt bind] in H. rewrite Ev in H. cbn [of_opt bind] in H.
    rewrite Np, Nn in H. cbn [deref of_opt bind] in H. fold a in H.
    apply bind_ok in H as (t1 & F1 & H). apply bind_ok in H as (t2 & F2 & H). apply bind_ok in H as (t3 & F3 & H).
    apply bind_ok in H as (xa & Na & H). apply at_ok in Na. apply bind_ok in H as (t4 & F4 & H).
    apply bind_ok in H as (xa' & _ & H). apply bind_ok in H as (xb' & _ & H). injection H as <-.
    pose proof (start_edge_frame _ _ _ _ _ _ F1) as (A1 & _ & G1 & _). pose proof (start_edge_frame _ _ _ _ _ _ F2) as (B1 & _ & G2 & _).
    pose proof (insert_into_ael_frame _ _ _ F3) as (C1 & _ & C2). pose proof (insert_into_ael_left_frame _ _ _ _ F4) as (D1 & _ & D2).
    unfold VFrame.fin, fq in A1, B1, C1, C2, D1, D2. assert (HV1 : verts t1 = vs) by congruence. assert (HV2 : verts t2 = vs) by congruence. assert (HV3 : verts t3 = vs) by congruence.
    pose proof (insert_into_ael_way _ _ _ F3) as W3. pose proof (insert_left_way _ _ _ _ F4) as W4.
    apply (start_edge_new s m v p vp 1 t1 HV Vp) in F1 as [F1 I1]; [|lra]. apply (start_edge_new t1 m v n vn (-1) t2 HV1 Vn) in F2 as [F2 I2]; [|lra].
    fold ea in F1. fold eb in F2.
    assert (L1 : length (edges t1) = S a) by (rewrite F1, app_length; cbn; unfold a; lia). rewrite L1 in *.
    assert (EE : edges t2 = edges s ++ [ea; eb]) by (rewrite F2, F1, <- app_assoc; reflexivity).
    assert (T2 : active t2 l) by (apply (active_ext s); [auto|congruence|eauto]).
    assert (La : ~ In a l) by (intros K; apply (active_bound_len s l a HA) in K; unfold a in K; lia).
    assert (Lb : ~ In (S a) l) by (intros K; apply (active_bound_len s l (S a) HA) in K; unfold a in K; lia).
    assert (N1 : nth_error (edges t2) a = Some ea) by (rewrite EE, nth_error_app2, Nat.sub_diag by (unfold a; lia); reflexivity).
    assert (N2 : nth_error (edges t2) (S a) = Some eb) by (rewrite EE, nth_error_app2 by (unfold a; lia); replace (S a - length (edges s))%nat with 1%nat by (unfold a; lia); reflexivity).
    assert (OL : forall i e, nth_error (edges s) i = Some e -> nth_error (edges t2) i = Some e).
    { intros i e E. rewrite EE, nth_error_app1; auto. now apply nth_lt in E. }
    cbn [edges insert_scanline w_scans] in OK.
    assert (OK2 : edges_ok vs (edges t2)).
    { intros i e E. destruct (proj2 W3 i e E) as (f & F & S). destruct (proj2 W4 i f F) as (g & G & S').
      apply (climbing_same vs g e); [|eapply OK; exact G]. destruct S as (? & ? & ? & ?), S' as (? & ? & ? & ?). unfold same_way. csplit; congruence. }
    assert (Pp : P p) by exact (side_P vs P M MK _ _ _ Px Sp). assert (Pn : P n) by exact (side_P vs P M MK _ _ _ Px Sn).
    assert (Ha : here vs P y ea).
    { split; [split; [split; [|split]|]|].
      - split; [exact Pp|]. exists (lm_vert x), v. csplit; auto.
      - apply (OK2 a). exact N1.
      - exact Lp.
      - cbn. lra.
      - cbn. unfold ex. cbn. rewrite <- Hy. symmetry. apply xat_bot. }
    assert (Hb : here vs P y eb).
    { split; [split; [split; [|split]|]|].
      - split; [exact Pn|]. exists (lm_vert x), v. csplit; auto.
      - apply (OK2 (S a)). exact N2.
      - exact Ln.
      - cbn. lra.
      - cbn. unfold ex. cbn. rewrite <- Hy. symmetry. apply xat_bot. }
    assert (AH2 : all_here y (edges t2) (a :: S a :: l)).
    { intros i [<-|[<-|Hi]]; eauto. destruct (AH i Hi) as (e & E & K). eauto. }
    assert (SD : forall i, In i l -> side_of (edges t2) i = side_of (edges s) i).
    { intros i Hi. destruct (AH i Hi) as (e & E & _). unfold side_of. now rewrite E, (OL i e E). }
    assert (NS : forall fwd k, side vs fwd (lm_vert x) k -> ~ In (fwd, k) (map (side_of (edges s)) l)).
    { intros fwd k S K. apply in_map_iff in K as (i & K & Hi). destruct (AH i Hi) as (e & E & [[(Pl & _ & _) _] _]). apply (NB i e Hi E).
      unfold side_of in K. rewrite E in K. injection K as K1 K2. destruct Pl as (_ & j & v' & _ & S' & V' & B). rewrite B.
      rewrite K1, K2 in S'. assert (j = lm_vert x) by (eapply side_inj; eauto). subst j. congruence. }
    assert (D2' : differ (edges t2) (a :: S a :: l)).
    { unfold differ. cbn [map]. rewrite (map_ext_in _ _ l SD). unfold side_of at 1 2. rewrite N1, N2. cbn. constructor; [|constructor; auto].
      - intros [K|K]; [discriminate|]. exact (NS _ _ Sp K).
      - intros K. exact (NS _ _ Sn K). }
    assert (SO2 : sorted y (edges t2) l).
    { eapply fop_mono_in; [|exact SO]. intros i j Hi Hj K e f E F. destruct (AH i Hi) as (e' & E' & _). destruct (AH j Hj) as (f' & F' & _).
      rewrite (OL _ _ E') in E. rewrite (OL _ _ F') in F. injection E as <-. injection F as <-. auto. }
    assert (Da : differ (edges t2) (a :: l)).
    { unfold differ in *. cbn [map] in *. inversion D2' as [|? ? Q1 Q2]; subst. inversion Q2; subst. constructor; auto. intros K. apply Q1. now right. }
    destruct (insert_sorted vs P M PL y t2 l a t3 HV2 T2 La SO2) as (l1 & l2 & K1 & K2 & K3 & K4); auto.
    { intros i Hi. apply AH2. cbn in *. tauto. }
    destruct (active_split t3 l1 a l2 K2) as (e & M1 & M2 & M3). rewrite Na in M1. injection M1 as <-. rewrite M2 in F4.
    assert (Q1 : Permutation (a :: S a :: l) (S a :: l1 ++ a :: l2)).
    { rewrite K1. etransitivity; [apply perm_swap|]. constructor. apply Permutation_middle. }
    assert (AH3 : all_here y (edges t3) (S a :: l1 ++ a :: l2)).
    { eapply (all_here_rel vs P y same_edge); [apply edge_spot|apply K4|]. eapply all_here_perm; [exact Q1|exact AH2]. }
    assert (D3 : differ (edges t3) (S a :: l1 ++ a :: l2)).
    { eapply (differ_rel same_edge); [apply edge_spot|apply K4| |eapply differ_perm; [exact Q1|exact D2']].
      intros j Hj. destruct (AH2 j) as (e & Ej & _); eauto. eapply Permutation_in; [symmetry; exact Q1|exact Hj]. }
    assert (Lb' : ~ In (S a) (l1 ++ a :: l2)).
    { intros K. apply in_app_or in K as [K|[K|K]]; [|lia|]; apply Lb; rewrite K1; apply in_or_app; auto. }
    destruct (insert_left_sorted vs P M PL y t3 l1 (a :: l2) (S a) t4 HV3 K2 Lb' K3 AH3 D3) as (m1 & m2 & J1 & J2 & J3 & J4).
    { intros q eq enw Hq Eq Enw. destruct (snoc_cases l1) as [->|(l0 & q' & ->)]; [discriminate|]. rewrite last_or_snoc in Hq. injection Hq as ->.
      assert (Hq : In q (l0 ++ [q])) by (apply in_or_app; right; now left).
      destruct (proj2 (proj1 K4) a ea N1) as (xa2 & Xa & Sa). rewrite Na in Xa. injection Xa as <-.
      destruct (proj2 (proj1 K4) (S a) eb N2) as (xb & Xb & Sb). rewrite Enw in Xb. injection Xb as <-.
      assert (Bq : before y eq xa).
      { apply fop_app in K3 as (_ & _ & K3). exact (K3 q a Hq (or_introl eq_refl) eq xa Eq Na). }
      assert (Hq' : here vs P y eq) by (apply (here_get vs P y (edges t3) _ q eq AH3); [right; apply in_or_app; auto|auto]).
      assert (Hxa : here vs P y xa) by (apply (here_get vs P y (edges t3) _ a xa AH3); [right; apply in_or_app; right; now left|auto]).
      assert (Hxb : here vs P y enw) by (apply (here_get vs P y (edges t3) _ (S a) enw AH3); [now left|auto]).
      assert (LE : ex eq y <= ex xa y).
      { apply (before_le vs P y y eq xa); auto; try apply Hq'; try apply Hxa; [lra|destruct Hq' as [[_ ?] _]; lra|destruct Hxa as [[_ ?] _]; lra]. }
      assert (EQ : ex xa y = ex enw y).
      { destruct Hxa as [_ <-], Hxb as [_ <-]. rewrite Sa, Sb. reflexivity. }
      assert (NEs : edge_side eq <> edge_side enw).
      { eapply (differ_ne (edges t3) (S a :: (l0 ++ [q]) ++ a :: l2) q (S a)); eauto; [right; apply in_or_app; auto|now left|].
        intros ->. apply Lb'. apply in_or_app. auto. }
      destruct (Rle_lt_or_eq_dec _ _ LE) as [LT|Q].
      - apply (lt_before vs P M PL y eq enw); [apply Hq'|apply Hxb|exact NEs|lra].
      - exfalso. destruct (same_start vs P M PL y eq enw) as [S1 S2]; [apply Hq'|apply Hxb|exact NEs|lra|].
        destruct (erel_back _ _ _ _ _ (proj1 K4) Eq) as (q0 & Q0 & Sq).
        assert (In q l) by (rewrite K1; apply in_or_app; auto).
        destruct (AH q) as (q1 & Q1' & _); auto. pose proof (OL _ _ Q1') as Q2. rewrite Q0 in Q2. injection Q2 as <-.
        apply (NB q q0); auto. apply vec_eq.
        + replace (e_bot q0) with (e_bot eq) by (rewrite Sq; reflexivity).
          assert (ex eq y = vx (e_bot eq)) by (unfold ex; rewrite <- S1; apply xat_bot).
          assert (ex xa y = vx (v_pt v)) by (destruct Hxa as [_ <-]; rewrite Sa; reflexivity). lra.
        + replace (e_bot q0) with (e_bot eq) by (rewrite Sq; reflexivity). lra. }
    { exact F4. }
    assert (Q2 : Permutation (a :: S a :: l) (m1 ++ S a :: m2)) by (rewrite Q1, J1; apply Permutation_middle).
    assert (ER : erel same_edge (edges t2) (edges t4)) by (eapply same_edges_trans; [apply K4|apply J4]).
    exists p, n, vp, vn, (m1 ++ S a :: m2). fold ea eb. rewrite <- EE. cbn [edges insert_scanline w_scans changes]. csplit; auto.
    - eapply (all_here_rel vs P y same_edge); [apply edge_spot|exact ER|]. eapply all_here_perm; [exact Q2|exact AH2].
    - eapply (differ_rel same_edge); [apply edge_spot|exact ER| |eapply differ_perm; [exact Q2|exact D2']].
      intros j Hj. destruct (AH2 j) as (e & Ej & _); eauto. eapply Permutation_in; [symmetry; exact Q2|exact Hj].
    - replace (changes t4) with (changes t2) by congruence. rewrite I2. apply in_or_app. right. now left.
    - intros z Hz. replace (changes t4) with (changes t2) by congruence. rewrite I2, I1, !in_app_iff. auto.
  Qed.
End Run.
