(** Whole paths: the rings that add_path leaves behind. *)
From Coq Require Import ZArith Bool List Lia.
From Verif Require Import Outcome Num Order Rmath Segment Path PathSpec PathProofs VState VPath VLemmas AelSpec VAelProofs VAelRun RingSpec MarkProofs VRing VBuild.
Import ListNotations.
Local Open Scope out.

Lemma nodup_join {A} (a b : list A) : NoDup a -> NoDup b -> (forall i, In i a -> In i b -> False) -> NoDup (a ++ b).
Proof.
  induction a as [|x a IH]; simpl; auto. intros ND NDb H. inversion ND; subst. constructor.
  - intros K. apply in_app_or in K as [K|K]; [contradiction|eauto].
  - apply IH; eauto.
Qed.

Section Add.
  Context {T : Type} {N : Num T}.
  Implicit Types vs : list (vertex T).
  Implicit Types s : clipper T.

  Record contour := Contour { c_type : path_type; c_segs : list (seg T); c_verts : list nat; c_marks : list (nat * bool) }.
  Definition contour_ok vs (c : contour) : Prop :=
    exists f r, c_verts c = f :: r /\ r <> [] /\ ring vs (f :: r) (c_segs c) /\
      extremes (height vs) f r (c_marks c) /\ flagged vs (f :: r) (c_marks c).
  Definition all_verts (cs : list contour) : list nat := flat_map c_verts cs.
  Definition lows (c : contour) : list nat := map fst (filter snd (c_marks c)).
  Definition all_lows (cs : list contour) : list lmin := flat_map (fun c => map (fun v => Lmin v (c_type c)) (lows c)) cs.
  Definition built s (its : list (path_type * list (seg T))) (cs : list contour) s' : Prop :=
    grown s s' /\ map (fun c => (c_type c, c_segs c)) cs = filter (fun it => accepted (snd it)) its /\
    Forall (contour_ok (verts s')) cs /\
    starts s' = starts s ++ map (fun c => hd 0 (c_verts c)) cs /\
    lmins s' = lmins s ++ all_lows cs /\ minima s' = minima s ++ seq (length (lmins s)) (length (all_lows cs)) /\
    NoDup (all_verts cs) /\ (forall i, In i (all_verts cs) -> length (verts s) <= i).

  Lemma grown_refl s : grown s s.
  Proof. split; [now destruct s|]. auto. Qed.
  Lemma grown_trans s1 s2 s3 : grown s1 s2 -> grown s2 s3 -> grown s1 s3.
  Proof.
    intros (E1 & L1 & H1) (E2 & L2 & H2). split; [|split; [lia|]].
    - rewrite E2 at 1. rewrite E1. reflexivity.
    - intros i Hi. rewrite H2 by lia. auto.
  Qed.
  Lemma built_nil s : built s [] [] s.
  Proof.
    split; [apply grown_refl|]. cbn. rewrite !app_nil_r. csplit; auto; [constructor|contradiction].
  Qed.
  (** Vertices that are there stay as they are. *)
  Definition extends vs vs' : Prop := forall i v, nth_error vs i = Some v -> nth_error vs' i = Some v.
  Lemma grown_extends s s' : grown s s' -> extends (verts s) (verts s').
  Proof. intros (_ & L & H) i v V. rewrite H; auto. now apply nth_lt in V. Qed.
  Lemma ring_in_some vs l gs i : ring vs l gs -> In i l -> exists v, nth_error vs i = Some v.
  Proof.
    destruct l as [|f r]; [contradiction|]. intros [ND S] Hi. apply (strand_some _ _ _ _ i S). apply in_or_app.
    destruct Hi as [->|Hi]; [right; now left|now left].
  Qed.
  Lemma ring_extends vs vs' l gs : extends vs vs' -> ring vs l gs -> ring vs' l gs.
  Proof.
    intros E. destruct l as [|f r]; auto. intros [ND S]. split; auto.
    apply (strand_frame vs); auto; intros i _ v V; exists v; auto.
  Qed.
  Lemma contour_extends vs vs' c : extends vs vs' -> contour_ok vs c -> contour_ok vs' c.
  Proof.
    intros E (f & r & C & NE & R & X & F). exists f, r. csplit; auto.
    - now apply (ring_extends vs).
    - apply (extremes_ext (height vs)); auto. intros i Hi. destruct (ring_in_some _ _ _ _ R Hi) as [v V].
      unfold height. now rewrite V, (E _ _ V).
    - intros i v Hi V. destruct (ring_in_some _ _ _ _ R Hi) as [w W]. apply F; auto. rewrite (E _ _ W) in V. congruence.
  Qed.
  Lemma contour_lt vs c i : contour_ok vs c -> In i (c_verts c) -> i < length vs.
  Proof. intros (f & r & -> & _ & R & _) Hi. destruct (ring_in_some _ _ _ _ R Hi) as [v V]. now apply nth_lt in V. Qed.
  Lemma built_added s its cs s1 pt gs s2 : built s its cs s1 -> added s1 pt gs s2 ->
    exists c, built s (its ++ [(pt, gs)]) (cs ++ c) s2.
  Proof.
    intros (G & IT & OK & ST & LM & MN & ND & FR) [G2 A]. set (f := length (verts s1)) in *.
    pose proof (grown_trans _ _ _ G G2) as G3.
    assert (OK2 : Forall (contour_ok (verts s2)) cs).
    { eapply Forall_impl; [|exact OK]. intros c. apply contour_extends. now apply grown_extends. }
    destruct (accepted gs) eqn:AC.
    - destruct A as (r & m & R & NE & FRr & EX & FL & S2 & L2 & M2).
      exists [Contour pt gs (f :: r) m]. split; auto.
      assert (EQ : all_lows (cs ++ [Contour pt gs (f :: r) m]) = all_lows cs ++ map (fun x => Lmin (fst x) pt) (filter snd m)).
      { unfold all_lows. rewrite flat_map_app. cbn [flat_map c_type]. rewrite app_nil_r. unfold lows. cbn [c_marks]. now rewrite map_map. }
      csplit.
      + rewrite map_app, filter_app, IT. cbn [filter map snd c_type c_segs]. now rewrite AC.
      + apply Forall_app. split; auto. constructor; [|constructor]. exists f, r. csplit; auto.
      + rewrite S2, ST, map_app, <- app_assoc. reflexivity.
      + rewrite L2, LM, EQ, <- app_assoc. reflexivity.
      + rewrite M2, MN, EQ, LM, !app_length, seq_app, map_length, <- app_assoc. reflexivity.
      + unfold all_verts. rewrite flat_map_app. cbn [flat_map c_verts]. rewrite app_nil_r.
        destruct R as [NDr _]. apply nodup_join; auto. intros i Hi1 Hi2.
        assert (i < f). { unfold all_verts in Hi1. apply in_flat_map in Hi1 as (c & Hc & Hi). rewrite Forall_forall in OK. eapply contour_lt; eauto. }
        destruct Hi2 as [<-|Hi2]; [lia|]. apply FRr in Hi2. lia.
      + intros i Hi. unfold all_verts in Hi. rewrite flat_map_app in Hi. cbn [flat_map c_verts] in Hi. rewrite app_nil_r in Hi.
        apply in_app_or in Hi as [Hi|Hi]; auto. destruct G as (_ & L & _).
        destruct Hi as [<-|Hi]; [unfold f; lia|]. apply FRr in Hi. unfold f in Hi. lia.
    - destruct A as (S2 & L2 & M2). exists []. rewrite app_nil_r. split; auto. csplit; auto; try congruence.
      rewrite filter_app. cbn [filter snd]. now rewrite AC, app_nil_r.
  Qed.

  (** *** One path *)
  Lemma moveto_run s pt p r : rd_clip r = s -> rd_first r = None -> rd_type r = pt ->
    forall from, exists r', read_moveto from p r = Ok r' /\ reading s pt p [] r'.
  Proof.
    intros RC RF RT from. unfold read_moveto. rewrite RF. cbn [bind]. unfold new_vertex. rewrite RC.
    assert (V : nth_error (verts (w_verts s (verts s ++ [vertex0]))) (length (verts s)) = Some vertex0) by apply nth_snoc_last.
    rewrite (vmod_run _ _ _ _ V). cbn [bind]. eexists. split; [reflexivity|].
    exists (upd (verts s ++ [vertex0]) (length (verts s)) (set_vpt p)). cbn [rd_clip rd_type rd_first rd_prev length seq].
    rewrite Nat.add_0_r. csplit; auto.
    - rewrite length_upd, app_length. simpl. lia.
    - intros i Hi. rewrite nth_upd_other by lia. rewrite nth_error_app1; auto.
    - intros i v Hi V'. rewrite nth_upd in V'. destruct (Nat.lt_ge_cases (length (verts s)) i) as [K|K].
      + replace (Nat.eqb (length (verts s)) i) with false in V' by (symmetry; apply Nat.eqb_neq; lia).
        apply nth_lt in V'. rewrite app_length in V'. simpl in V'. lia.
      + assert (i = length (verts s)) by lia. subst i. rewrite Nat.eqb_refl, nth_snoc_last in V'. injection V' as <-. split; reflexivity.
    - simpl. auto.
    - eexists. split; [apply nth_upd_same; apply nth_snoc_last|]. simpl. auto.
  Qed.
  Lemma moveto_next s pt p0 gs r p from : reading s pt p0 gs r ->
    exists s1 r', added s pt (closed_segs p0 gs) s1 /\ read_moveto from p r = Ok r' /\ reading s1 pt p [] r'.
  Proof.
    intros H. destruct (close_run _ _ _ _ _ H) as (s1 & E & A). exists s1.
    destruct H as (vs & RC & RT & RF & RP & _).
    destruct (moveto_run s1 pt p (Rd s1 pt None None) eq_refl eq_refl eq_refl from) as (r' & E' & H').
    exists r'. csplit; auto. unfold read_moveto in *. rewrite RT, RF. rewrite RF in E. rewrite E. cbn [bind].
    cbn [rd_first rd_clip rd_type bind] in E'. exact E'.
  Qed.
  Definition well_drawn (os : list (outline (T := T))) : Prop := Forall (fun o => Forall drawing (snd o)) os.
  Definition items pt (os : list (outline (T := T))) : list (path_type * list (seg T)) := map (fun o => (pt, outline_segs o)) os.
  Lemma closed_outline o : closed_segs (fst o) (all_pieces (fst o) (snd o)) = outline_segs o.
  Proof. unfold closed_segs, outline_segs. now destruct (all_pieces _ _). Qed.
  Lemma events_app a : forall (o : vec2 T) b, events_of o (a ++ b) = events_of o a ++ events_of (last (map endpoint a) o) b.
  Proof.
    induction a as [|c a IH]; intros o b; [reflexivity|]. cbn [map]. rewrite last_cons.
    destruct c; cbn [app events_of endpoint]; now rewrite IH.
  Qed.
  Lemma outlines_run s pt os : forall s0 its cs p0 gs r from, well_drawn os -> built s0 its cs s -> reading s pt p0 gs r ->
    exists r' s1 cs1 s2, deliver ring_funcs (events_of from (flat_map outline_calls os)) r = Ok r' /\
      insert_vertex_list (rd_clip r') (rd_first r') (rd_prev r') pt = Ok s2 /\ s1 = s2 /\
      built s0 (its ++ (pt, closed_segs p0 gs) :: items pt os) cs1 s2.
  Proof.
    revert s. induction os as [|o os IH]; intros s s0 its cs p0 gs r from WD B R.
    - destruct (close_run _ _ _ _ _ R) as (s1 & E & A). destruct (built_added _ _ _ _ _ _ _ B A) as [c B1].
      exists r, s1, (cs ++ c), s1. cbn. auto.
    - inversion WD as [|? ? D1 D2]; subst. destruct o as [p ds]. cbn [snd] in D1.
      destruct (moveto_next _ _ _ _ _ p from R) as (s1 & r1 & A & E1 & R1).
      destruct (built_added _ _ _ _ _ _ _ B A) as [c B1].
      destruct (draw_all s1 pt p ds p [] r1 D1 R1) as (r2 & E2 & R2).
      destruct (IH s1 s0 _ _ _ _ _ (last (map endpoint ds) p) D2 B1 R2) as (r3 & s3 & cs3 & s4 & E3 & E4 & -> & B3).
      exists r3, s4, cs3, s4. csplit; auto.
      + cbn [flat_map outline_calls fst snd app events_of deliver deliver1 ring_funcs f_move]. rewrite E1. cbn [bind].
        rewrite events_app, deliver_app. fold ring_funcs. rewrite E2. cbn [bind]. exact E3.
      + rewrite <- app_assoc in B3. cbn [app] in B3. pose proof (closed_outline (p, ds)) as K. cbn [fst snd] in K. rewrite K in B3. exact B3.
  Qed.
  Lemma add_one_run s0 its cs s pt os : well_drawn os -> built s0 its cs s ->
    exists s' cs', add_one_path s (run_calls (flat_map outline_calls os)) pt = Ok s' /\ built s0 (its ++ items pt os) cs' s'.
  Proof.
    intros WD B. unfold add_one_path. rewrite traverse_run_calls. fold (ring_funcs (T := T)).
    destruct os as [|[p ds] os].
    - exists s, cs. cbn. rewrite app_nil_r. auto.
    - inversion WD as [|? ? D1 D2]; subst. cbn [snd] in D1.
      destruct (moveto_run s pt p (Rd s pt None None) eq_refl eq_refl eq_refl origin) as (r1 & E1 & R1).
      destruct (draw_all s pt p ds p [] r1 D1 R1) as (r2 & E2 & R2).
      destruct (outlines_run s pt os s0 its cs _ _ _ (last (map endpoint ds) p) D2 B R2) as (r3 & s3 & cs3 & s4 & E3 & E4 & -> & B3).
      exists s4, cs3. split; [|cbn [app] in B3; pose proof (closed_outline (p, ds)) as K; cbn [fst snd] in K; rewrite K in B3; exact B3].
      cbn [flat_map outline_calls fst snd app events_of deliver deliver1 ring_funcs f_move]. rewrite E1. cbn [bind].
      rewrite events_app, deliver_app. fold (ring_funcs (T := T)). rewrite E2. cbn [bind]. rewrite E3. cbn [bind]. exact E4.
  Qed.
  Definition drawn (os : list (outline (T := T))) : path T := run_calls (flat_map outline_calls os).
  Lemma drawn_size os : os <> [] -> 1 < length (p_data (drawn os)).
  Proof.
    destruct os as [|[p ds] os]; [congruence|]. intros _. unfold drawn, run_calls. rewrite run_calls_layout.
    cbn [flat_map outline_calls fst snd app p_data path_empty]. simpl. lia.
  Qed.
  Lemma add_paths_run oss : forall s0 its cs s pt, Forall well_drawn oss -> built s0 its cs s ->
    exists s' cs', add_paths s (map drawn oss) pt = Ok s' /\ built s0 (its ++ items pt (concat oss)) cs' s'.
  Proof.
    induction oss as [|os oss IH]; intros s0 its cs s pt WD B.
    - exists s, cs. cbn. rewrite app_nil_r. auto.
    - inversion WD as [|? ? D1 D2]; subst. cbn [map add_paths concat]. unfold items. rewrite map_app, app_assoc.
      destruct (list_eq_nil os) as [->|NE].
      + cbn. rewrite app_nil_r. eauto.
      + replace (Nat.ltb 1 (length (p_data (drawn os)))) with true by (symmetry; apply Nat.ltb_lt; now apply drawn_size).
        destruct (add_one_run _ _ _ _ pt os D1 B) as (s1 & cs1 & E1 & B1). unfold drawn at 1. rewrite E1. cbn [bind]. eauto.
  Qed.
End Add.
