(** The active edge list during a run. *)
From Coq Require Import ZArith Bool List Permutation Lia.
From Verif Require Import Outcome Num Order Rmath Segment VState VPath VBreak VAel VOut VMain VLemmas VFrame ClipSpec AelSpec
  VAelProofs VEdges VAelRun.
Import ListNotations.
Local Open Scope out.

Section Run.
  Context {T : Type} {N : Num T}.
  Implicit Types s : clipper T.
  Implicit Types es : list (edge T).

  Lemma upd_snoc {A} (l : list A) x f : upd (l ++ [x]) (length l) f = l ++ [f x].
  Proof. induction l; simpl; congruence. Qed.
  Lemma nth_snoc_old {A} (l : list A) x i y : nth_error l i = Some y -> nth_error (l ++ [x]) i = Some y.
  Proof. intros H. rewrite nth_error_app1; auto. eapply nth_lt; eauto. Qed.

  (** A new edge is outside of the list and knows its minimum. *)
  Definition fresh (m : nat) (dx : Z) (e : edge T) :=
    e_dx e = dx /\ e_lmin e = m /\ e_prev e = None /\ e_next e = None /\ e_bound e = None.

  Lemma next_edge_last s es e i s' : edges s = es ++ [e] -> i = length es -> next_edge s i = Ok s' ->
    exists e', edges s' = es ++ [e'] /\ e_dx e' = e_dx e /\ e_lmin e' = e_lmin e /\ e_prev e' = e_prev e /\
      e_next e' = e_next e /\ e_bound e' = e_bound e.
  Proof.
    intros HE -> H. unfold next_edge in H. dmatch. cbn [edges w_edges]. rewrite HE, upd_snoc. eexists.
    split; [reflexivity|]. repeat split; reflexivity.
  Qed.
  Lemma skip_horz_last fuel : forall s es e i s' m dx, edges s = es ++ [e] -> i = length es -> fresh m dx e ->
    skip_horz fuel s i = Ok s' -> exists e', edges s' = es ++ [e'] /\ fresh m dx e'.
  Proof.
    induction fuel; intros s es e i s' m dx HE Hi HF H; cbn [skip_horz] in H; binv H; destruct (is_horz x); binvs; eauto; try discriminate.
    match goal with K : next_edge _ _ = Ok _ |- _ => destruct (next_edge_last s es e i _ HE Hi K) as (e1 & E2 & A & B & C & D & F) end.
    eapply (IHfuel (push_change x0 (vx (e_bot x1))) es e1); eauto. unfold fresh in *. intuition congruence.
  Qed.
  Lemma start_edge_last s m b t dx s' : start_edge s m b t dx = Ok s' ->
    exists e, edges s' = edges s ++ [e] /\ fresh m dx e.
  Proof.
    unfold start_edge. intros H. binv H. binv H. binv H. apply at_ok in E1.
    eapply (skip_horz_last _ _ (edges s)) in E0 as (e & A & B); [|reflexivity|reflexivity|].
    2: { repeat split; reflexivity. }
    apply emod_ok in H as [_ ->]. cbn [edges w_edges]. rewrite A, upd_snoc. eexists. split; [reflexivity|].
    unfold fresh in *. cbn. tauto.
  Qed.

  Lemma active_ext s s' l : active s l -> ael s' = ael s -> (exists x, edges s' = edges s ++ x) -> active s' l.
  Proof.
    intros (A1 & A2 & A3) Ha [x Hx]. split; [congruence|]. split; auto. rewrite Hx. eapply lseg_frame; [|exact A2].
    intros i e _ E. exists e. split; auto. rewrite nth_error_app1; auto. eapply nth_lt; eauto.
  Qed.
  Lemma active_bound_len s l i : active s l -> In i l -> i < length (edges s).
  Proof. intros H Hi. destruct (active_in s l i H Hi) as [e E]. eapply nth_lt; eauto. Qed.

  Lemma insert_left_ok s l1 l2 nw s' : active s (l1 ++ l2) -> ~ In nw (l1 ++ l2) ->
    insert_into_ael_left s (last_or None l1) nw = Ok s' ->
    exists m, Permutation (nw :: l1 ++ l2) m /\ active s' m /\ only_links s s'.
  Proof.
    intros HA Hn H. destruct (snoc_cases l1) as [->|(a & p & ->)].
    - destruct (insert_into_ael_ok s l2 nw s' HA Hn H) as (m1 & m2 & nc & K1 & K2 & K3 & _).
      exists (m1 ++ nw :: m2). csplit; auto. simpl. rewrite K1. apply Permutation_middle.
    - rewrite last_or_snoc in *. cbn [insert_into_ael_left] in H. rewrite <- app_assoc in *. cbn [app] in *.
      destruct (insert_after_ok s a p l2 nw s' HA Hn H) as (b1 & b2 & nc & K0 & _ & K1 & K2 & _).
      exists (a ++ b1 ++ nw :: b2). csplit; auto. rewrite K0, (app_assoc a b1), (app_assoc a b1 (nw :: b2)). apply Permutation_middle.
  Qed.

  (** A minimum adds two edges, with opposite directions. *)
  Lemma insert_minimum_ok s m l s' : active s l -> insert_minimum s m = Ok s' ->
    let a := length (edges s) in
    exists l' ea eb, Permutation (a :: S a :: l) l' /\ active s' l' /\
      erel same_edge (edges s ++ [ea; eb]) (edges s') /\ fresh m 1 ea /\ fresh m (-1) eb.
  Proof.
    intros HA H a. unfold insert_minimum in H. fold a in H. binvs.
    match goal with K : start_edge s _ _ _ _ = Ok ?s1 |- _ => rename K into F1; rename s1 into t1 end.
    match goal with K : start_edge t1 _ _ _ _ = Ok ?s1 |- _ => rename K into F2; rename s1 into t2 end.
    match goal with K : insert_into_ael t2 _ = Ok ?s1 |- _ => rename K into F3; rename s1 into t3 end.
    match goal with K : insert_into_ael_left t3 _ _ = Ok ?s1 |- _ => rename K into F4; rename s1 into t4 end.
    pose proof (start_edge_frame _ _ _ _ _ _ F1) as (_ & _ & G1 & _).
    pose proof (start_edge_frame _ _ _ _ _ _ F2) as (_ & _ & G2 & _).
    apply start_edge_last in F1 as (ea & A1 & A2). apply start_edge_last in F2 as (eb & B1 & B2).
    assert (L1 : length (edges t1) = S a) by (rewrite A1, app_length; simpl; unfold a; lia).
    assert (EE : edges t2 = edges s ++ [ea; eb]) by (rewrite B1, A1, <- app_assoc; reflexivity).
    assert (T2 : active t2 l) by (apply (active_ext s); [auto|congruence|eauto]).
    assert (La : ~ In a l) by (intros K; apply (active_bound_len s l a HA) in K; unfold a in K; lia).
    assert (Lb : ~ In (S a) l) by (intros K; apply (active_bound_len s l (S a) HA) in K; unfold a in K; lia).
    destruct (insert_into_ael_ok t2 l a t3 T2 La F3) as (l1 & l2 & nc & K1 & K2 & K3 & _).
    match goal with K : nth_error (edges t3) a = Some ?e |- _ => rename K into Na; rename e into xa end.
    destruct (active_split t3 l1 a l2 K2) as (e & N1 & N2 & N3). rewrite Na in N1. injection N1 as <-.
    rewrite N2, L1 in F4.
    destruct (insert_left_ok t3 l1 (a :: l2) (S a) t4 K2) as (l' & P1 & P2 & P3); auto.
    { intros K. apply in_app_or in K as [K|[K|K]]; [|lia|]; apply Lb; rewrite K1; apply in_or_app; auto. }
    assert (R : erel same_edge (edges s ++ [ea; eb]) (edges t4)).
    { rewrite <- EE. eapply same_edges_trans; [apply K3|apply P3]. }
    exists l', ea, eb. csplit; auto; try apply A2; try apply B2.
    rewrite <- P1, K1. etransitivity; [apply perm_swap|]. constructor. apply Permutation_middle.
  Qed.
End Run.

Section Run2.
  Context {T : Type} {N : Num T}.
  Implicit Types s : clipper T.
  Implicit Types es : list (edge T).

  Lemma insert_minima_ok y rest : forall s l s', active s l -> insert_minima s y rest = Ok s' ->
    exists l' x, Permutation (l ++ x) l' /\ active s' l' /\
      x = seq (length (edges s)) (length (edges s') - length (edges s)) /\ length (edges s) <= length (edges s').
  Proof.
    induction rest as [|m r IH]; intros s l s' HA H; cbn [insert_minima] in H.
    - binvs. exists l, []. rewrite app_nil_r, Nat.sub_diag. auto.
    - binv H. binv H. destruct (n_eqb (vy (v_pt x0)) y).
      2: { binvs. exists l, []. rewrite app_nil_r, Nat.sub_diag. auto. }
      apply bind_ok in H as (s1 & F & H).
      destruct (insert_minimum_ok (w_minima s (minima s) (S (cur s))) m l s1 HA F) as (l1 & ea & eb & P & A1 & [L1 _] & _).
      cbn in P, L1. rewrite app_length in L1. simpl in L1.
      destruct (IH s1 l1 s' A1 H) as (l' & t & P' & A' & Ht & Hl).
      exists l', (seq (length (edges s)) (length (edges s') - length (edges s))). csplit; auto; [|lia].
      rewrite <- P', <- P, Ht, L1.
      replace (length (edges s') - length (edges s)) with (2 + (length (edges s') - (length (edges s) + 2))) by lia.
      rewrite seq_app, app_assoc. apply Permutation_app_tail. cbn [seq].
      etransitivity; [apply Permutation_app_comm|]. reflexivity.
  Qed.

  Lemma delete_subseq {A} (a b : list A) i : subseq (a ++ b) (a ++ i :: b).
  Proof. induction a; simpl; [apply sub_skip, subseq_refl|now apply sub_keep]. Qed.
  Lemma subseq_trans {A} (b c : list A) : subseq b c -> forall a, subseq a b -> subseq a c.
  Proof.
    induction 1; intros l H'; auto.
    - apply sub_skip; auto.
    - inversion H'; subst; [apply sub_skip|apply sub_keep]; auto.
  Qed.

  (** Edges keep their direction and minimum. *)
  Definition same_side (e f : edge T) := e_dx f = e_dx e /\ e_lmin f = e_lmin e.
  Lemma pre_side : pre same_side.
  Proof. split; unfold same_side; intuition congruence. Qed.

  Lemma emod_active s i f s' l : (forall e, e_prev (f e) = e_prev e /\ e_next (f e) = e_next e) ->
    emod s i f = Ok s' -> active s l -> active s' l.
  Proof.
    intros Hf H. apply emod_ok in H as [_ ->]. intros (A1 & A2 & A3). split; [auto|split; auto]. cbn.
    now apply lseg_upd_keep.
  Qed.
  Lemma next_edge_active s i s' l : next_edge s i = Ok s' -> active s l -> active s' l.
  Proof. unfold next_edge. intros H. binvs. eapply emod_active; [|exact H]. auto. Qed.
  Lemma next_edge_side s i s' : next_edge s i = Ok s' -> erel same_side (edges s) (edges s').
  Proof.
    unfold next_edge. intros H. dmatch. cbn. apply erel_upd; [apply pre_side|]. intros e; split; reflexivity.
  Qed.
  Lemma do_maxima_ok s a i b n s' : active s (a ++ i :: b) -> do_maxima s i = Ok (n, s') ->
    n = hd_or b None /\ active s' (a ++ b) /\ erel same_side (edges s) (edges s').
  Proof.
    intros HA H. unfold do_maxima in H. binv H. apply bind_ok in H as (s1 & F & H).
    assert (A1 : active s1 (a ++ i :: b) /\ erel same_side (edges s) (edges s1)).
    { destruct (e_bound x); binvs.
      - mods. split; [|cbn; apply erel_upd; [apply pre_side|intros e; split; reflexivity]].
        eapply (emod_active (w_bounds s (upd (bounds s) n0 (set_bedge None))) i (set_ebound None)); [auto| |exact HA].
        eapply emod_run. eassumption.
      - split; auto. apply erel_refl, pre_side. }
    destruct A1 as [A1 A2]. destruct (delete_active_edge_ok s1 a i b n s' A1 H) as (K1 & K2 & K3 & _). csplit; auto.
    eapply erel_trans; [apply pre_side|exact A2|]. eapply erel_mono; [|exact K3]. intros e f ->. split; reflexivity.
  Qed.
  Lemma climb_ok fuel : forall s a i b n s', active s (a ++ i :: b) -> climb fuel s i = Ok (n, s') ->
    n = hd_or b None /\ (active s' (a ++ b) \/ active s' (a ++ i :: b)) /\ erel same_side (edges s) (edges s').
  Proof.
    induction fuel; intros s a i b n s' HA H; cbn [climb] in H; [discriminate|]. binv H. apply at_ok in E.
    destruct (is_horz x).
    - binv H. destruct x0.
      + destruct (do_maxima_ok (push_change s (vx (e_top x))) a i b n s' HA H) as (K1 & K2 & K3). auto.
      + apply bind_ok in H as (s1 & F & H). pose proof (next_edge_side _ _ _ F) as G.
        apply (next_edge_active _ _ _ (a ++ i :: b)) in F; auto.
        destruct (IHfuel _ _ _ _ _ _ F H) as (K1 & K2 & K3). csplit; auto.
        eapply erel_trans; [apply pre_side|exact G|exact K3].
    - binvs. destruct (active_split s a i b HA) as (e & E1 & E2 & E3). rewrite E in E1. injection E1 as <-.
      csplit; auto. apply erel_refl, pre_side.
  Qed.
  Lemma top_loop_ok fuel : forall s y lx c a b s', active s (a ++ b) -> c = hd_or b None -> top_loop fuel s y lx c = Ok s' ->
    exists b', subseq b' b /\ active s' (a ++ b') /\ erel same_side (edges s) (edges s').
  Proof.
    induction fuel; intros s y lx c a b s' HA Hc H; cbn [top_loop] in H.
    { destruct c; [discriminate|]. binvs. exists b. csplit; auto using subseq_refl. apply erel_refl, pre_side. }
    destruct b as [|i b]; cbn [hd_or] in Hc; subst c.
    { binvs. exists []. csplit; auto using subseq_refl. apply erel_refl, pre_side. }
    binv H. apply at_ok in E. destruct (active_split s a i b HA) as (e & E1 & E2 & E3).
    rewrite E in E1. injection E1 as <-. destruct (n_eqb (vy (e_top x)) y).
    - apply bind_ok in H as (s1 & F1 & H). apply bind_ok in H as (s2 & F2 & H). apply bind_ok in H as (m & F3 & H).
      pose proof (extend_bound_frame _ _ _ F2) as (_ & _ & _ & G4 & G5 & _).
      assert (S2 : erel same_side (edges s) (edges s2)).
      { rewrite G5. apply emod_ok in F1 as [_ ->]. destruct (n_eqb (vx (e_top x)) lx); cbn;
          (apply erel_upd; [apply pre_side|intros; split; reflexivity]). }
      assert (A2 : active s2 (a ++ i :: b)).
      { apply (emod_active _ _ _ _ (a ++ i :: b)) in F1; auto.
        eapply active_rel with (R := fun e f => e = f) (s := s1); [intros ? ? ->; auto| | |exact F1].
        - rewrite G5. destruct (n_eqb (vx (e_top x)) lx); split; cbn; eauto.
        - rewrite G4. destruct (n_eqb (vx (e_top x)) lx); reflexivity. }
      destruct m.
      + apply bind_ok in H as ([n s3] & F4 & H).
        destruct (do_maxima_ok s2 a i b n s3 A2 F4) as (K1 & K2 & K3).
        destruct (IHfuel _ _ _ _ _ _ _ K2 K1 H) as (b' & B1 & B2 & B3). exists b'. csplit; auto.
        * now apply sub_skip.
        * eapply erel_trans; [apply pre_side|exact S2|]. eapply erel_trans; [apply pre_side|exact K3|exact B3].
      + apply bind_ok in H as (s3 & F4 & H). apply bind_ok in H as ([n s4] & F5 & H).
        pose proof (next_edge_side _ _ _ F4) as S3. apply (next_edge_active _ _ _ (a ++ i :: b)) in F4; auto.
        destruct (climb_ok _ _ _ _ _ _ _ F4 F5) as (K1 & K2 & K3).
        assert (S4 : erel same_side (edges s) (edges s4)).
        { eapply erel_trans; [apply pre_side|exact S2|]. eapply erel_trans; [apply pre_side|exact S3|exact K3]. }
        destruct K2 as [K2|K2].
        * destruct (IHfuel _ _ _ _ _ _ _ K2 K1 H) as (b' & B1 & B2 & B3). exists b'. csplit; auto.
          -- now apply sub_skip.
          -- eapply erel_trans; [apply pre_side|exact S4|exact B3].
        * replace (a ++ i :: b) with ((a ++ [i]) ++ b) in K2 by (rewrite <- app_assoc; reflexivity).
          destruct (IHfuel _ _ _ _ _ _ _ K2 K1 H) as (b' & B1 & B2 & B3). exists (i :: b').
          rewrite <- app_assoc in B2. csplit; auto.
          -- now apply sub_keep.
          -- eapply erel_trans; [apply pre_side|exact S4|exact B3].
    - apply bind_ok in H as (s1 & F1 & H). apply bind_ok in H as (e' & F2 & H). apply bind_ok in H as (s2 & F3 & H).
      assert (A1 : active s1 (a ++ i :: b) /\ erel same_side (edges s) (edges s1)).
      { unfold update_x in F1. binvs. split; [eapply emod_active; [|exact F1|exact HA]; auto|].
        mods. cbn. apply erel_upd; [apply pre_side|intros; split; reflexivity]. }
      destruct A1 as [A1 A2]. apply bmod_opt_edges in F3 as [G1 G2].
      apply at_ok in F2. destruct (active_split s1 a i b A1) as (e1 & N1 & N2 & N3). rewrite F2 in N1. injection N1 as <-.
      rewrite N3 in H. replace (a ++ i :: b) with ((a ++ [i]) ++ b) in A1 by (rewrite <- app_assoc; reflexivity).
      assert (A3 : active (if n_eqb (e_x e') lx then push_change s2 lx else s2) ((a ++ [i]) ++ b)).
      { destruct A1 as (X1 & X2 & X3). destruct (n_eqb (e_x e') lx); (split; [cbn; congruence|split; auto]); cbn; rewrite G1; auto. }
      destruct (IHfuel _ _ _ _ _ _ _ A3 eq_refl H) as (b' & B1 & B2 & B3). exists (i :: b').
      rewrite <- app_assoc in B2. csplit; auto.
      + now apply sub_keep.
      + eapply erel_trans; [apply pre_side|exact A2|]. destruct (n_eqb (e_x e') lx); cbn in B3; now rewrite G1 in B3.
  Qed.

  Definition has_list s := exists l, active s l.

  (** In every run the list is well formed at every turn of the main loop. *)
  Lemma scan_at_list n s y s' : has_list s -> scan_at n s y = Ok s' -> has_list s'.
  Proof.
    intros [l HA] H. unfold scan_at in H. apply bind_ok in H as (s1 & F1 & H). apply bind_ok in H as (s2 & F2 & H).
    destruct (insert_minima_ok _ _ _ _ _ HA F1) as (l' & x & _ & A1 & _).
    exists l'. eapply active_bound; [eapply update_output_bound_eb; eauto| |].
    - apply update_output_bound_frame in H. tauto.
    - eapply active_count; [eapply recalc_windcnt_ec; eauto| |exact A1]. apply recalc_windcnt_frame in F2. tauto.
  Qed.
  Lemma beam_list n s y s' : has_list s -> beam n s y = Ok s' -> has_list s'.
  Proof.
    intros [l HA] H. unfold beam in H. apply bind_ok in H as (s1 & F1 & H). apply bind_ok in H as (s2 & F2 & H).
    unfold do_top_of_scanbeam in F1.
    assert (HA0 : active (w_changes s []) ([] ++ l)) by exact HA.
    destruct (top_loop_ok _ _ _ _ _ _ _ _ HA0 (proj1 HA0) F1) as (l1 & _ & A1 & _).
    assert (A2 : active s2 ([] ++ l1)).
    { eapply active_bound; [eapply close_output_eb; eauto| |exact A1]. apply close_output_frame in F2. tauto. }
    destruct (resort_ael_ok s2 _ s' A2 H) as (l' & _ & A' & _). exists l'. auto.
  Qed.
  Lemma pop_scanline_list s y p s' : has_list s -> pop_scanline s y = (p, s') -> has_list s'.
  Proof.
    intros [l HA] H. apply pop_scanline_frame in H as (_ & _ & P1 & P2 & _). exists l.
    destruct HA as (A1 & A2 & A3). split; [congruence|]. rewrite P2. auto.
  Qed.
  Lemma reset_list s s' : reset s = Ok s' -> has_list s'.
  Proof.
    unfold reset. intros H. binvs. exists []. repeat split; cbn; auto. constructor.
  Qed.
  Lemma seen_list en n s0 op fill s y : seen en n s0 op fill s y -> has_list s.
  Proof.
    induction 1.
    - eapply pop_scanline_list; [|eassumption]. eapply reset_list; eauto.
    - eapply beam_list; [|eassumption]. eapply pop_scanline_list; [|eassumption]. eapply scan_at_list; eauto.
  Qed.
End Run2.

Section Statements.
  Context {T : Type}.
  Implicit Types s : clipper T.
  Lemma take_ok_lemma s a i b : active s (a ++ i :: b) ->
    exists s', take_from_ael s i = Ok s' /\ active s' (a ++ b) /\ only_links s s'.
  Proof.
    intros HA. destruct (take_from_ael_run s _ i HA) as [s' H]; [apply in_or_app; right; now left|].
    exists s'. split; auto. eapply take_from_ael_ok; eauto.
  Qed.
  Lemma emod_run s i e f : nth_error (edges s) i = Some e -> emod s i f = Ok (w_edges s (upd (edges s) i f)).
  Proof. intros E. unfold emod, at_. now rewrite E. Qed.
  Lemma delete_ok_lemma s a i b : active s (a ++ i :: b) ->
    exists s', delete_active_edge s i = Ok (hd_or b None, s') /\ active s' (a ++ b) /\ only_links s s'.
  Proof.
    intros HA. assert (K : exists n s', delete_active_edge s i = Ok (n, s')).
    { destruct (active_split _ _ _ _ HA) as (e & E & P & Q). unfold delete_active_edge, at_. rewrite E. cbn [bind of_opt].
      assert (H1 : exists s1, emod_opt s (e_next e) (set_eprev (e_prev e)) = Ok s1 /\ length (edges s1) = length (edges s)).
      { rewrite Q. destruct b as [|j b]; cbn [hd_or emod_opt]; [eauto|].
        destruct (active_in _ _ j HA) as [f F]; [apply in_or_app; right; right; now left|].
        rewrite (emod_run _ _ _ _ F). eexists. split; [reflexivity|]. cbn. apply length_upd. }
      destruct H1 as (s1 & -> & L1). cbn [bind]. rewrite P. destruct (snoc_cases a) as [->|(a' & j & ->)].
      - cbn. eauto.
      - rewrite last_or_snoc. destruct (active_in _ _ j HA) as [f F]; [apply in_or_app; left; apply in_or_app; right; now left|].
        assert (K : j < length (edges s1)) by (rewrite L1; apply nth_error_Some; congruence).
        destruct (nth_error (edges s1) j) as [g|] eqn:G; [|apply nth_error_None in G; lia].
        rewrite (emod_run _ _ _ _ G). cbn. eauto. }
    destruct K as (n & s' & H). exists s'. destruct (delete_active_edge_ok _ _ _ _ _ _ HA H) as (-> & K). auto.
  Qed.
  Context {N : Num T}.
  Lemma insert_ok_lemma s l nw s' : active s l -> ~ In nw l -> insert_into_ael s nw = Ok s' ->
    exists l1 l2, l = l1 ++ l2 /\ active s' (l1 ++ nw :: l2) /\ only_links s s'.
  Proof. intros A H1 H2. destruct (insert_into_ael_ok _ _ _ _ A H1 H2) as (l1 & l2 & nc & ? & ? & ? & _). eauto. Qed.
  Lemma history_lemma ops s l m s' : active s l -> members l ops m -> ael_run s ops = Ok s' ->
    exists m', Permutation m m' /\ active s' m' /\ erel same_but_links (edges s) (edges s').
  Proof. intros A M H. eapply ael_run_ok; eauto. Qed.
  Lemma history_fuel ops l m : members l ops m -> forall s l0, Permutation l0 l -> active s l0 -> ael_run s ops <> NoFuel.
  Proof.
    induction 1; intros s l0 P A; cbn [ael_run]; try discriminate.
    - apply bind_fuel; [|intros s1 F1 F2].
      + eapply insert_into_ael_fuel; eauto.
      + destruct (insert_ok_lemma _ _ _ _ A (fun K => H (Permutation_in _ P K)) F1) as (l1 & l2 & -> & A1 & _).
        eapply IHmembers; [|exact A1|exact F2]. rewrite <- Permutation_middle. now constructor.
    - cbn. intros F. assert (K : In i l0) by (eapply Permutation_in; [symmetry; exact P|]; apply in_or_app; right; now left).
      apply in_split in K as (a' & b' & ->). destruct (take_ok_lemma _ _ _ _ A) as (s1 & F1 & A1 & _).
      rewrite F1 in F. cbn in F. eapply IHmembers; [|exact A1|exact F]. eapply Permutation_app_inv; exact P.
    - cbn. intros F. assert (K : In i l0) by (eapply Permutation_in; [symmetry; exact P|]; apply in_or_app; right; now left).
      apply in_split in K as (a' & b' & ->). destruct (delete_ok_lemma _ _ _ _ A) as (s1 & F1 & A1 & _).
      rewrite F1 in F. cbn in F. eapply IHmembers; [|exact A1|exact F]. eapply Permutation_app_inv; exact P.
    - apply bind_fuel; [|intros s1 F1 F2].
      + eapply resort_ael_fuel; eauto.
      + destruct (resort_ael_ok _ _ _ A F1) as (l1 & P1 & A1 & _). eapply IHmembers; [|exact A1|exact F2].
        now rewrite <- P1.
    - eapply IHmembers; [|exact A]. now rewrite P.
  Qed.
  Lemma history_fuel_lemma ops s l m : active s l -> members l ops m -> ael_run s ops <> NoFuel.
  Proof. intros A M. eapply history_fuel; eauto. Qed.
  Lemma insert_left_lemma s l1 l2 nw s' : active s (l1 ++ l2) -> ~ In nw (l1 ++ l2) ->
    insert_into_ael_left s (last_or None l1) nw = Ok s' ->
    exists m1 m2, l1 ++ l2 = m1 ++ m2 /\ active s' (m1 ++ nw :: m2) /\ only_links s s'.
  Proof.
    intros HA Hn H. destruct (snoc_cases l1) as [->|(a & r & ->)].
    - cbn in H. eapply insert_ok_lemma; eauto.
    - rewrite last_or_snoc in H. cbn in H. rewrite <- app_assoc in *. cbn in *.
      destruct (insert_after_ok _ _ _ _ _ _ HA Hn H) as (b1 & b2 & nc & E & _ & A1 & K & _).
      exists (a ++ b1), b2. rewrite E, <- !app_assoc. auto.
  Qed.
  Context {O : OrdNum T}.
  Lemma insert_ordered_lemma s l nw s' : active s l -> ~ In nw l -> xvalid (edges s) (nw :: l) ->
    ordered (edges s) l -> insert_into_ael s nw = Ok s' ->
    exists l1 l2, l = l1 ++ l2 /\ active s' (l1 ++ nw :: l2) /\ ordered (edges s') (l1 ++ nw :: l2).
  Proof. intros A H1 V W H2. destruct (insert_ordered _ _ _ _ A H1 W V H2) as (l1 & l2 & ? & ? & ? & _). eauto. Qed.
  Lemma insert_left_ordered_lemma s l1 l2 nw s' : active s (l1 ++ l2) -> ~ In nw (l1 ++ l2) -> xvalid (edges s) (nw :: l1 ++ l2) ->
    ordered (edges s) (l1 ++ l2) ->
    (forall p ep enw, last_or None l1 = Some p -> nth_error (edges s) p = Some ep ->
       nth_error (edges s) nw = Some enw -> n_leb (e_x ep) (e_x enw) = true) ->
    insert_into_ael_left s (last_or None l1) nw = Ok s' ->
    exists m1 m2, l1 ++ l2 = m1 ++ m2 /\ active s' (m1 ++ nw :: m2) /\ ordered (edges s') (m1 ++ nw :: m2).
  Proof.
    intros A H1 V W L H2. destruct (insert_left_ordered _ _ _ _ _ A H1 W V L H2) as (m1 & m2 & ? & ? & ? & _). eauto.
  Qed.
End Statements.
