(** A processor that has been used before: what the next call emits. *)
From Coq Require Import ZArith Bool List Lia Permutation.
From Verif Require Import Outcome Num Rmath Segment Path VState VPath VBreak VAel VOut VMain VLemmas VFrame VOutProofs SortProofs ClipSpec VFresh.
Import ListNotations.
Local Open Scope out.

Section Repeat.
  Context {T : Type} {N : Num T}.
  Implicit Types s : clipper T.

  (** *** Loading leaves the results of earlier runs alone *)
  Definition store s := (scans s, edges s, bounds s, polys s, obl s, ael s).
  Lemma set_segment_store s p m g s' : set_segment s p m g = Ok s' ->
    store s' = store s /\ lmins s' = lmins s /\ minima s' = minima s /\ cop s' = cop s /\ cfill s' = cfill s.
  Proof. unfold set_segment. intros H. dmatch; auto. Qed.
  Lemma add_local_min_store s v p s' : add_local_min s v p = Ok s' -> store s' = store s.
  Proof. unfold add_local_min. intros H. dmatch; auto. Qed.
  Lemma mark_extrema_store fuel : forall s pt f p c g s' r, mark_extrema fuel s pt f p c g = Ok (s', r) -> store s' = store s.
  Proof.
    induction fuel; intros s pt f p c g s' r H; simpl in H.
    - destruct (Nat.eqb c f); binvs; auto; discriminate.
    - destruct (Nat.eqb c f); binvs; auto. apply IHfuel in H. rewrite H. clear H.
      destruct (_ && _).
      + binvs. use add_local_min_store. auto.
      + destruct (_ && _); binvs; mods; auto.
  Qed.
  Lemma insert_vertex_list_store s f e pt s' : insert_vertex_list s f e pt = Ok s' -> store s' = store s.
  Proof.
    unfold insert_vertex_list. intros H. destruct f, e; binvs; auto.
    destruct (v_next x) eqn:Nx; binvs; auto. destruct (Nat.eqb n1 n); binvs; auto.
    assert (A : store x1 = store s).
    { destruct (vneqb _ _); binvs; use set_segment_store; auto. }
    destruct (Nat.eqb x3 n); binvs; auto. destruct x4; binvs; auto.
    use mark_extrema_store.
    assert (B : store x4 = store c).
    { destruct (Bool.eqb _ _); binvs; auto. destruct b; mods; auto. eapply add_local_min_store; eauto. }
    unfold store in *. cbn. congruence.
  Qed.
  Lemma append_seg_store r g r' : append_seg (T := T) r g = Ok r' -> store (rd_clip r') = store (rd_clip r).
  Proof. unfold append_seg. intros H. simpl in H. binvs. use set_segment_store. auto. Qed.
  Lemma read_moveto_store a b r r' : read_moveto (T := T) a b r = Ok r' -> store (rd_clip r') = store (rd_clip r).
  Proof.
    unfold read_moveto. intros H. binv H. simpl in H. binvs. mods. cbn.
    destruct (rd_first r); binvs; auto. use insert_vertex_list_store. auto.
  Qed.
  Lemma read_lineto_store a b r r' : read_lineto (T := T) a b r = Ok r' -> store (rd_clip r') = store (rd_clip r).
  Proof. unfold read_lineto. intros H. destruct (vneqb a b); binvs; auto. now apply append_seg_store in H. Qed.
  Lemma read_cubicto_store a b c d r r' : read_cubicto (T := T) a b c d r = Ok r' -> store (rd_clip r') = store (rd_clip r).
  Proof.
    unfold read_cubicto. intros H. destruct (_ && _ && _); [now apply read_lineto_store in H|].
    destruct (bsplit_many _ _) as [|z0 [|z1 [|z2 [|z3 zs]]]]; binvs; repeat use append_seg_store; congruence.
  Qed.
  Lemma add_one_path_store s p pt s' : add_one_path s p pt = Ok s' -> store s' = store s.
  Proof.
    unfold add_one_path, traverse. intros H. binvs.
    apply (traverse_loop_inv (fun r => store (rd_clip r) = store s)) in E; auto.
    - apply insert_vertex_list_store in H. congruence.
    - intros a b r r' H1 A. apply read_moveto_store in H1. congruence.
    - intros a b r r' H1 A. apply read_lineto_store in H1. congruence.
    - intros a b c d r r' H1 A. apply read_cubicto_store in H1. congruence.
  Qed.
  Lemma add_paths_store ps pt : forall s s', add_paths s ps pt = Ok s' -> store s' = store s.
  Proof.
    induction ps; intros s s' H; simpl in H; binvs; auto.
    apply IHps in H. rewrite H. destruct (Nat.ltb _ _); binvs; auto. eapply add_one_path_store; eauto.
  Qed.

  (** *** Breaking contours leaves them alone too, and the points of the vertices *)
  Definition keeps (a b : list (vertex T)) : Prop :=
    forall i v, nth_error a i = Some v -> exists w, nth_error b i = Some w /\ v_pt w = v_pt v.
  Lemma keeps_refl a : keeps a a.
  Proof. intros i v H. eauto. Qed.
  Lemma keeps_trans a b c : keeps a b -> keeps b c -> keeps a c.
  Proof. intros H K i v E. destruct (H i v E) as (w & F & G). destruct (K i w F) as (u & ? & ?). exists u. split; congruence. Qed.
  Lemma keeps_upd a i f : (forall v, nth_error a i = Some v -> v_pt (f v) = v_pt v) -> keeps a (upd a i f).
  Proof.
    intros K j v E. rewrite nth_upd. destruct (Nat.eqb i j) eqn:D; [|eauto]. apply Nat.eqb_eq in D. subst j.
    rewrite E. cbn. eauto.
  Qed.
  Lemma keeps_app a b : keeps a (a ++ b).
  Proof.
    intros i v E. exists v. split; auto. rewrite nth_error_app1; auto. apply nth_error_Some. congruence.
  Qed.
  Definition same s s' := store s' = store s /\ lmins s' = lmins s /\ minima s' = minima s /\ cop s' = cop s /\ cfill s' = cfill s.
  Lemma set_segment_keeps s p m g s' : set_segment s p m g = Ok s' ->
    forall v, nth_error (verts s) m = Some v -> seg_target g = v_pt v -> keeps (verts s) (verts s').
  Proof.
    unfold set_segment. intros H v Hv E. binvs. mods. cbn [verts w_verts].
    eapply keeps_trans; apply keeps_upd; [auto|]. intros w Hw. cbn. rewrite nth_upd in Hw.
    destruct (Nat.eqb _ _); rewrite Hv in Hw; cbn in Hw; injection Hw as <-; auto.
  Qed.
  Lemma chain_same gs : forall s c s' n, chain s c gs = Ok (s', n) -> same s s' /\ keeps (verts s) (verts s').
  Proof.
    induction gs as [|g gs IH]; intros s c s' n H; simpl in H; binvs; [split; [repeat split|apply keeps_refl]|].
    apply IH in H as (A & B). clear IH. split.
    - apply set_segment_store in E. unfold same, store in *. cbn in *. intuition congruence.
    - eapply keeps_trans; [|exact B]. unfold set_segment in E. binvs. mods. cbn [verts w_verts].
      intros i v Hv. assert (L : i < length (verts s)) by (apply nth_error_Some; congruence).
      rewrite nth_upd. replace (Nat.eqb (length (verts s)) i) with false by (symmetry; apply Nat.eqb_neq; lia).
      rewrite nth_upd, nth_error_app1, Hv by auto. destruct (Nat.eqb _ _); cbn; eauto.
  Qed.
  Lemma relink_same s st gs l s' : (forall p, seg_target (l p) = p) -> relink s st gs l = Ok s' -> same s s' /\ keeps (verts s) (verts s').
  Proof.
    unfold relink. intros HL H. binvs. apply chain_same in E1 as (A & B). mods.
    pose proof (set_segment_keeps _ _ _ _ _ E3 _ E2 (HL _)) as K. apply set_segment_store in E3. split.
    - unfold same, store in *. cbn in *. intuition congruence.
    - cbn [verts w_verts]. eapply keeps_trans; [exact B|]. eapply keeps_trans; [exact K|]. apply keeps_upd. auto.
  Qed.
  Lemma break_vertex_same s st bs s' : break_vertex s st bs = Ok s' -> same s s' /\ keeps (verts s) (verts s').
  Proof.
    unfold break_vertex. intros H. binvs.
    destruct x0; binvs; try (split; [repeat split|apply keeps_refl]); apply relink_same in H; auto.
  Qed.
  Lemma break_all_same fuel : forall s l s', break_all fuel s l = Ok s' -> same s s' /\ keeps (verts s) (verts s').
  Proof.
    induction fuel; intros s l s' H; simpl in H; (destruct l; [binvs; split; [repeat split|apply keeps_refl]|]); [discriminate|].
    destruct (take_run (br_vert b) (b :: l)) as [r1 r2].
    binvs. apply break_vertex_same in E as (A & B). apply IHfuel in H as (C & D). split; [|eapply keeps_trans; eauto].
    unfold same, store in *. intuition congruence.
  Qed.
  Lemma process_intersect_same en s s' : process_intersect en s = Ok s' -> same s s' /\ keeps (verts s) (verts s').
  Proof. unfold process_intersect. intros H. binvs. apply break_all_same in H as (A & B). split; auto. Qed.

  (** *** What is loaded stays loaded *)
  Definition grows s s' : Prop :=
    keeps (verts s) (verts s') /\
    (forall m l, nth_error (lmins s) m = Some l -> nth_error (lmins s') m = Some l) /\
    (forall m, In m (minima s) -> In m (minima s')).
  Lemma grows_refl s : grows s s.
  Proof. split; [apply keeps_refl|auto]. Qed.
  Lemma grows_trans s1 s2 s3 : grows s1 s2 -> grows s2 s3 -> grows s1 s3.
  Proof. intros (A & B & C) (D & E & F). split; [eapply keeps_trans; eauto|auto]. Qed.
  Lemma grows_verts s s' : lmins s' = lmins s -> minima s' = minima s -> keeps (verts s) (verts s') -> grows s s'.
  Proof. intros A B K. split; auto. rewrite A, B. auto. Qed.
  Lemma keeps_len a b : keeps a b -> length a <= length b.
  Proof.
    intros K. destruct (Nat.le_gt_cases (length a) (length b)) as [|L]; auto.
    destruct (nth_error a (length b)) eqn:E; [|apply nth_error_None in E; lia].
    destruct (K _ _ E) as (w & W & _). assert (nth_error b (length b) <> None) by congruence.
    apply nth_error_Some in H. lia.
  Qed.
  Lemma vmod_grows s i f s' : (forall v, v_pt (f v) = v_pt v) -> vmod s i f = Ok s' -> grows s s'.
  Proof. intros K H. mods. apply grows_verts; auto. apply keeps_upd. auto. Qed.
  Lemma new_vertex_grows s : grows s (snd (new_vertex s)).
  Proof. apply grows_verts; auto. apply keeps_app. Qed.
  (** From a state [s0] a vertex newer than [s0] is linked. *)
  Lemma set_segment_grows s0 s p m g s' : grows s0 s -> length (verts s0) <= m -> set_segment s p m g = Ok s' -> grows s0 s'.
  Proof.
    intros G L H. pose proof (set_segment_store _ _ _ _ _ H) as (_ & A & B & _). unfold set_segment in H. binvs. mods.
    destruct G as (K & K1 & K2). cbn [lmins minima w_verts] in *. split; [|split; cbn; congruence || auto].
    cbn [verts w_verts]. intros i v Hv. assert (i < length (verts s0)) by (apply nth_error_Some; congruence).
    destruct (K _ _ Hv) as (w & W1 & W2). rewrite nth_upd. replace (Nat.eqb m i) with false by (symmetry; apply Nat.eqb_neq; lia).
    rewrite nth_upd, W1. destruct (Nat.eqb _ _); cbn; eauto.
  Qed.
  Lemma add_local_min_grows s v p s' : add_local_min s v p = Ok s' -> grows s s'.
  Proof.
    unfold add_local_min. intros H. binv H. destruct (v_min x); binvs; [apply grows_refl|]. mods. split; [|split]; cbn.
    - apply keeps_upd. auto.
    - intros m l K. rewrite nth_error_app1; auto. apply nth_error_Some. congruence.
    - intros m K. apply in_or_app. auto.
  Qed.
  Lemma mark_extrema_grows fuel : forall s pt f p c g s' r, mark_extrema fuel s pt f p c g = Ok (s', r) -> grows s s'.
  Proof.
    induction fuel; intros s pt f p c g s' r H; simpl in H.
    - destruct (Nat.eqb c f); binvs; [apply grows_refl|discriminate].
    - destruct (Nat.eqb c f); [binvs; apply grows_refl|]. binv H. binv H. binv H. destruct x1 as [s1 d]. binv H. binv H.
      apply IHfuel in H. eapply grows_trans; [|exact H]. clear H.
      destruct (_ && _).
      + binvs. eapply add_local_min_grows; eauto.
      + destruct (_ && _); [|binvs; apply grows_refl]. binv E1. injection E1 as <- <-. eapply vmod_grows; eauto. auto.
  Qed.
  Lemma insert_vertex_list_grows s0 s f e pt s' : grows s0 s -> (forall i, f = Some i -> length (verts s0) <= i) ->
    insert_vertex_list s f e pt = Ok s' -> grows s0 s'.
  Proof.
    unfold insert_vertex_list. intros G L H. destruct f as [f|], e as [e|]; try (injection H as <-; auto).
    binv H. destruct (v_next x); [|injection H as <-; auto]. destruct (Nat.eqb n f); [injection H as <-; auto|].
    binv H. binv H.
    assert (A : grows s0 x1).
    { specialize (L f eq_refl). destruct (vneqb _ _); binvs; eapply set_segment_grows; eauto. }
    binv H. binv H. destruct (Nat.eqb x3 f); [injection H as <-; auto|]. binv H. destruct x4; [|injection H as <-; auto].
    binv H. destruct x4 as [s2 [q d]]. binv H. injection H as <-.
    apply mark_extrema_grows in E5. apply (grows_trans s0 x4); [|apply grows_verts; auto; apply keeps_refl].
    eapply grows_trans; [exact A|]. eapply grows_trans; [exact E5|].
    destruct (Bool.eqb _ _); [binvs; apply grows_refl|]. destruct b; [eapply vmod_grows; eauto; auto|eapply add_local_min_grows; eauto].
  Qed.
  Definition reads s0 (r : rd_state T) : Prop := grows s0 (rd_clip r) /\ forall i, rd_first r = Some i -> length (verts s0) <= i.
  Lemma append_seg_reads s0 r g r' : append_seg (T := T) r g = Ok r' -> reads s0 r -> reads s0 r'.
  Proof.
    unfold append_seg. intros H (G & L). cbn [new_vertex] in H. binv H. injection H as <-. split; [|exact L]. cbn [rd_clip].
    eapply set_segment_grows; [|apply keeps_len, G|exact E]. eapply grows_trans; [exact G|apply new_vertex_grows].
  Qed.
  Lemma read_moveto_reads s0 a b r r' : read_moveto (T := T) a b r = Ok r' -> reads s0 r -> reads s0 r'.
  Proof.
    unfold read_moveto. intros H (G & L). binv H.
    assert (A : grows s0 x).
    { destruct (rd_first r) eqn:F; [|binvs; auto]. eapply insert_vertex_list_grows; eauto. }
    cbn [new_vertex] in H. binv H. injection H as <-. mods.
    assert (LN : length (verts s0) <= length (verts x)) by apply keeps_len, A.
    split; cbn [rd_clip rd_first]; [|intros i X; injection X as <-; auto].
    destruct A as (A & B & C). split; [|split]; cbn; auto. intros i v Hv. assert (i < length (verts s0)) by (apply nth_error_Some; congruence).
    destruct (A _ _ Hv) as (w & W1 & W2). exists w. split; auto.
    rewrite nth_upd. replace (Nat.eqb (length (verts x)) i) with false by (symmetry; apply Nat.eqb_neq; lia).
    rewrite nth_error_app1; auto. lia.
  Qed.
  Lemma read_lineto_reads s0 a b r r' : read_lineto (T := T) a b r = Ok r' -> reads s0 r -> reads s0 r'.
  Proof. unfold read_lineto. intros H. destruct (vneqb a b); [eapply append_seg_reads; eauto|]. injection H as <-. auto. Qed.
  Lemma read_cubicto_reads s0 a b c d r r' : read_cubicto (T := T) a b c d r = Ok r' -> reads s0 r -> reads s0 r'.
  Proof.
    unfold read_cubicto. intros H R. destruct (_ && _ && _); [eapply read_lineto_reads; eauto|].
    destruct (bsplit_many _ _) as [|z0 [|z1 [|z2 [|z3 zs]]]]; repeat match type of H with bind _ _ = _ => apply bind_ok in H as (? & ? & H) end;
      eauto 6 using append_seg_reads.
  Qed.
  Lemma add_one_path_grows s p pt s' : add_one_path s p pt = Ok s' -> grows s s'.
  Proof.
    unfold add_one_path, traverse. intros H. binv H.
    apply (traverse_loop_inv (reads s)) in E.
    - destruct E as (A & B). eapply insert_vertex_list_grows; eauto.
    - intros a b r r' K. apply (read_moveto_reads _ _ _ _ _ K).
    - intros a b r r' K. apply (read_lineto_reads _ _ _ _ _ K).
    - intros a b c d r r' K. apply (read_cubicto_reads _ _ _ _ _ _ _ K).
    - split; [apply grows_refl|]. cbn. discriminate.
  Qed.
  Lemma add_paths_grows ps pt : forall s s', add_paths s ps pt = Ok s' -> grows s s'.
  Proof.
    induction ps; intros s s' H; cbn [add_paths] in H; [injection H as <-; apply grows_refl|]. binv H.
    apply IHps in H. eapply grows_trans; [|exact H]. destruct (Nat.ltb _ _); [eapply add_one_path_grows; eauto|].
    injection E as <-. apply grows_refl.
  Qed.

  (** *** The scan lines of the minima *)
  Definition min_at s (m : nat) (y : T) : Prop :=
    exists l v, nth_error (lmins s) m = Some l /\ nth_error (verts s) (lm_vert l) = Some v /\ vy (v_pt v) = y.
  Lemma push_minima_scans l : forall s s', push_minima s l = Ok s' ->
    (forall y, In y (scans s') <-> In y (scans s) \/ exists m, In m l /\ min_at s m y) /\
    s' = w_scans s (scans s').
  Proof.
    induction l as [|m l IH]; intros s s' H; simpl in H.
    - binvs. split; [|destruct s'; reflexivity]. intros y. split; auto. intros [K|(m & [] & _)]; auto.
    - binvs. apply IH in H as (A & B). split; [|exact B].
      assert (M : forall k y, min_at (insert_scanline s (vy (v_pt x0))) k y <-> min_at s k y) by (intros; reflexivity).
      intros y. rewrite A. cbn [scans insert_scanline w_scans]. split.
      + intros [K|(k & K & L)]; [|right; exists k; split; [right; auto|now apply M]].
        apply (Permutation_in _ (Permutation_sym (insert_by_perm n_ltb _ _))) in K. destruct K as [<-|K]; auto.
        right. exists m. split; [left; auto|]. exists x, x0. auto.
      + intros [K|(k & [<-|K] & L)].
        * left. apply (Permutation_in _ (insert_by_perm n_ltb _ _)). right; auto.
        * left. apply (Permutation_in _ (insert_by_perm n_ltb _ _)). left. destruct L as (l' & v & L1 & L2 & L3). congruence.
        * right. exists k. split; auto.
  Qed.
  Lemma reset_same s s' : reset s = Ok s' ->
    (forall y, In y (scans s') <-> In y (scans s) \/ exists m, In m (minima s) /\ min_at s m y) /\
    edges s' = edges s /\ bounds s' = bounds s /\ polys s' = polys s /\ obl s' = None /\ ael s' = None /\
    lmins s' = lmins s /\ verts s' = verts s /\ Permutation (minima s) (minima s') /\ cop s' = cop s /\ cfill s' = cfill s.
  Proof.
    unfold reset. intros H. binvs. apply push_minima_scans in E as (A & B). cbn [scans w_obl w_ael]. split.
    - intros y. rewrite A. cbn [scans w_minima].
      assert (P : forall m, In m (rev (sort_by (min_ltb s) (minima s))) <-> In m (minima s)).
      { intros m. rewrite <- in_rev. split; apply Permutation_in; [apply Permutation_sym|]; apply sort_by_perm. }
      split; (intros [K|(m & K & L)]; [left; auto|right; exists m; split; [apply P; auto|exact L]]).
    - rewrite B. cbn. repeat split; auto. apply sort_by_perm.
  Qed.
  Lemma push_minima_at l : forall s s', push_minima s l = Ok s' -> forall m, In m l -> exists y, min_at s m y.
  Proof.
    induction l as [|k l IH]; intros s s' H m M; [contradiction|]. simpl in H. binvs. destruct M as [<-|M].
    - exists (vy (v_pt x0)), x, x0. auto.
    - destruct (IH _ _ H m M) as (y & Y). exists y. exact Y.
  Qed.
  Lemma reset_at s s' : reset s = Ok s' -> forall m, In m (minima s) -> exists y, min_at s m y.
  Proof.
    unfold reset. intros H m M. binvs. eapply (push_minima_at _ _ _ E m). rewrite <- in_rev.
    eapply Permutation_in; [apply sort_by_perm|exact M].
  Qed.
  Lemma drop_eq_none y l : drop_eq (T := T) y l = [] <-> forall x, In x l -> n_eqb x y = true.
  Proof.
    induction l as [|a l IH]; cbn [drop_eq]; [split; [intros _ x []|auto]|]. destruct (n_eqb a y) eqn:E.
    - rewrite IH. split; [intros H x [<-|K]; auto|intros H x K; apply H; right; auto].
    - split; [discriminate|]. intros H. rewrite (H a) in E by (left; auto). discriminate.
  Qed.
  (** Some minimum is not at the least number. *)
  Definition begins s : Prop := exists m y, In m (minima s) /\ min_at s m y /\ n_eqb y (n_neg n_huge) = false.
  Lemma begins_pop s s' : scans s = [] -> reset s = Ok s' ->
    match pop_scanline s' (n_neg n_huge) with
    | (Some _, _) => begins s
    | (None, _) => ~ begins s
    end.
  Proof.
    intros S H. apply reset_same in H as (A & _). unfold pop_scanline. destruct (drop_eq _ _) as [|y r] eqn:D.
    - intros (m & y & M1 & M2 & M3). rewrite drop_eq_none in D. rewrite D in M3; [discriminate|]. apply A. eauto.
    - destruct (existsb (fun x => negb (n_eqb x (n_neg n_huge))) (scans s')) eqn:X.
      + apply existsb_exists in X as (z & Z1 & Z2). apply A in Z1 as [Z1|(m & M1 & M2)]; [rewrite S in Z1; contradiction|].
        exists m, z. repeat split; auto. now destruct (n_eqb z _).
      + exfalso. assert (K : drop_eq (n_neg n_huge) (scans s') = []); [|rewrite K in D; discriminate].
        apply drop_eq_none. intros z Z. destruct (n_eqb z (n_neg n_huge)) eqn:Q; auto. exfalso.
        assert (existsb (fun x => negb (n_eqb x (n_neg n_huge))) (scans s') = true); [|congruence].
        apply existsb_exists. exists z. rewrite Q. auto.
  Qed.

  (** *** One call *)
  Lemma sweep_scans n fuel : forall s y s', sweep n fuel s y = Ok s' -> scans s' = [].
  Proof.
    induction fuel as [|fuel IH]; intros s y s' H; cbn [sweep] in H; [discriminate|].
    apply bind_ok in H as (x & E & H). unfold pop_scanline in H. destruct (drop_eq y (scans x)); binvs; eauto.
  Qed.
  Lemma fresh_start s s0 : edges s0 = edges s -> bounds s0 = bounds s -> polys s0 = polys s -> ael s0 = None -> obl s0 = None ->
    fresh (length (edges s)) (length (bounds s)) (polys s) s0.
  Proof.
    intros E B P A O.
    assert (L : forall X (Q : X -> Prop) l, later (length l) Q l).
    { intros X Q l i x K G. apply nth_error_None in K. congruence. }
    constructor; rewrite ?E, ?B, ?P, ?A, ?O; auto; try exact I. exists []. now rewrite app_nil_r.
  Qed.
  Lemma process_step en n s op fill s' l : scans s = [] -> process en n s op fill = Ok (s', l) ->
    scans s' = [] /\ (exists r, polys s' = polys s ++ r) /\
    exists s1, process_intersect en (w_op s op fill) = Ok s1 /\ lmins s' = lmins s1 /\ verts s' = verts s1 /\ Permutation (minima s1) (minima s') /\
      (forall m, In m (minima s1) -> exists y, min_at s1 m y) /\
      ((begins s1 /\ l = build_output s') \/ (~ begins s1 /\ l = [] /\ polys s' = polys s)).
  Proof.
    intros S H. unfold process in H. binv H. binv H. pose proof (process_intersect_same _ _ _ E) as ((A1 & A2 & A3 & A4 & A5) & K).
    assert (S1 : scans x = []) by (unfold store in A1; cbn in A1; congruence).
    pose proof (reset_at x x0 E0) as AT. pose proof (begins_pop x x0 S1 E0) as BP. pose proof (reset_same _ _ E0) as (_ & B1 & B2 & B3 & B4 & B5 & B6 & B7 & B8 & _).
    destruct (pop_scanline x0 (n_neg n_huge)) as [[y|] s1] eqn:P.
    - pose proof (pop_scanline_frame _ _ _ _ P) as (P1 & P2 & P3 & P4 & P5 & P6). binvs.
      pose proof (sweep_frame _ _ _ _ _ E1) as F. split; [eapply sweep_scans; eauto|].
      assert (FR : fresh (length (edges s)) (length (bounds s)) (polys s) s1).
      { apply fresh_start; unfold fout, store in *; cbn in *; congruence. }
      pose proof (sweep_fr _ _ _ n n s1 y FR) as SW. rewrite E1 in SW. cbn in SW. split; [apply SW|].
      exists x. unfold VFrame.fin in *. repeat split; auto; try congruence.
    - injection H as <- <-. unfold pop_scanline in P. destruct (drop_eq _ _); [injection P as <-|discriminate]. cbn.
      split; auto. split; [exists []; rewrite app_nil_r; unfold store in *; cbn in *; congruence|].
      exists x. repeat split; auto. right. repeat split; auto. unfold store in *. cbn in *. congruence.
  Qed.

  (** *** Any number of calls *)
  Lemma build_output_app s s' r : polys s' = polys s ++ r -> build_output s' = build_output s ++ flat_map (write_poly (T := T)) r.
  Proof. intros E. unfold build_output. rewrite E. apply flat_map_app. Qed.
  Lemma begins_grows s s' : grows s s' -> begins s -> begins s'.
  Proof.
    intros (K & A & P) (m & y & M1 & (l & v & L1 & L2 & L3) & M2). exists m, y. split; auto.
    split; auto. destruct (K _ _ L2) as (w & W1 & W2). exists l, w. repeat split; auto. congruence.
  Qed.
  (** Between calls no scan line is left, and polygons come from a run that began. *)
  Definition idle s : Prop := scans s = [] /\ (polys s <> [] -> begins s).
  Lemma process_grows en n s op fill s' l : idle s -> process en n s op fill = Ok (s', l) ->
    grows s s' /\ idle s' /\ (exists r, polys s' = polys s ++ r) /\ l = build_output s'.
  Proof.
    intros (S & B) H. destruct (process_step _ _ _ _ _ _ _ S H) as (S1 & R & a & A1 & A2 & A3 & A4 & AT & A5).
    apply process_intersect_same in A1 as ((ST & K1 & K2 & _) & K3). cbn in K1, K2, K3.
    assert (G1 : grows s a) by (apply grows_verts; auto).
    assert (G2 : grows a s').
    { split; [rewrite A3; apply keeps_refl|]. rewrite A2. split; auto. intros m M. eapply Permutation_in; eauto. }
    split; [eapply grows_trans; eauto|]. destruct A5 as [(A5 & ->)|(A5 & -> & A6)].
    - repeat split; auto. intros _. eapply begins_grows; eauto.
    - assert (P : polys s = []).
      { destruct (polys s) eqn:E; auto. exfalso. apply A5. eapply begins_grows; [exact G1|]. apply B. discriminate. }
      assert (P1 : polys s' = []) by congruence.
      repeat split; auto; [congruence|]. unfold build_output. now rewrite P1.
  Qed.
  Lemma history_idle s s' : history s s' -> idle s -> idle s' /\ exists r, polys s' = polys s ++ r.
  Proof.
    induction 1; intros I.
    - split; auto. exists []. now rewrite app_nil_r.
    - destruct (IHhistory I) as (I1 & r & R). pose proof (add_paths_grows _ _ _ _ H0) as G. apply add_paths_store in H0.
      unfold store in H0. assert (polys s2 = polys s1) by congruence. split; [|exists r; congruence]. destruct I1. split; [congruence|].
      intros P. eapply begins_grows; [exact G|]. apply H3. congruence.
    - destruct (IHhistory I) as (I1 & r & R). apply process_grows in H0 as (_ & I2 & (r' & R') & _); auto.
      split; auto. exists (r ++ r'). rewrite R', R. symmetry. apply app_assoc.
  Qed.
  Lemma idle0 : idle clipper0.
  Proof. split; [reflexivity|]. intros H. now contradiction H. Qed.
  Lemma C34_prefix_lemma s en n op fill s1 l1 s2 en' n' op' fill' s3 l2 : history clipper0 s ->
    process en n s op fill = Ok (s1, l1) -> history s1 s2 -> process en' n' s2 op' fill' = Ok (s3, l2) ->
    exists l3, l2 = l1 ++ l3.
  Proof.
    intros U H1 U1 H2. destruct (history_idle _ _ U idle0) as (I & _).
    destruct (process_grows _ _ _ _ _ _ _ I H1) as (_ & I1 & _ & ->). destruct (history_idle _ _ U1 I1) as (I2 & r & R).
    destruct (process_grows _ _ _ _ _ _ _ I2 H2) as (_ & _ & (r' & R') & ->).
    eexists. apply build_output_app. rewrite R', R. symmetry. apply app_assoc.
  Qed.

  (** *** clip_type::none on a used processor *)
  Definition still (k : nat) s := length (polys s) = k /\ obl s = None.
  Lemma update_still k n s y s' : cop s = op_none -> still k s -> update_output_bound n s y = Ok s' -> still k s'.
  Proof.
    unfold update_output_bound, still. intros Hop [Hp Ho] H. destruct (changes s); binvs; auto.
    apply collect_none in E; auto. subst x. simpl in *. binvs. simpl in *. rewrite Ho in E2.
    destruct n; simpl in E2; binvs; simpl in *; binvs; auto.
  Qed.
  Lemma sweep_still k n fuel : forall s y s', cop s = op_none -> still k s -> sweep n fuel s y = Ok s' -> still k s'.
  Proof.
    assert (SC : forall s y s', cop s = op_none -> still k s -> scan_at n s y = Ok s' -> still k s' /\ cop s' = op_none).
    { intros s y s' Hop HQ H. pose proof (scan_at_frame _ _ _ _ H) as F. unfold scan_at in H. binvs.
      apply insert_local_minima_frame in E as (F1 & F2). apply recalc_windcnt_frame in E0 as (G1 & G2 & G3 & G4 & G5 & G6).
      split; [|unfold VFrame.fin in F; cbn in F; congruence].
      eapply update_still in H; eauto.
      - unfold VFrame.fin in *; cbn in *; congruence.
      - unfold still, fout in *. destruct HQ. cbn in *. split; congruence. }
    induction fuel; intros s y s' Hop HQ H; simpl in H; [discriminate|].
    apply bind_ok in H as (x & E & H). apply SC in E as [Q1 O1]; auto.
    destruct (pop_scanline x y) as [[y'|] s1] eqn:P; apply pop_scanline_frame in P as (P1 & P2 & P3 & P4 & P5 & P6).
    - binvs. pose proof (beam_frame _ _ _ _ E) as [F _]. unfold beam in E. binvs.
      apply do_top_frame in E0 as (? & ? & ? & ?).
      assert (Q3 : obl x1 = None). { destruct Q1. unfold fout in P2. cbn in *. congruence. }
      unfold close_output in E1. rewrite Q3 in E1. binvs.
      apply resort_ael_frame in E as (? & ? & ? & ? & ?).
      eapply IHfuel; [| |exact H].
      + unfold VFrame.fin in *; cbn in *; congruence.
      + destruct Q1. unfold fout in P2. split; congruence.
    - binvs. unfold still, fout in *. destruct Q1. cbn in *. split; congruence.
  Qed.
  Lemma none_polys en n s fill s' l : scans s = [] -> process en n s op_none fill = Ok (s', l) -> polys s' = polys s.
  Proof.
    intros S H. pose proof (process_step _ _ _ _ _ _ _ S H) as (_ & (r & R) & _).
    assert (L : length (polys s') = length (polys s)).
    { unfold process in H. binv H. binv H. pose proof (process_intersect_same _ _ _ E) as ((A1 & A2 & A3 & A4 & A5) & K).
      pose proof (reset_same _ _ E0) as (_ & B1 & B2 & B3 & B4 & B5 & B6 & B7 & B8 & B9 & _).
      destruct (pop_scanline x0 (n_neg n_huge)) as [[y|] s1] eqn:P; apply pop_scanline_frame in P as (P1 & P2 & P3 & P4 & P5 & P6).
      - binvs. apply (sweep_still (length (polys s))) in E1 as [K1 _]; auto.
        + unfold VFrame.fin in P1. cbn in *. congruence.
        + unfold fout, store in *. cbn in *. split; congruence.
      - binvs. unfold fout, store in *. cbn in *. congruence. }
    rewrite R, app_length in L. destruct r; [now rewrite R, app_nil_r|]. cbn in L. lia.
  Qed.
  Lemma additions_history s s' : additions s s' -> history s s'.
  Proof. induction 1; [apply history_none|eapply history_add; eauto]. Qed.
  Lemma additions_polys s s' : additions s s' -> polys s' = polys s.
  Proof. induction 1; auto. apply add_paths_store in H0. unfold store in H0. congruence. Qed.
  Lemma C30_used_lemma s en n op fill s1 l1 s2 en' n' fill' s3 l2 : history clipper0 s ->
    process en n s op fill = Ok (s1, l1) -> additions s1 s2 -> process en' n' s2 op_none fill' = Ok (s3, l2) -> l2 = l1.
  Proof.
    intros U H1 A H2. destruct (history_idle _ _ U idle0) as (I & _).
    destruct (process_grows _ _ _ _ _ _ _ I H1) as (_ & I1 & _ & ->).
    destruct (history_idle _ _ (additions_history _ _ A) I1) as (I2 & _).
    destruct (process_grows _ _ _ _ _ _ _ I2 H2) as (_ & _ & _ & ->).
    unfold build_output. rewrite (none_polys _ _ _ _ _ _ (proj1 I2) H2). now rewrite (additions_polys _ _ A).
  Qed.
End Repeat.
