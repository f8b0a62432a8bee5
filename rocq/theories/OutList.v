(** The list of open output bounds, and joining two of them. *)
From Coq Require Import ZArith Bool List Reals Lra Lia Permutation.
From Verif Require Import Outcome Num Rmath RTac Segment VState VAel VOut VMain VLemmas VFrame AelSpec VAelProofs VEdges PlaneSpec PlaneCount OutSpec OutPath.
Import ListNotations.
Local Open Scope Z_scope.
Local Open Scope out.

Lemma nodup_apart {A} (a b : list A) x : NoDup (a ++ b) -> In x a -> In x b -> False.
Proof. induction a as [|y a IH]; cbn; [tauto|]. intros H [->|K] L; inversion H as [|? ? N N']; subst; [apply N, in_or_app; auto|eauto]. Qed.
Lemma nodup_join {A} (a b : list A) : NoDup a -> NoDup b -> (forall x, In x a -> In x b -> False) -> NoDup (a ++ b).
Proof. induction a as [|y a IH]; cbn; auto. intros H K L. inversion H as [|? ? N N']; subst. constructor; [rewrite in_app_iff; intros [X|X]; eauto|apply IH; eauto]. Qed.
Section Chain.
  Implicit Types s : clipper R.
  Implicit Types bs : list (bound R).
  Implicit Types Q : bound R -> bound R -> Prop.
  Fixpoint bseg bs (p : option nat) (l : list nat) (n : option nat) : Prop :=
    match l with
    | [] => True
    | i :: r => exists b, nth_error bs i = Some b /\ ob_prev b = p /\ ob_next b = hd_or r n /\ bseg bs (Some i) r n
    end.
  Definition chain s (l : list nat) : Prop := obl s = hd_or l None /\ bseg (bounds s) None l None /\ NoDup l.
  Definition brel (Q : bound R -> bound R -> Prop) bs bs' : Prop :=
    length bs' = length bs /\ forall i b, nth_error bs i = Some b -> exists c, nth_error bs' i = Some c /\ Q b c.
  Definition links_only (b c : bound R) : Prop := c = Bound (ob_prev c) (ob_next c) (ob_owner b) (ob_edge b) (ob_stop_x b) (ob_dx b).
  Lemma links_refl b : links_only b b.
  Proof. destruct b. reflexivity. Qed.
  Lemma links_trans b c d : links_only b c -> links_only c d -> links_only b d.
  Proof. unfold links_only. intros -> ->. reflexivity. Qed.
  Lemma brel_refl Q bs : (forall b, Q b b) -> brel Q bs bs.
  Proof. intros H. split; auto. intros i b E. eauto. Qed.
  Lemma brel_trans Q a b c : (forall x y z, Q x y -> Q y z -> Q x z) -> brel Q a b -> brel Q b c -> brel Q a c.
  Proof. intros H [L1 A] [L2 B]. split; [congruence|]. intros i x E. destruct (A i x E) as (y & F & K). destruct (B i y F) as (z & G & K'). eauto. Qed.
  Lemma brel_upd Q bs i f : (forall b, Q b b) -> (forall b, Q b (f b)) -> brel Q bs (upd bs i f).
  Proof. intros H K. split; [apply length_upd|]. intros j b E. rewrite nth_upd, E. destruct (Nat.eqb i j); cbn; eauto. Qed.
  Lemma brel_back Q bs bs' i c : brel Q bs bs' -> nth_error bs' i = Some c -> exists b, nth_error bs i = Some b /\ Q b c.
  Proof.
    intros [L H] E. destruct (nth_error bs i) as [b|] eqn:K; [|apply nth_error_None in K; apply nth_lt in E; lia].
    destruct (H i b K) as (c' & E' & Q'). rewrite E in E'. injection E' as <-. eauto.
  Qed.

  Lemma bseg_app bs a : forall p b n, bseg bs p (a ++ b) n <-> bseg bs p a (hd_or b n) /\ bseg bs (last_or p a) b n.
  Proof.
    induction a as [|i a IH]; intros p b n; simpl; [tauto|]. split.
    - intros (e & H1 & H2 & H3 & H4). apply IH in H4 as [H4 H5]. split; auto. exists e. rewrite H3, hd_or_app. auto.
    - intros [(e & H1 & H2 & H3 & H4) H5]. exists e. rewrite hd_or_app. repeat split; auto. apply IH; auto.
  Qed.
  Lemma bseg_frame bs bs' l : forall p n, (forall i e, In i l -> nth_error bs i = Some e -> exists e', nth_error bs' i = Some e' /\ ob_prev e' = ob_prev e /\ ob_next e' = ob_next e) ->
    bseg bs p l n -> bseg bs' p l n.
  Proof.
    induction l as [|i l IH]; intros p n H; simpl; auto. intros (e & H1 & H2 & H3 & H4).
    destruct (H i e (or_introl eq_refl) H1) as (e' & A & B & C). exists e'. repeat split; try congruence. apply IH; auto. intros; apply H; simpl; auto.
  Qed.
  Lemma bseg_upd_out bs l i f p n : ~ In i l -> bseg bs p l n -> bseg (upd bs i f) p l n.
  Proof. intros H. apply bseg_frame. intros j e Hj E. exists e. rewrite nth_upd_other; auto. congruence. Qed.
  Lemma bseg_upd_keep bs l i f p n : (forall e, ob_prev (f e) = ob_prev e /\ ob_next (f e) = ob_next e) -> bseg bs p l n -> bseg (upd bs i f) p l n.
  Proof. intros H. apply bseg_frame. intros j e Hj E. rewrite nth_upd, E. simpl. destruct (Nat.eqb i j); eexists; split; eauto. Qed.
  Lemma bseg_set_prev bs i l p n q : ~ In i l -> bseg bs p (i :: l) n -> bseg (upd bs i (set_bprev q)) q (i :: l) n.
  Proof. simpl. intros Hi (e & H1 & H2 & H3 & H4). eexists. rewrite (nth_upd_same _ _ _ _ H1). repeat split; simpl; auto. now apply bseg_upd_out. Qed.
  Lemma bseg_set_next bs a i p n q : NoDup (a ++ [i]) -> bseg bs p (a ++ [i]) n -> bseg (upd bs i (set_bnext q)) p (a ++ [i]) q.
  Proof.
    intros ND H. apply bseg_app in H as [H1 H2]. apply bseg_app. simpl in *. split.
    - apply bseg_upd_out; auto. intros K. apply NoDup_remove_2 in ND. rewrite app_nil_r in ND. auto.
    - destruct H2 as (e & A & B & C & _). eexists. rewrite (nth_upd_same _ _ _ _ A). repeat split; simpl; auto.
  Qed.
  Lemma bseg_in bs l i : forall p n, bseg bs p l n -> In i l -> exists e, nth_error bs i = Some e.
  Proof. induction l; intros p n H; simpl in *; [tauto|]. destruct H as (e & H1 & _ & _ & H2). intros [<-|H]; eauto. Qed.
  Definition bunlinked bs (p n : option nat) : list (bound R) :=
    let bs1 := match p with Some j => upd bs j (set_bnext n) | None => bs end in
    match n with Some j => upd bs1 j (set_bprev p) | None => bs1 end.
  Lemma bunlink bs a i b : bseg bs None (a ++ i :: b) None -> NoDup (a ++ i :: b) -> bseg (bunlinked bs (last_or None a) (hd_or b None)) None (a ++ b) None.
  Proof.
    intros H ND. destruct (nodup_mid _ _ _ ND) as (ND' & Hi & D).
    apply bseg_app in H as [H1 H2]. destruct H2 as (e & E1 & E2 & E3 & H2). simpl in H1. unfold bunlinked.
    assert (A1 : bseg (match last_or None a with Some j => upd bs j (set_bnext (hd_or b None)) | None => bs end) None a (hd_or b None)
              /\ bseg (match last_or None a with Some j => upd bs j (set_bnext (hd_or b None)) | None => bs end) (Some i) b None).
    { destruct (snoc_cases a) as [->|(a' & j & ->)]; [simpl; auto|]. rewrite last_or_snoc. split.
      - eapply bseg_set_next; eauto. now apply nodup_app_l in ND.
      - apply bseg_upd_out; auto. apply D. apply in_or_app; simpl; auto. }
    destruct A1 as [A1 A2]. apply bseg_app. destruct b as [|j b]; simpl in *; [split; auto|]. split.
    - apply bseg_upd_out; auto. intros K. apply (D j K). simpl; auto.
    - apply (bseg_set_prev _ j b (Some i)); auto. apply nodup_app_r in ND'. now inversion ND'.
  Qed.
  Lemma delete_run s a i b : chain s (a ++ i :: b) ->
    exists s', delete_obl_bound s i = Ok s' /\ chain s' (a ++ b) /\ s' = w_obl (w_bounds s (bounds s')) (obl s') /\ brel links_only (bounds s) (bounds s') /\
      (forall c, ~ In c (a ++ i :: b) -> nth_error (bounds s') c = nth_error (bounds s) c).
  Proof.
    intros (C1 & C2 & C3). pose proof (bunlink _ _ _ _ C2 C3) as U. destruct (nodup_mid _ _ _ C3) as (ND & Hi & D).
    pose proof C2 as C2'. apply bseg_app in C2' as [A1 (x & E & P & Q & A2)]. cbn [hd_or] in A1.
    unfold delete_obl_bound. rewrite (proj2 (at_ok _ _ _) E). cbn [bind]. rewrite P, Q.
    assert (LK : forall bs i f, (forall b, links_only b (f b)) -> brel links_only bs (upd bs i f)) by (intros; apply brel_upd; auto using links_refl).
    assert (S1 : forall n (b : bound R), links_only b (set_bnext n b)) by (intros n []; reflexivity).
    assert (S2 : forall n (b : bound R), links_only b (set_bprev n b)) by (intros n []; reflexivity).
    assert (FR : forall bs c k f, k <> c -> nth_error (upd bs k f) c = nth_error bs c) by (intros; now apply nth_upd_other).
    destruct (snoc_cases a) as [->|(a' & j & ->)]; cbn [last_or app] in *.
    - destruct b as [|k b]; cbn [hd_or bmod_opt] in *.
      + eexists. split; [reflexivity|]. csplit; [|reflexivity|cbn; apply brel_refl, links_refl|reflexivity]. split; [reflexivity|]. cbn. split; auto.
      + destruct A2 as (y & Ey & _). cbn [bind]. rewrite (bmod_run _ _ _ _ (Ey : nth_error (bounds (w_obl s (Some k))) k = Some y)).
        eexists. split; [reflexivity|]. csplit; [|reflexivity|cbn; apply LK; auto|intros c Hc; cbn; apply FR; intros <-; apply Hc; right; now left]. split; [reflexivity|]. cbn. split; auto.
    - rewrite last_or_snoc in *. apply bseg_app in A1 as [_ (y & Ey & _)]. rewrite (bmod_run _ _ _ _ Ey). cbn [bind].
      assert (HD : obl s = hd_or ((a' ++ [j]) ++ b) None) by (rewrite C1; destruct a'; reflexivity).
      assert (HJ : forall c, ~ In c ((a' ++ [j]) ++ i :: b) -> j <> c) by (intros c Hc <-; apply Hc; apply in_or_app; left; apply in_or_app; right; now left).
      destruct b as [|k b]; cbn [hd_or bmod_opt] in *.
      + eexists. split; [reflexivity|]. csplit; [|reflexivity|cbn; apply LK; auto|intros c Hc; cbn; apply FR; auto]. split; [exact HD|]. cbn. split; auto.
      + destruct A2 as (z & Ez & _).
        assert (Ek : exists z', nth_error (upd (bounds s) j (set_bnext (Some k))) k = Some z') by (rewrite nth_upd, Ez; destruct (Nat.eqb j k); cbn; eauto). destruct Ek as (z' & Ek).
        rewrite (bmod_run _ _ _ _ (Ek : nth_error (bounds (w_bounds s (upd (bounds s) j (set_bnext (Some k))))) k = Some z')).
        eexists. split; [reflexivity|]. csplit; [|reflexivity| |].
        * split; [exact HD|]. cbn. split; auto.
        * cbn. eapply brel_trans; [intros; eapply links_trans; eauto|apply LK; auto|apply LK; auto].
        * intros c Hc. cbn. rewrite !FR; auto. intros <-. apply Hc. apply in_or_app. right. right. now left.
  Qed.
  Lemma chain_owner s s' l : obl s' = obl s -> (forall i b, In i l -> nth_error (bounds s) i = Some b -> exists c, nth_error (bounds s') i = Some c /\ ob_prev c = ob_prev b /\ ob_next c = ob_next b) -> chain s l -> chain s' l.
  Proof. intros E H (C1 & C2 & C3). split; [congruence|]. split; auto. eapply bseg_frame; eauto. Qed.

  (** *** Edges and bounds that point to each other *)
  Definition ebof (es : list (edge R)) (i : nat) : option nat := match nth_error es i with Some e => e_bound e | None => None end.
  Definition beof bs (b : nat) : option nat := match nth_error bs b with Some x => ob_edge x | None => None end.
  Definition linked (es : list (edge R)) bs : Prop := forall i b, ebof es i = Some b <-> beof bs b = Some i.
  Lemma ebof_some es i b : ebof es i = Some b -> exists e, nth_error es i = Some e /\ e_bound e = Some b.
  Proof. unfold ebof. destruct (nth_error es i); [eauto|discriminate]. Qed.
  Lemma beof_some bs i b : beof bs b = Some i -> exists x, nth_error bs b = Some x /\ ob_edge x = Some i.
  Proof. unfold beof. destruct (nth_error bs b); [eauto|discriminate]. Qed.
  (** The bounds keep their edge, their x and their direction. *)
  Definition bstay (b c : bound R) : Prop := ob_edge c = ob_edge b /\ ob_stop_x c = ob_stop_x b /\ ob_dx c = ob_dx b.
  Definition bkeep bs bs' (c : nat) : Prop := forall x, nth_error bs c = Some x -> exists x', nth_error bs' c = Some x' /\ bstay x x'.
  (** [bl] is the list of open bounds, [nb] the bounds made since it was last built. *)
  Record outs s (pos : nat -> vec2 R) (bl nb : list nat) : Prop := {
    os_chain : chain s bl;
    os_paths : paths (polys s) (bounds s) pos (bl ++ nb);
    os_link : linked (edges s) (bounds s);
    os_once : NoDup (bl ++ nb);
    os_new : forall c x, In c nb -> nth_error (bounds s) c = Some x -> ob_next x = None;
    os_live : forall i c, ebof (edges s) i = Some c -> In c (bl ++ nb) }.
  Lemma clear_one (es : list (edge R)) (p : option nat) es' : es' = match p with Some i => upd es i (set_ebound None) | None => es end -> forall i c, ebof es' i = Some c <-> ebof es i = Some c /\ p <> Some i.
  Proof.
    intros -> i c. destruct p as [j|]; [|intuition discriminate]. unfold ebof. rewrite nth_upd. destruct (Nat.eqb j i) eqn:K.
    - apply Nat.eqb_eq in K. subst. destruct (nth_error es i); cbn; [|intuition discriminate]. split; [discriminate|]. intros [_ N]. now elim N.
    - apply Nat.eqb_neq in K. split; [|tauto]. intros H. split; auto. congruence.
  Qed.
  Lemma emod_opt_run s (p : option nat) f : (forall i, p = Some i -> exists e, nth_error (edges s) i = Some e) -> emod_opt s p f = Ok (w_edges s (match p with Some i => upd (edges s) i f | None => edges s end)).
  Proof. intros H. destruct p as [i|]; cbn; [|now destruct s]. destruct (H i eq_refl) as (e & E). now rewrite (emod_run _ _ _ _ E). Qed.
  Lemma absorb_run s (d r : nat) (u : bool) qd qr (m : nat) x : nth_error (polys s) d = Some qd -> nth_error (polys s) r = Some qr -> d <> r -> (if u then o_up_bound qr else o_down_bound qr) = Some m -> nth_error (bounds s) m = Some x ->
    absorb s d r u = Ok (w_polys (w_bounds s (upd (bounds s) m (set_bowner (Some d)))) (upd (upd (polys s) d (if u then grown_up qr else grown_down qr)) r emptied)).
  Proof.
    intros Ed Er NE M Em. unfold absorb. rewrite (proj2 (at_ok _ _ _) Ed), (proj2 (at_ok _ _ _) Er). cbn [bind].
    destruct u; rewrite (pmod_run _ _ _ _ Ed); cbn [bind]; rewrite M; cbn [deref of_opt bind];
      (erewrite bmod_run by (cbn; exact Em)); cbn [bind];
      (erewrite pmod_run by (cbn; rewrite nth_upd_other by auto; exact Er)); unfold grown_up, grown_down, emptied; rewrite ?M; reflexivity.
  Qed.
  Lemma join_run s pos l1 a b l2 nb ba bb y : outs s pos (l1 ++ a :: b :: l2) nb -> nth_error (bounds s) a = Some ba -> nth_error (bounds s) b = Some bb ->
    ob_stop_x ba = ob_stop_x bb -> bound_up ba = negb (bound_up bb) -> pos a = pos b ->
    exists s', join_output s a b y = Ok s' /\ outs s' pos (l1 ++ l2) nb /\ (forall x z, tw (polys s') pos x z = tw (polys s) pos x z) /\
      (forall c, c <> a -> c <> b -> bkeep (bounds s) (bounds s') c) /\
      (forall i c, ebof (edges s') i = Some c <-> ebof (edges s) i = Some c /\ c <> a /\ c <> b) /\ length (bounds s') = length (bounds s).
  Proof.
    intros [CH PA LK ND NW LV] Ea Eb ST UP PO. set (L2 := l2 ++ nb).
    assert (SH : (l1 ++ a :: b :: l2) ++ nb = l1 ++ a :: b :: L2) by (rewrite <- app_assoc; reflexivity).
    assert (SH' : (l1 ++ l2) ++ nb = l1 ++ L2) by (rewrite <- app_assoc; reflexivity). rewrite SH in *.
    assert (Nab : a <> b) by (intros ->; apply nodup_app_r in ND; inversion ND as [|? ? N _]; apply N; now left).
    assert (Ia : In a (l1 ++ a :: b :: L2)) by (apply in_or_app; right; now left).
    assert (Ib : In b (l1 ++ a :: b :: L2)) by (apply in_or_app; right; right; now left).
    assert (EA : forall i, ob_edge ba = Some i -> exists e, nth_error (edges s) i = Some e /\ e_bound e = Some a) by (intros i H; apply ebof_some, LK; unfold beof; now rewrite Ea).
    assert (EB : forall i, ob_edge bb = Some i -> exists e, nth_error (edges s) i = Some e /\ e_bound e = Some b) by (intros i H; apply ebof_some, LK; unfold beof; now rewrite Eb).
    unfold join_output. rewrite (proj2 (at_ok _ _ _) Ea), (proj2 (at_ok _ _ _) Eb). cbn [bind].
    rewrite emod_opt_run by (intros i H; destruct (EA i H) as (e & E & _); eauto). cbn [bind].
    set (es1 := match ob_edge ba with Some i => upd (edges s) i (set_ebound None) | None => edges s end).
    rewrite emod_opt_run.
    2: { intros i H. destruct (EB i H) as (e & E & _). cbn. unfold es1. destruct (ob_edge ba) as [j|]; eauto. rewrite nth_upd, E. destruct (Nat.eqb j i); cbn; eauto. }
    cbn [bind edges w_edges]. set (es2 := match ob_edge bb with Some i => upd es1 i (set_ebound None) | None => es1 end).
    erewrite bmod_run by (cbn; exact Ea). cbn [bind]. erewrite bmod_run by (cbn; rewrite nth_upd_other by auto; exact Eb). cbn [bind].
    set (bs2 := upd (upd (bounds s) a (set_bedge None)) b (set_bedge None)).
    destruct (owned_in _ _ _ _ _ _ PA Ia Ea) as (oa & qa & ua & da & Oa & Qa & NCa & _). destruct (owned_in _ _ _ _ _ _ PA Ib Eb) as (ob & qb & ub & db & Ob & Qb & NCb & _).
    rewrite Oa, Ob. cbn [deref of_opt bind]. assert (Q : n_eqb (ob_stop_x ba) (ob_stop_x bb) = true) by (rops; now apply Reqb_true). rewrite Q. cbn [bind].
    set (s2 := w_bounds (w_bounds (w_edges (w_edges s es1) es2) (upd (bounds s) a (set_bedge None))) bs2).
    assert (S2 : bounds s2 = bs2 /\ polys s2 = polys s /\ edges s2 = es2 /\ obl s2 = obl s) by (csplit; reflexivity).
    assert (OW : owners_same (bounds s) bs2) by (eapply owners_trans; apply owners_upd; intros []; split; reflexivity).
    assert (PA2 : paths (polys s) bs2 pos (l1 ++ a :: b :: L2)) by (eapply paths_bounds; eauto).
    assert (Ea2 : nth_error bs2 a = Some (set_bedge None ba)) by (unfold bs2; rewrite nth_upd_other by auto; now apply nth_upd_same).
    assert (Eb2 : nth_error bs2 b = Some (set_bedge None bb)) by (unfold bs2; apply nth_upd_same; rewrite nth_upd_other by auto; auto).
    assert (CH2 : chain s2 (l1 ++ a :: b :: l2)).
    { destruct CH as (C1 & C2 & C3). split; [exact C1|]. split; auto. cbn. unfold bs2. apply bseg_upd_keep; [intros []; auto|]. apply bseg_upd_keep; [intros []; auto|]. auto. }
    assert (BL : forall c, In c (l1 ++ L2) <-> In c (l1 ++ a :: b :: L2) /\ c <> a /\ c <> b).
    { intros c. assert (N1 : ~ In a (l1 ++ b :: L2)) by now apply NoDup_remove_2. assert (N2 : ~ In b (l1 ++ L2)) by (apply NoDup_remove_1 in ND; now apply NoDup_remove_2 in ND).
      rewrite in_app_iff in N1, N2. cbn in N1. rewrite !in_app_iff. cbn. split; [|intuition congruence]. intros H. csplit; [tauto| |]; intros ->; tauto. }
    assert (MID : exists s3, (if Nat.eqb oa ob then pmod s2 oa set_complete else if Nat.ltb ob oa then absorb s2 ob oa (bound_up bb) else absorb s2 oa ob (bound_up ba)) = Ok s3 /\
        obl s3 = obl s2 /\ edges s3 = es2 /\ paths (polys s3) (bounds s3) pos (l1 ++ L2) /\ (forall x z, tw (polys s3) pos x z = tw (polys s) pos x z) /\
        brel (fun b c => c = set_bowner (ob_owner c) b) bs2 (bounds s3)).
    { assert (BR : forall b : bound R, b = set_bowner (ob_owner b) b) by (intros []; reflexivity).
      destruct (Nat.eqb oa ob) eqn:K.
      - apply Nat.eqb_eq in K. subst ob. rewrite Qa in Qb. injection Qb as <-. rewrite (pmod_run s2 oa _ qa Qa). eexists. split; [reflexivity|]. cbn.
        destruct (paths_close (polys s) bs2 pos l1 a b L2 _ _ oa ND PA2 Ea2 Eb2) as [P1 P2]; auto. csplit; auto. apply brel_refl. exact BR.
      - apply Nat.eqb_neq in K. destruct (Nat.ltb ob oa).
        + destruct (paths_absorb (polys s) bs2 pos _ (l1 ++ L2) b a (set_bedge None bb) (set_bedge None ba) ob oa qa PA2) as (m & M1 & M2 & M3 & M4); auto.
          { intros c. rewrite BL. tauto. }
          destruct (pa_owned _ _ _ _ PA2 m) as (bm & _ & _ & Em & _); [apply BL in M2; tauto|].
          cbn [set_bedge bound_up] in *. change (bound_up (set_bedge None bb)) with (bound_up bb) in *.
          rewrite (absorb_run s2 ob oa (bound_up bb) qb qa m bm); auto. eexists. split; [reflexivity|]. cbn. csplit; auto;
            apply brel_upd; auto; intros []; reflexivity.
        + destruct (paths_absorb (polys s) bs2 pos _ (l1 ++ L2) a b (set_bedge None ba) (set_bedge None bb) oa ob qb PA2) as (m & M1 & M2 & M3 & M4); auto.
          { change (bound_up bb = negb (bound_up ba)). rewrite UP. now rewrite negb_involutive. }
          destruct (pa_owned _ _ _ _ PA2 m) as (bm & _ & _ & Em & _); [apply BL in M2; tauto|].
          change (bound_up (set_bedge None ba)) with (bound_up ba) in *.
          rewrite (absorb_run s2 oa ob (bound_up ba) qa qb m bm); auto. eexists. split; [reflexivity|]. cbn. csplit; auto;
            apply brel_upd; auto; intros []; reflexivity. }
    destruct MID as (s3 & M0 & M1 & M2 & M3 & M4 & M5). match goal with |- context [pmod ?S oa set_complete] => change S with s2 end. rewrite M0. cbn [bind].
    assert (CH3 : chain s3 (l1 ++ a :: b :: l2)).
    { eapply (chain_owner s2); [congruence| |exact CH2]. intros i x _ E. destruct (proj2 M5 i x E) as (c & C & Q'). exists c. split; [exact C|]. rewrite Q'. split; reflexivity. }
    destruct (delete_run s3 l1 a (b :: l2) CH3) as (s4 & -> & CH4 & E4 & R4 & F4). cbn [bind].
    destruct (delete_run s4 l1 b l2 CH4) as (s5 & -> & CH5 & E5 & R5 & F5).
    exists s5. split; [reflexivity|].
    assert (R : brel links_only (bounds s3) (bounds s5)) by (eapply brel_trans; [intros; eapply links_trans; eauto|exact R4|exact R5]).
    assert (P5 : polys s5 = polys s3) by (rewrite E5; cbn; rewrite E4; reflexivity). assert (X5 : edges s5 = es2) by (rewrite E5; cbn; rewrite E4; exact M2).
    assert (BE : forall c x, nth_error bs2 c = Some x -> exists x', nth_error (bounds s5) c = Some x' /\ bstay x x').
    { intros c x E. destruct (proj2 M5 c x E) as (x1 & E1 & Q1). destruct (proj2 R c x1 E1) as (x2 & E2 & Q2). exists x2. split; auto. rewrite Q2, Q1. unfold bstay. auto. }
    assert (OT : forall c, c <> a -> c <> b -> bkeep (bounds s) (bounds s5) c).
    { intros c N1 N2 x E. apply BE. unfold bs2. rewrite !nth_upd_other by auto. exact E. }
    assert (EC : forall i c, ebof (edges s5) i = Some c <-> ebof (edges s) i = Some c /\ c <> a /\ c <> b).
    { intros i c. rewrite X5. rewrite (clear_one es1 (ob_edge bb) es2 eq_refl), (clear_one (edges s) (ob_edge ba) es1 eq_refl). split.
      - intros [[H1 H2] H3]. csplit; auto; intros ->; apply LK in H1; unfold beof in H1; rewrite ?Ea, ?Eb in H1; congruence.
      - intros (H1 & H2 & H3). csplit; auto; intros H4; [destruct (EA i H4) as (e & E & F)|destruct (EB i H4) as (e & E & F)]; unfold ebof in H1; rewrite E in H1; congruence. }
    csplit; auto.
    - split; [auto|rewrite P5, SH'; eapply paths_bounds; [|exact M3]| | | |].
      + intros i x E. destruct (proj2 R i x E) as (c & C & Q'). exists c. split; auto. rewrite Q'. split; reflexivity.
      + intros i c. rewrite EC. split.
        * intros (H1 & H2 & H3). apply LK in H1. apply beof_some in H1 as (x & E & F). destruct (OT c H2 H3 x E) as (x' & E' & F' & _). unfold beof. now rewrite E', F', F.
        * intros H. apply beof_some in H as (x' & E' & F').
          assert (L : exists x, nth_error bs2 c = Some x) by (apply nth_some; rewrite <- (proj1 M5), <- (proj1 R); now apply nth_lt in E'). destruct L as (x & E).
          destruct (BE c x E) as (x2 & E2 & Q1 & _). rewrite E' in E2. injection E2 as <-. rewrite F' in Q1.
          assert (N : c <> a /\ c <> b) by (split; intros ->; [rewrite Ea2 in E|rewrite Eb2 in E]; injection E as <-; discriminate). csplit; try tauto.
          apply LK. unfold bs2 in E. rewrite !nth_upd_other in E by (intros <-; tauto). unfold beof. now rewrite E.
      + rewrite SH'. apply NoDup_remove_1 in ND. now apply NoDup_remove_1 in ND.
      + intros c x Hc E. assert (NC : ~ In c (l1 ++ a :: b :: l2)) by (rewrite <- SH in ND; intros K; eapply nodup_apart; eauto).
        rewrite F5, F4 in E; [|auto|intros K; apply NC; rewrite in_app_iff in *; cbn in *; tauto].
        destruct (brel_back _ _ _ _ _ M5 E) as (x0 & E0 & Q0). rewrite Q0. cbn.
        unfold bs2 in E0. rewrite !nth_upd_other in E0 by (intros <-; apply NC; apply in_or_app; right; cbn; tauto). eauto.
      + intros i c K. apply EC in K as (K1 & K2 & K3). rewrite SH'. apply BL. csplit; auto. apply (LV i c K1).
    - rewrite P5. exact M4.
    - rewrite (proj1 R), (proj1 M5). unfold bs2. now rewrite !length_upd.
  Qed.
  Lemma chain_grow s s' l : obl s' = obl s -> (forall i b, nth_error (bounds s) i = Some b -> nth_error (bounds s') i = Some b) -> chain s l -> chain s' l.
  Proof. intros E H. apply chain_owner; auto. intros i b _ K. exists b. auto. Qed.
  Lemma new_run s pos bl nb a b ea eb p : outs s pos bl nb -> nth_error (edges s) a = Some ea -> nth_error (edges s) b = Some eb -> a <> b ->
    edge_up ea = negb (edge_up eb) -> e_bot ea = p -> e_bot eb = p -> e_bound ea = None -> e_bound eb = None ->
    let ia := length (bounds s) in let ib := S ia in let pos' := setp (setp pos ia p) ib p in
    exists s' o, new_output s a b = Ok s' /\ outs s' pos' bl (nb ++ [ia; ib]) /\ (forall x z, tw (polys s') pos' x z = tw (polys s) pos x z) /\
      (forall c, In c (bl ++ nb) -> pos' c = pos c) /\
      bounds s' = bounds s ++ [Bound None None o (Some a) (e_x ea) (e_dx ea); Bound None None o (Some b) (e_x eb) (e_dx eb)] /\
      (forall i, ebof (edges s') i = if Nat.eqb i a then Some ia else if Nat.eqb i b then Some ib else ebof (edges s) i).
  Proof.
    intros [CH PA LK ND NW LV] Ea Eb NE UP Pa Pb Na Nb ia ib pos'. set (o := length (polys s)).
    set (ba := Bound None None (Some o) (Some a) (e_x ea) (e_dx ea)). set (bb := Bound None None (Some o) (Some b) (e_x eb) (e_dx eb)).
    set (bs' := bounds s ++ [ba; bb]). set (es' := upd (upd (edges s) a (set_ebound (Some ia))) b (set_ebound (Some ib))).
    set (q := Poly p (Some (if edge_up ea then ia else ib)) (Some (if edge_up ea then ib else ia)) [] [] false).
    assert (OLD : forall c, In c (bl ++ nb) -> (c < ia)%nat) by (intros c Hc; destruct (pa_owned _ _ _ _ PA c Hc) as (bc & _ & _ & E & _); now apply nth_lt in E).
    assert (KP : forall c, In c (bl ++ nb) -> pos' c = pos c) by (intros c Hc; apply OLD in Hc; unfold pos'; rewrite !setp_other by lia; auto).
    assert (OB : forall c x, nth_error (bounds s) c = Some x -> nth_error bs' c = Some x) by (intros c x E; unfold bs'; rewrite nth_error_app1; auto; now apply nth_lt in E).
    assert (Eia : nth_error bs' ia = Some ba) by (unfold bs'; rewrite nth_error_app2, Nat.sub_diag by auto; reflexivity).
    assert (Eib : nth_error bs' ib = Some bb) by (unfold bs'; rewrite nth_error_app2 by (unfold ib, ia; lia); replace (ib - length (bounds s))%nat with 1%nat by (unfold ib, ia; lia); reflexivity).
    assert (RUN : new_output s a b = Ok (w_polys (w_edges (w_edges (w_bounds s bs') (upd (edges s) a (set_ebound (Some ia)))) es') (polys s ++ [q]))).
    { unfold new_output. rewrite (proj2 (at_ok _ _ _) Ea), (proj2 (at_ok _ _ _) Eb). cbn [bind].
      erewrite emod_run by (cbn; exact Ea). cbn [bind]. erewrite emod_run by (cbn; rewrite nth_upd_other by auto; exact Eb). cbn [bind].
      assert (VN : vneqb p p = false) by (unfold vneqb, veqb; rops; rewrite !(proj2 (Reqb_true _ _) eq_refl); reflexivity).
      unfold q. destruct (edge_up ea); rewrite Pa, Pb, VN; reflexivity. }
    eexists. exists (Some o). split; [exact RUN|]. cbn.
    assert (EBN : forall i, ebof es' i = if Nat.eqb i a then Some ia else if Nat.eqb i b then Some ib else ebof (edges s) i).
    { intros i. unfold ebof, es'. rewrite !nth_upd. destruct (Nat.eqb_spec i a) as [->|N1].
      - rewrite (proj2 (Nat.eqb_neq b a)) by auto. rewrite Nat.eqb_refl, Ea. reflexivity.
      - destruct (Nat.eqb_spec i b) as [->|N2]; [rewrite Nat.eqb_refl, (proj2 (Nat.eqb_neq a b)), Eb by auto; reflexivity|].
        rewrite (proj2 (Nat.eqb_neq b i)), (proj2 (Nat.eqb_neq a i)) by auto. destruct (nth_error (edges s) i); reflexivity. }
    destruct (paths_pos _ _ _ pos' _ KP PA) as [PA1 TW1].
    assert (PA2 : paths (polys s) bs' pos' (bl ++ nb)) by (eapply paths_bounds; [apply owners_app|exact PA1]).
    assert (UA : bound_up ba = edge_up ea) by reflexivity. assert (UB' : bound_up bb = edge_up eb) by reflexivity.
    destruct (paths_open (polys s) bs' pos' (bl ++ nb) (bl ++ nb ++ [ia; ib]) ia ib ba bb q PA2 Eia Eib) as [PA3 TW3]; auto.
    { unfold q, pos'. cbn [o_origin]. rewrite setp_other by (unfold ib; lia). apply setp_same. }
    { apply setp_same. }
    { intros c. rewrite !in_app_iff. cbn. intuition. }
    csplit.
    - split; cbn; auto.
      + eapply chain_grow; [| |exact CH]; [reflexivity|exact OB].
      + intros i c. rewrite EBN. unfold beof. split.
        * destruct (Nat.eqb_spec i a) as [->|N1]; [intros K; injection K as <-; now rewrite Eia|].
          destruct (Nat.eqb_spec i b) as [->|N2]; [intros K; injection K as <-; now rewrite Eib|].
          intros K. apply LK in K. apply beof_some in K as (x & E & F). now rewrite (OB _ _ E).
        * intros K. destruct (nth_error bs' c) as [x|] eqn:E; [|discriminate].
          destruct (Nat.lt_ge_cases c ia) as [L|L].
          { unfold bs' in E. rewrite nth_error_app1 in E by exact L. assert (K' : ebof (edges s) i = Some c) by (apply LK; unfold beof; now rewrite E).
            destruct (Nat.eqb_spec i a) as [->|N1]; [unfold ebof in K'; rewrite Ea in K'; congruence|].
            destruct (Nat.eqb_spec i b) as [->|N2]; [unfold ebof in K'; rewrite Eb in K'; congruence|]. auto. }
          pose proof (nth_lt _ _ _ E) as L2. unfold bs' in L2. rewrite app_length in L2. cbn in L2.
          assert (C : c = ia \/ c = ib) by (unfold ib, ia in *; lia). destruct C as [-> | ->].
          { rewrite Eia in E. injection E as <-. cbn in K. injection K as <-. now rewrite Nat.eqb_refl. }
          { rewrite Eib in E. injection E as <-. cbn in K. injection K as <-. now rewrite (proj2 (Nat.eqb_neq b a)), Nat.eqb_refl by auto. }
      + rewrite app_assoc. apply nodup_join; auto.
        * constructor; [cbn; unfold ib; intros [K|[]]; lia|constructor; [cbn; tauto|constructor]].
        * intros c Hc K. apply OLD in Hc. cbn in K. unfold ib in K. lia.
      + intros c x Hc E. apply in_app_or in Hc as [Hc|[<-|[<-|[]]]].
        * assert (L : (c < ia)%nat) by (apply OLD, in_or_app; auto). unfold bs' in E. rewrite nth_error_app1 in E by exact L. eauto.
        * rewrite Eia in E. now injection E as <-.
        * rewrite Eib in E. now injection E as <-.
      + intros i c. rewrite EBN, app_assoc. intros K. apply in_or_app. destruct (Nat.eqb i a); [injection K as <-; right; now left|]. destruct (Nat.eqb i b); [injection K as <-; right; right; now left|]. left. eauto.
    - intros x z. etransitivity; [apply TW3|apply TW1].
    - exact KP.
    - reflexivity.
    - exact EBN.
  Qed.
  Lemma update_run s pos bl nb b e bd ed : outs s pos bl nb -> In b bl -> nth_error (bounds s) b = Some bd -> nth_error (edges s) e = Some ed -> e_x ed = ob_stop_x bd ->
    (ob_edge bd = None /\ e_bound ed = None \/ e_bound ed = Some b) ->
    exists s', update_bound s b e = Ok s' /\ outs s' pos bl nb /\ polys s' = polys s /\ obl s' = obl s /\
      bounds s' = upd (bounds s) b (set_bedge (Some e)) /\ (forall i, ebof (edges s') i = if Nat.eqb i e then Some b else ebof (edges s) i).
  Proof.
    intros [CH PA LK ND NW LV] Ib Eb Ee X H. unfold update_bound. rewrite (proj2 (at_ok _ _ _) Eb), (proj2 (at_ok _ _ _) Ee). cbn [bind].
    assert (Q : n_eqb (e_x ed) (ob_stop_x bd) = true) by (rops; now apply Reqb_true). rewrite Q. cbn [bind].
    rewrite (bmod_run _ _ _ _ Eb). cbn [bind]. erewrite emod_run by (cbn; exact Ee). eexists. split; [reflexivity|]. cbn.
    assert (EBN : forall i, ebof (upd (edges s) e (set_ebound (Some b))) i = if Nat.eqb i e then Some b else ebof (edges s) i).
    { intros i. unfold ebof. rewrite nth_upd, (Nat.eqb_sym e i). destruct (Nat.eqb_spec i e) as [->|N1]; [now rewrite Ee|]. destruct (nth_error (edges s) i); reflexivity. }
    csplit; auto. split; cbn; auto.
    - eapply chain_owner; [| |exact CH]; [reflexivity|]. intros i x _ E. cbn. rewrite nth_upd, E. destruct (Nat.eqb b i); eexists; split; try reflexivity; split; reflexivity.
    - eapply paths_bounds; [apply owners_upd; intros []; split; reflexivity|auto].
    - intros i c. rewrite EBN. unfold beof. rewrite nth_upd. destruct (Nat.eqb_spec b c) as [<-|N2].
      + rewrite Eb. cbn. destruct (Nat.eqb_spec i e) as [->|N1]; [tauto|]. split; [|intros K; injection K as ->; now elim N1].
        intros K. apply LK in K. unfold beof in K. rewrite Eb in K. destruct H as [[H _]|H]; [congruence|].
        assert (K2 : ebof (edges s) e = Some b) by (unfold ebof; now rewrite Ee). apply LK in K2. unfold beof in K2. rewrite Eb in K2. congruence.
      + destruct (Nat.eqb_spec i e) as [->|N1].
        * split; [intros K; injection K as ->; now elim N2|]. intros K. assert (K2 : ebof (edges s) e = Some c) by (apply LK; unfold beof; destruct (nth_error (bounds s) c); auto).
          unfold ebof in K2. rewrite Ee in K2. destruct H as [[_ H]|H]; congruence.
        * rewrite (LK i c). unfold beof. destruct (nth_error (bounds s) c); reflexivity.
    - intros c x Hc E. rewrite nth_upd in E. destruct (nth_error (bounds s) c) as [x0|] eqn:E0; [|destruct (Nat.eqb b c); discriminate]. specialize (NW c x0 Hc E0).
      destruct (Nat.eqb b c); cbn in E; injection E as <-; auto.
    - intros i c. rewrite EBN. destruct (Nat.eqb i e); [|eauto]. intros K. injection K as <-. apply in_or_app. auto.
  Qed.
End Chain.
