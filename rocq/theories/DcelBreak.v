(** Histories of add_line, breaking at intersections, twins. *)
From Coq Require Import ZArith Bool List Permutation Sorted Lia.
From Verif Require Import Outcome Num Order Rmath RectSpec ScanLine VState VLemmas SortProofs Dcel DcelSpec DcelBase.
Import ListNotations.
Local Open Scope out.

Section Keep.
  Context {T : Type} {N : Num T}.
  Implicit Types d : dcel T.

  (** No half edge has a next or a previous one. *)
  Definition unlinked d : Prop := forall e h, live d e h -> h_next h = None /\ h_prev h = None.
  (** Half edges only get lost or added. *)
  Definition points_grow d d' : Prop := exists l, map p_at (d_points d') = map p_at (d_points d) ++ l.
  Lemma points_grow_refl d : points_grow d d.
  Proof. exists []. now rewrite app_nil_r. Qed.
  Lemma points_grow_trans d1 d2 d3 : points_grow d1 d2 -> points_grow d2 d3 -> points_grow d1 d3.
  Proof. intros (a & A) (b & B). exists (a ++ b). now rewrite B, A, app_assoc. Qed.
  Lemma points_grow_len d d' : points_grow d d' -> length (d_points d) <= length (d_points d').
  Proof. intros (l & E). rewrite <- !(map_length p_at), E, app_length. lia. Qed.

  (** The set of points is in order if all coordinates compare. *)
  Definition psorted {O : OrdNum T} d : Prop :=
    Forall (fun p => vvalid (p_at p)) (d_points d) ->
    StronglySorted (fun a b => vec_ltb (coord d a) (coord d b) = true) (d_pset d).

  Lemma coord_map d d' : map p_at (d_points d') = map p_at (d_points d) -> forall i, coord d' i = coord d i.
  Proof.
    intros E i. unfold coord. pose proof (f_equal (fun l => nth_error l i) E) as K. cbn in K. rewrite !nth_error_map in K.
    destruct (nth_error (d_points d') i), (nth_error (d_points d) i); cbn in K; congruence.
  Qed.
  Lemma sorted_impl {A} (R R' : A -> A -> Prop) l : (forall a b, R a b -> R' a b) -> StronglySorted R l -> StronglySorted R' l.
  Proof. intros H. induction 1; constructor; auto. eapply Forall_impl; [|eassumption]; auto. Qed.
  Lemma psorted_same {O : OrdNum T} d d' : map p_at (d_points d') = map p_at (d_points d) -> d_pset d' = d_pset d ->
    psorted d -> psorted d'.
  Proof.
    intros E1 E2 H V. rewrite E2. eapply sorted_impl; [|apply H].
    - cbn. intros a b. now rewrite !(coord_map d d' E1).
    - rewrite <- Forall_map with (f := p_at) (P := vvalid) in V |- *. now rewrite <- E1.
  Qed.

  (** *** Changing a half edge without moving it *)
  Lemma wf_upd d e f : (forall h, h_start (f h) = h_start h /\ h_end (f h) = h_end h) -> wf d ->
    wf (wd_halves d (upd (d_halves d) e (option_map f))).
  Proof.
    intros Hf ((R1 & R2 & R3) & HS & HP).
    assert (L : forall i, (exists h, live (wd_halves d (upd (d_halves d) e (option_map f))) i h) <-> exists h, live d i h).
    { intros i. split; intros (h & L).
      - apply live_hmod in L. destruct (Nat.eqb e i); [destruct L as (x & L & _)|]; eauto.
      - destruct (Nat.eqb e i) eqn:E; [exists (f h)|exists h]; apply live_hmod; rewrite E; eauto. }
    assert (LE : forall i (g : half T -> nat) k, (forall h, g (f h) = g h) ->
      (exists h, live (wd_halves d (upd (d_halves d) e (option_map f))) i h /\ g h = k) <-> exists h, live d i h /\ g h = k).
    { intros i g k Hg. split; intros (h & K & E).
      - apply live_hmod in K. destruct (Nat.eqb e i); [destruct K as (x & K & ->); rewrite Hg in E|]; eauto.
      - destruct (Nat.eqb e i) eqn:Q; [exists (f h)|exists h]; (split; [apply live_hmod; rewrite Q; eauto|]); auto.
        now rewrite Hg. }
    split; [|split].
    - split; [exact R1|]. split; [intros i; rewrite L; apply R2|]. intros i h K. cbn. apply live_hmod in K.
      destruct (Nat.eqb e i); [|apply (R3 _ _ K)]. destruct K as (x & K & ->). destruct (Hf x) as [-> ->]. apply (R3 _ _ K).
    - intros k p Hk. destruct (HS k p Hk) as (S1 & S2 & S3). split; auto. split; intros i.
      + rewrite S2. symmetry. apply LE. apply Hf.
      + rewrite S3. symmetry. apply LE. apply Hf.
    - exact HP.
  Qed.
  Lemma unlinked_upd d e f : (forall h, h_next (f h) = h_next h /\ h_prev (f h) = h_prev h) -> unlinked d ->
    unlinked (wd_halves d (upd (d_halves d) e (option_map f))).
  Proof.
    intros Hf U i h K. apply live_hmod in K. destruct (Nat.eqb e i); [|apply (U _ _ K)].
    destruct K as (x & K & ->). destruct (Hf x) as [-> ->]. apply (U _ _ K).
  Qed.

  (** *** add_line *)
  Lemma unlinked_same d d' : d_halves d' = d_halves d -> unlinked d -> unlinked d'.
  Proof. unfold unlinked, live. now intros ->. Qed.
  Lemma live_snoc d d' h0 : d_halves d' = d_halves d ++ [Some h0] ->
    forall i h, live d' i h <-> live d i h \/ (i = length (d_halves d) /\ h = h0).
  Proof.
    intros E i h. unfold live. rewrite E. destruct (Nat.lt_ge_cases i (length (d_halves d))) as [Lt|Ge].
    - rewrite nth_error_app1 by auto. split; auto. intros [K|[-> _]]; auto. lia.
    - split.
      + intros K. assert (K' := nth_lt _ _ _ K). rewrite app_length in K'; cbn in K'.
        assert (i = length (d_halves d)) by lia. subst i. rewrite nth_snoc_last in K. injection K as <-. auto.
      + intros [K|[-> ->]]; [apply nth_lt in K; lia|]. now rewrite nth_snoc_last.
  Qed.
  Lemma unlinked_snoc d d' h0 : d_halves d' = d_halves d ++ [Some h0] -> h_next h0 = None -> h_prev h0 = None ->
    unlinked d -> unlinked d'.
  Proof. intros E H1 H2 U i h K. apply (live_snoc _ _ _ E) in K as [K|[_ ->]]; auto. now apply (U i). Qed.

  Lemma find_grow d x y d' i : find_or_add_point d x y = (d', i) -> points_grow d d'.
  Proof.
    unfold find_or_add_point. destruct (pset_find d (V2 x y) (d_pset d)); intros E; injection E as <- <-.
    - apply points_grow_refl.
    - exists [V2 x y]. cbn. now rewrite map_app.
  Qed.

  Lemma add_line_run d x1 y1 x2 y2 : wf d -> exists d', add_line d x1 y1 x2 y2 = Ok d' /\ wf d' /\
    (unlinked d -> unlinked d').
  Proof.
    intros W. unfold add_line. destruct (n_eqb x1 x2 && n_eqb y1 y2); [eauto|].
    destruct (find_or_add_point d x1 y1) as [d1 a] eqn:E1. destruct (find_or_add_point d1 x2 y2) as [d2 b] eqn:E2.
    destruct (find_or_add_wf _ _ _ _ _ W E1) as (W1 & A1 & A2 & A3 & A4 & A5 & A6 & _).
    destruct (find_or_add_wf _ _ _ _ _ W1 E2) as (W2 & B1 & B2 & B3 & B4 & B5 & B6 & _).
    apply find_grow, points_grow_len in E2.
    destruct (new_line_run d2 a b W2) as (d3 & R & W3 & C1 & _); [lia|auto|].
    rewrite R. cbn [bind]. exists d3. split; auto. split; auto. intros U.
    eapply unlinked_snoc; [exact C1|auto|auto|]. eapply unlinked_same; [|exact U]. congruence.
  Qed.
  Lemma calls_run l : forall d, wf d -> exists d', dcalls_run d l = Ok d' /\ wf d' /\ (unlinked d -> unlinked d').
  Proof.
    induction l as [|c r IH]; intros d W; cbn; [eauto|].
    assert (S : exists d1, dcall_run d c = Ok d1 /\ wf d1 /\ (unlinked d -> unlinked d1)).
    { destruct c; cbn; [eauto|now apply add_line_run]. }
    destruct S as (d1 & -> & W1 & U1). cbn. destruct (IH d1 W1) as (d' & R & W' & U'). eauto 6.
  Qed.
  Lemma unlinked0 : unlinked dcel0.
  Proof. intros [|e] h E; discriminate. Qed.

  (** *** Intersections *)
  (** Only the break points differ. *)
  Definition same_but_breaks d d' : Prop :=
    d_points d' = d_points d /\ d_pset d' = d_pset d /\ d_edges d' = d_edges d /\ d_fpool d' = d_fpool d /\
    d_faces d' = d_faces d /\ d_type d' = d_type d /\ length (d_halves d') = length (d_halves d) /\
    (forall i h', live d' i h' -> exists h, live d i h /\ h' = set_breaks (h_breaks h') h) /\
    (forall i h, live d i h -> exists h', live d' i h').
  Lemma sbb_refl d : same_but_breaks d d.
  Proof. unfold same_but_breaks; csplit; eauto. intros i [] L. eexists; split; [exact L|reflexivity]. Qed.
  Lemma sbb_trans d1 d2 d3 : same_but_breaks d1 d2 -> same_but_breaks d2 d3 -> same_but_breaks d1 d3.
  Proof.
    intros (A1 & A2 & A3 & A4 & A5 & A6 & A7 & A8 & A9) (B1 & B2 & B3 & B4 & B5 & B6 & B7 & B8 & B9).
    unfold same_but_breaks; csplit; try congruence.
    - intros i h' L. destruct (B8 i h' L) as (h & L1 & E1). destruct (A8 i h L1) as (h0 & L0 & E0). exists h0. split; auto.
      rewrite E1, E0. reflexivity.
    - intros i h L. destruct (A9 i h L) as (h1 & L1). eauto.
  Qed.
  Lemma add_break_sbb d e p d' : add_break_point d e p = Ok d' -> same_but_breaks d d'.
  Proof.
    unfold add_break_point. intros H. apply hmod_inv in H as (_ & ->). unfold same_but_breaks; csplit; auto.
    - cbn. apply length_upd.
    - intros i h' L. apply live_hmod in L. destruct (Nat.eqb e i).
      + destruct L as (h & L & ->). eauto.
      + destruct h'. eexists; split; [exact L|reflexivity].
    - intros i h L. destruct (Nat.eqb e i) eqn:E; eexists; apply live_hmod; rewrite E; eauto.
  Qed.
  Lemma add_break_if_sbb c d e p d' : add_break_if c d e p = Ok d' -> same_but_breaks d d'.
  Proof. destruct c; cbn; [apply add_break_sbb|]. intros E; injection E as <-. apply sbb_refl. Qed.
  Lemma half_intersect_sbb d l r d' : half_intersect d l r = Ok d' -> same_but_breaks d d'.
  Proof.
    unfold half_intersect. intros H. binvs.
    repeat match goal with H : context [match ?l with [] => _ | _ => _ end] |- _ => destruct l end; binvs;
      repeat match goal with K : add_break_if _ _ _ _ = Ok _ |- _ => apply add_break_if_sbb in K end;
      eauto 7 using sbb_refl, sbb_trans, add_break_sbb.
  Qed.
  Lemma intersect_all_sbb pairs ids : forall d d', intersect_all d ids pairs = Ok d' -> same_but_breaks d d'.
  Proof.
    induction pairs as [|[i j] r IH]; cbn; intros d d' H; [injection H as <-; apply sbb_refl|]. binvs.
    eauto using sbb_trans, half_intersect_sbb.
  Qed.
  Lemma sbb_wf d d' : same_but_breaks d d' -> wf d -> wf d'.
  Proof.
    intros (A1 & A2 & A3 & A4 & A5 & A6 & A7 & A8 & A9) ((R1 & R2 & R3) & HS & HP).
    assert (L : forall i, (exists h, live d' i h) <-> exists h, live d i h).
    { intros i. split; intros (h & L); [apply A8 in L as (x & L & _)|apply A9 in L]; eauto. }
    assert (LE : forall i (g : half T -> nat) k, (forall h b, g (set_breaks b h) = g h) ->
      (exists h, live d' i h /\ g h = k) <-> exists h, live d i h /\ g h = k).
    { intros i g k Hg. split; intros (h & K & E).
      - destruct (A8 _ _ K) as (x & K' & E'). exists x. split; auto. rewrite E', Hg in E. auto.
      - destruct (A9 _ _ K) as (h' & K'). exists h'. split; auto. destruct (A8 _ _ K') as (x & K2 & E').
        rewrite E', Hg. rewrite (live_inj _ _ _ _ K2 K). auto. }
    split; [|split].
    - split; [now rewrite A3|]. split; [intros i; rewrite L, A3; apply R2|]. intros i h K. rewrite A1.
      destruct (A8 _ _ K) as (x & K' & ->). apply (R3 _ _ K').
    - intros k p Hk. rewrite A1 in Hk. destruct (HS k p Hk) as (S1 & S2 & S3). split; auto. split; intros i.
      + rewrite S2. symmetry. now apply LE.
      + rewrite S3. symmetry. now apply LE.
    - unfold all_in_set. now rewrite A1, A2.
  Qed.
  Lemma sbb_unlinked d d' : same_but_breaks d d' -> unlinked d -> unlinked d'.
  Proof.
    intros (A1 & A2 & A3 & A4 & A5 & A6 & A7 & A8 & A9) U i h L. apply A8 in L as (x & L & ->). exact (U i x L).
  Qed.

  (** *** Pieces *)
  Lemma add_pieces_run bp : forall d c fin, wf d -> c < length (d_points d) -> fin < length (d_points d) ->
    exists d' new, add_pieces d c bp fin = Ok d' /\ wf d' /\ d_halves d' = d_halves d ++ map Some new /\
      d_edges d' = d_edges d ++ seq (length (d_halves d)) (length new) /\
      (forall h, In h new -> h_next h = None /\ h_prev h = None) /\ points_grow d d' /\ length new = S (length bp) /\
      d_fpool d' = d_fpool d /\ d_faces d' = d_faces d.
  Proof.
    induction bp as [|p r IH]; intros d c fin W Hc Hf; cbn.
    - destruct (new_line_run d c fin W Hc Hf) as (d1 & R & W1 & C1 & C2 & C3 & C4 & _ & _ & C5). rewrite R. cbn.
      exists d1, [Half c fin None None None None (d_type d) []]. csplit; auto.
      + intros h [<-|[]]; auto.
      + exists []. now rewrite app_nil_r.
    - destruct (find_or_add_point d (vx p) (vy p)) as [d1 k] eqn:E.
      destruct (find_or_add_wf _ _ _ _ _ W E) as (W1 & A1 & A2 & A3 & A4 & A5 & A6 & _).
      apply find_grow in E. pose proof (points_grow_len _ _ E).
      destruct (new_line_run d1 c k W1) as (d2 & R & W2 & C1 & C2 & C3 & C4 & _ & _ & C5); auto; [lia|]. rewrite R. cbn.
      assert (G : points_grow d1 d2) by (exists []; now rewrite app_nil_r).
      pose proof (points_grow_len _ _ G).
      destruct (IH d2 k fin W2) as (d3 & new & R3 & W3 & D1 & D2 & D3 & D4 & D5 & D6 & D7); [lia..|]. rewrite R3.
      exists d3, (Half c k None None None None (d_type d1) [] :: new). csplit; auto; try congruence.
      + rewrite D1, C1, A2. cbn. now rewrite <- app_assoc.
      + rewrite D2, C2, A3, C1, A2, app_length. cbn. rewrite <- app_assoc. cbn. now rewrite Nat.add_1_r.
      + intros h [<-|I]; auto.
      + eauto using points_grow_trans.
      + cbn. now rewrite D5.
  Qed.

  Lemma live_app d d' new : d_halves d' = d_halves d ++ map Some new ->
    forall i h, live d' i h <-> live d i h \/ (exists k, i = length (d_halves d) + k /\ nth_error new k = Some h).
  Proof.
    intros E i h. unfold live. rewrite E. destruct (Nat.lt_ge_cases i (length (d_halves d))) as [Lt|Ge].
    - rewrite nth_error_app1 by auto. split; auto. intros [K|(k & -> & _)]; auto. lia.
    - rewrite nth_error_app2 by auto. rewrite nth_error_map. split.
      + intros K. right. exists (i - length (d_halves d)). split; [lia|].
        destruct (nth_error new (i - length (d_halves d))); cbn in K; congruence.
      + intros [K|(k & -> & K)]; [apply nth_lt in K; lia|].
        replace (length (d_halves d) + k - length (d_halves d)) with k by lia. now rewrite K.
  Qed.

  (** Removing a half edge everywhere. *)
  Definition dropped d (e a b : nat) : dcel T :=
    let d := wd_edges d (filter (fun i => negb (Nat.eqb i e)) (d_edges d)) in
    let d := wd_points d (upd (upd (d_points d) a (remove_edge e)) b (remove_edge e)) in
    wd_halves d (upd (d_halves d) e (fun _ => None)).
  Lemma live_dropped d e a b i h : live (dropped d e a b) i h <-> i <> e /\ live d i h.
  Proof.
    unfold live, dropped; cbn. rewrite nth_upd. destruct (Nat.eqb e i) eqn:E.
    - apply Nat.eqb_eq in E; subst. destruct (nth_error (d_halves d) i); cbn; split; try discriminate; intuition.
    - apply Nat.eqb_neq in E. intuition.
  Qed.
  Lemma dropped_wf d e h : wf d -> live d e h -> wf (dropped d e (h_start h) (h_end h)).
  Proof.
    intros ((R1 & R2 & R3) & HS & HP) L. split; [|split].
    - split; [|split].
      + cbn. now apply NoDup_filter.
      + intros i. cbn. rewrite filter_In, R2. setoid_rewrite live_dropped. rewrite negb_true_iff, Nat.eqb_neq.
        split; [intros ((x & K) & E); eauto|]. intros (x & K & E); eauto.
      + intros i x K. apply live_dropped in K as (_ & K). cbn. rewrite !length_upd. exact (R3 i x K).
    - intros k p Hk. cbn in Hk. rewrite !nth_upd in Hk.
      destruct (nth_error (d_points d) k) as [p0|] eqn:K0; [|now destruct (Nat.eqb (h_end h) k), (Nat.eqb (h_start h) k)].
      destruct (HS k p0 K0) as (S1 & S2 & S3).
      assert (G : forall x, In x (p_edges p) <-> In x (p_edges p0) /\ fst x <> e).
      { assert (F : p_edges p = filter (fun x => negb (Nat.eqb (fst x) e)) (p_edges p0) \/
                    (p_edges p = p_edges p0 /\ h_start h <> k /\ h_end h <> k)).
        { destruct (Nat.eqb (h_end h) k) eqn:E1, (Nat.eqb (h_start h) k) eqn:E2; cbn in Hk; injection Hk as <-; cbn; auto.
          - left. clear. induction (p_edges p0) as [|x l IH]; cbn; auto. destruct (Nat.eqb (fst x) e) eqn:E; cbn; auto.
            rewrite E; cbn. now rewrite IH.
          - right. apply Nat.eqb_neq in E1, E2. auto. }
        destruct F as [->|(-> & N1 & N2)].
        - intros x. rewrite filter_In, negb_true_iff, Nat.eqb_neq. reflexivity.
        - intros [i em]. cbn. split; [|tauto]. intros I. split; auto. intros ->.
          destruct em; [apply S2 in I|apply S3 in I]; destruct I as (x & K & E); rewrite (live_inj _ _ _ _ K L) in E; auto. }
      split; [|split].
      + assert (F : exists f, p_edges p = filter f (p_edges p0)).
        { destruct (Nat.eqb (h_end h) k), (Nat.eqb (h_start h) k); cbn in Hk; injection Hk as <-; cbn.
          - exists (fun x => negb (Nat.eqb (fst x) e)). clear. induction (p_edges p0) as [|x l IH]; cbn; auto.
            destruct (Nat.eqb (fst x) e) eqn:E; cbn; auto. rewrite E; cbn. now rewrite IH.
          - eauto.
          - eauto.
          - exists (fun _ => true). clear. induction (p_edges p0); cbn; congruence. }
        destruct F as (f & ->). now apply NoDup_filter.
      + intros i. rewrite G, S2. setoid_rewrite live_dropped. cbn. split; [intros ((x & K & E) & Q); eauto|].
        intros (x & (Q & K) & E). eauto.
      + intros i. rewrite G, S3. setoid_rewrite live_dropped. cbn. split; [intros ((x & K & E) & Q); eauto|].
        intros (x & (Q & K) & E). eauto.
    - unfold all_in_set. cbn. now rewrite !length_upd.
  Qed.

  Lemma break_half_run d e h : wf d -> live d e h -> exists d', break_half d e = Ok d' /\ wf d' /\
    (unlinked d -> unlinked d') /\ points_grow d d' /\ (forall i x, i <> e -> live d i x -> live d' i x) /\
    d_fpool d' = d_fpool d /\ d_faces d' = d_faces d.
  Proof.
    intros W L. pose proof W as ((R1 & R2 & R3) & HS & HP). unfold break_half.
    rewrite (proj2 (half_at_ok d e h) L). cbn [bind].
    destruct (h_breaks h) as [|b0 bs] eqn:EB; [exists d; csplit; auto using points_grow_refl|].
    destruct (R3 e h L) as (Ls & Le).
    destruct (point_run d _ Ls) as (p & _ & Ep). destruct (point_run d _ Le) as (q & _ & Eq). rewrite Ep, Eq. cbn [bind].
    match goal with |- context [add_pieces d _ ?l _] =>
      destruct (add_pieces_run l d (h_start h) (h_end h) W Ls Le) as (d1 & new & R & W1 & D1 & D2 & D3 & D4 & D5 & D6 & D7) end.
    rewrite R. cbn [bind].
    assert (L1 : live d1 e h) by (apply (live_app _ _ _ D1); auto).
    pose proof (points_grow_len _ _ D4) as LG.
    set (d2 := wd_edges d1 (filter (fun i => negb (Nat.eqb i e)) (d_edges d1))).
    assert (Ls2 : h_start h < length (d_points d2)) by (cbn; lia).
    destruct (point_run d2 _ Ls2) as (p2 & P2 & _). rewrite (dpmod_run d2 _ _ p2 P2). cbn [bind].
    set (d3 := wd_points d2 (upd (d_points d2) (h_start h) (remove_edge e))).
    assert (Le3 : h_end h < length (d_points d3)) by (cbn; rewrite length_upd; lia).
    destruct (point_run d3 _ Le3) as (p3 & P3 & _). rewrite (dpmod_run d3 _ _ p3 P3). cbn [bind].
    change (wd_halves (wd_points d3 (upd (d_points d3) (h_end h) (remove_edge e)))
      (upd (d_halves (wd_points d3 (upd (d_points d3) (h_end h) (remove_edge e)))) e (fun _ => None)))
      with (dropped d1 e (h_start h) (h_end h)).
    exists (dropped d1 e (h_start h) (h_end h)). csplit; auto.
    - now apply dropped_wf.
    - intros U i x K. apply live_dropped in K as (_ & K). apply (live_app _ _ _ D1) in K as [K|(k & _ & K)].
      + exact (U i x K).
      + apply D3. eapply nth_error_In; eauto.
    - destruct D4 as (l & D4). exists l. cbn. rewrite !map_upd_keep; auto.
    - intros i x E K. apply live_dropped. split; auto. apply (live_app _ _ _ D1); auto.
  Qed.
  Lemma break_halves_run l : forall d, wf d -> NoDup l -> (forall e, In e l -> exists h, live d e h) ->
    exists d', break_halves d l = Ok d' /\ wf d' /\ (unlinked d -> unlinked d') /\ points_grow d d' /\
      d_fpool d' = d_fpool d /\ d_faces d' = d_faces d.
  Proof.
    induction l as [|e r IH]; intros d W ND HL; cbn; [exists d; csplit; auto using points_grow_refl|].
    inversion ND; subst. destruct (HL e (or_introl eq_refl)) as (h & L).
    destruct (break_half_run d e h W L) as (d1 & R & W1 & U1 & G1 & K1 & F1 & F2). rewrite R. cbn [bind].
    destruct (IH d1 W1) as (d' & R' & W' & U' & G' & F3 & F4); auto.
    - intros i Hi. destruct (HL i (or_intror Hi)) as (x & Lx). exists x. apply K1; auto. intros ->; auto.
    - exists d'. csplit; eauto using points_grow_trans; congruence.
  Qed.

  Lemma half_boxes_run d l : wf d -> (forall e, In e l -> exists h, live d e h) -> exists bs, half_boxes d l = Ok bs.
  Proof.
    intros ((R1 & R2 & R3) & _). induction l as [|e r IH]; intros HL; cbn; [eauto|].
    destruct (HL e (or_introl eq_refl)) as (h & L). unfold half_box. rewrite (proj2 (half_at_ok d e h) L). cbn.
    destruct (R3 e h L) as (Ls & Le).
    destruct (point_run d _ Ls) as (p & _ & ->). destruct (point_run d _ Le) as (q & _ & ->). cbn.
    destruct IH as (bs & ->); [intros; apply HL; now right|]. cbn. eauto.
  Qed.
  Variable en : denv.
  Lemma by_addr_perm l : Permutation l (by_addr en l).
  Proof. apply sort_by_perm. Qed.
  Lemma by_addr_live d : wf d -> NoDup (by_addr en (d_edges d)) /\ forall e, In e (by_addr en (d_edges d)) -> exists h, live d e h.
  Proof.
    intros ((R1 & R2 & R3) & _). split.
    - eapply Permutation_NoDup; [apply by_addr_perm|auto].
    - intros e H. apply R2. eapply Permutation_in; [|exact H]. symmetry. apply by_addr_perm.
  Qed.

  Lemma process_break_ok d d' : wf d -> process_break en d = Ok d' ->
    wf d' /\ (unlinked d -> unlinked d') /\ points_grow d d' /\ d_fpool d' = d_fpool d /\ d_faces d' = d_faces d.
  Proof.
    intros W H. unfold process_break in H. apply bind_ok in H as (bs & H1 & H). apply bind_ok in H as (d1 & H2 & H).
    apply intersect_all_sbb in H2. pose proof (sbb_wf _ _ H2 W) as W1. destruct (by_addr_live d1 W1) as (B1 & B2).
    destruct (break_halves_run _ d1 W1 B1 B2) as (d2 & R & W2 & U2 & G2 & F1 & F2). rewrite H in R. injection R as <-.
    destruct (H2) as (A1 & A2 & A3 & A4 & A5 & A6 & A7 & A8 & A9). csplit; auto.
    - intros U. apply U2. eapply sbb_unlinked; eauto.
    - eapply points_grow_trans; [|exact G2]. exists []. now rewrite A1, app_nil_r.
    - congruence.
    - congruence.
  Qed.

  (** *** Twins *)
  Definition twin_out d (S : list nat) : Prop :=
    forall e h, live d e h -> In e S \/ exists t ht,
      h_twin h = Some t /\ t <> e /\ ~ In t S /\ live d t ht /\ h_twin ht = Some e /\
      h_start ht = h_end h /\ h_end ht = h_start h.
  Lemma build_twin_run d e h S : wf d -> live d e h -> ~ In e S -> (forall i, In i S -> exists x, live d i x) ->
    twin_out d (e :: S) ->
    exists d', build_twin d e = Ok d' /\ wf d' /\ twin_out d' S /\ (unlinked d -> unlinked d') /\ points_grow d d' /\
      (forall i, (exists x, live d i x) -> exists x, live d' i x) /\ d_fpool d' = d_fpool d /\ d_faces d' = d_faces d.
  Proof.
    intros W L NI HS HT. pose proof W as ((R1 & R2 & R3) & _). destruct (R3 e h L) as (Ls & Le).
    unfold build_twin. rewrite (proj2 (half_at_ok d e h) L). cbn [bind].
    destruct (new_line_run d _ _ W Le Ls) as (d1 & R & W1 & C1 & C2 & C3 & C4 & _ & _ & C5). rewrite R. cbn [bind].
    set (t := length (d_halves d)) in *. set (h0 := Half (h_end h) (h_start h) None None None None (d_type d) []) in *.
    assert (L1 := live_snoc _ _ _ C1).
    assert (NE : t <> e) by (apply nth_lt in L; unfold t; lia).
    rewrite (hmod_run d1 t _ h0) by (apply L1; auto). cbn [bind].
    set (d2 := wd_halves d1 (upd (d_halves d1) t (option_map (set_twin (Some e))))).
    assert (L2 : live d2 e h).
    { apply live_hmod. rewrite (proj2 (Nat.eqb_neq t e) NE). apply L1; auto. }
    rewrite (hmod_run d2 e _ h L2).
    eexists. split; [reflexivity|].
    set (d3 := wd_halves d2 (upd (d_halves d2) e (option_map (set_twin (Some t))))).
    assert (L3 : forall i x, live d3 i x <->
      (i = e /\ x = set_twin (Some t) h) \/ (i = t /\ x = set_twin (Some e) h0) \/ (i <> e /\ i <> t /\ live d i x)).
    { intros i x. unfold d3. rewrite live_hmod. destruct (Nat.eqb e i) eqn:E1.
      - apply Nat.eqb_eq in E1; subst i. split.
        + intros (y & K & ->). rewrite (live_inj _ _ _ _ K L2). auto.
        + intros [(_ & ->)|[(K & _)|(K & _)]]; [eauto|congruence|congruence].
      - apply Nat.eqb_neq in E1. unfold d2. rewrite live_hmod. destruct (Nat.eqb t i) eqn:E2.
        + apply Nat.eqb_eq in E2; subst i. split.
          * intros (y & K & ->). apply L1 in K as [K|(_ & ->)]; auto. apply nth_lt in K. unfold t in K; lia.
          * intros [(K & _)|[(_ & ->)|(_ & K & _)]]; [congruence| |congruence]. exists h0. split; auto. apply L1; auto.
        + apply Nat.eqb_neq in E2. rewrite L1. split.
          * intros [K|(K & _)]; [right; right; auto|]. exfalso; apply E2; auto.
          * intros [(K & _)|[(K & _)|(_ & _ & K)]]; [congruence|congruence|auto]. }
    csplit.
    - unfold d3, d2. apply wf_upd; [auto|]. apply wf_upd; auto.
    - intros i x K. apply L3 in K as [(-> & ->)|[(-> & ->)|(N1 & N2 & K)]].
      + right. exists t, (set_twin (Some e) h0). csplit; auto.
        * intros I. destruct (HS t I) as (y & K). apply nth_lt in K. unfold t in K; lia.
        * apply L3; auto.
      + right. exists e, (set_twin (Some t) h). csplit; auto. apply L3; auto.
      + destruct (HT i x K) as [[I|I]|(t' & ht & T1 & T2 & T3 & T4 & T5 & T6 & T7)]; [congruence|auto|].
        right. exists t', ht. csplit; auto.
        * intros I. apply T3. now right.
        * apply L3. right. right. csplit; auto; [intros ->; apply T3; now left|].
          intros ->. apply nth_lt in T4. unfold t in T4; lia.
    - intros U i x K. apply L3 in K as [(-> & ->)|[(-> & ->)|(N1 & N2 & K)]]; cbn; auto.
      + exact (U e h L).
      + exact (U i x K).
    - exists []. cbn. now rewrite C5, app_nil_r.
    - intros i (x & K). destruct (Nat.eq_dec i e) as [->|N1]; [eexists; apply L3; auto|].
      destruct (Nat.eq_dec i t) as [->|N2]; [eexists; apply L3; auto|]. exists x. apply L3; auto.
    - cbn. congruence.
    - cbn. congruence.
  Qed.
  Lemma build_twins_of_run l : forall d, wf d -> NoDup l -> (forall e, In e l -> exists h, live d e h) -> twin_out d l ->
    exists d', build_twins_of d l = Ok d' /\ wf d' /\ twin_out d' [] /\ (unlinked d -> unlinked d') /\ points_grow d d' /\
      d_fpool d' = d_fpool d /\ d_faces d' = d_faces d.
  Proof.
    induction l as [|e r IH]; intros d W ND HL HT; cbn; [exists d; csplit; auto using points_grow_refl|].
    inversion ND; subst. destruct (HL e (or_introl eq_refl)) as (h & L).
    destruct (build_twin_run d e h r W L) as (d1 & R & W1 & T1 & U1 & G1 & K1 & F1 & F2); auto.
    { intros i Hi. apply HL. now right. }
    rewrite R. cbn [bind].
    destruct (IH d1 W1) as (d' & R' & W' & T' & U' & G' & F3 & F4); auto.
    { intros i Hi. apply K1. apply HL. now right. }
    exists d'. csplit; eauto using points_grow_trans; congruence.
  Qed.
  Lemma build_twins_run d : wf d -> exists d', build_twins en d = Ok d' /\ wf d' /\ twinned d' /\ (unlinked d -> unlinked d') /\
    points_grow d d' /\ d_fpool d' = d_fpool d /\ d_faces d' = d_faces d.
  Proof.
    intros W. destruct (by_addr_live d W) as (B1 & B2).
    destruct (build_twins_of_run _ d W B1 B2) as (d' & R & W' & T' & U' & G' & F).
    - intros e h L. left. eapply Permutation_in; [apply by_addr_perm|]. apply W. eauto.
    - exists d'. csplit; auto; try apply F. intros e h L. destruct (T' e h L) as [[]|(t & ht & T1 & T2 & _ & T3)]. exists t, ht. auto.
  Qed.
End Keep.
