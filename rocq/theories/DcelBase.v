(** The stores of the half-edge structure: what each primitive changes. *)
From Coq Require Import ZArith Bool List Permutation Lia.
From Verif Require Import Outcome Num Order Rmath RectSpec ScanLine VState VLemmas SortProofs Dcel DcelSpec.
Import ListNotations.
Local Open Scope out.

Lemma map_upd_keep {A B} (h : A -> B) (l : list A) i f : (forall x, h (f x) = h x) -> map h (upd l i f) = map h l.
Proof. intros H. revert i. induction l; intros []; cbn; auto; now rewrite ?H, ?IHl. Qed.
Lemma nodup_snoc {A} (l : list A) x : NoDup l -> ~ In x l -> NoDup (l ++ [x]).
Proof. intros H K. eapply Permutation_NoDup; [apply Permutation_cons_append|]. now constructor. Qed.

Section Base.
  Context {T : Type} {N : Num T}.
  Implicit Types d : dcel T.

  Lemma live_inj d e h h' : live d e h -> live d e h' -> h = h'.
  Proof. unfold live. congruence. Qed.
  Lemma half_at_ok d e h : half_at d e = Ok h <-> live d e h.
  Proof. unfold half_at, live. destruct (nth_error (d_halves d) e) as [[x|]|]; split; congruence. Qed.
  Lemma hmod_run d e f h : live d e h -> hmod d e f = Ok (wd_halves d (upd (d_halves d) e (option_map f))).
  Proof. intros H. unfold hmod. apply half_at_ok in H. now rewrite H. Qed.
  Lemma hmod_inv d e f d' : hmod d e f = Ok d' ->
    (exists h, live d e h) /\ d' = wd_halves d (upd (d_halves d) e (option_map f)).
  Proof. unfold hmod. intros H. apply bind_ok in H as (h & H1 & H). apply half_at_ok in H1. injection H as <-. eauto. Qed.
  Lemma live_hmod d e f i h' : live (wd_halves d (upd (d_halves d) e (option_map f))) i h' <->
    (if Nat.eqb e i then exists h, live d i h /\ h' = f h else live d i h').
  Proof.
    unfold live; cbn. rewrite nth_upd. destruct (Nat.eqb e i); [|reflexivity].
    destruct (nth_error (d_halves d) i) as [[x|]|]; cbn; split.
    - intros E; injection E as <-; eauto.
    - intros (h & E & ->). congruence.
    - discriminate.
    - intros (h & E & _). discriminate.
    - discriminate.
    - intros (h & E & _). discriminate.
  Qed.
  Lemma dpmod_run d i f p : nth_error (d_points d) i = Some p -> dpmod d i f = Ok (wd_points d (upd (d_points d) i f)).
  Proof. intros H. unfold dpmod, point_at_, at_. now rewrite H. Qed.
  Lemma dpmod_inv d i f d' : dpmod d i f = Ok d' ->
    (exists p, nth_error (d_points d) i = Some p) /\ d' = wd_points d (upd (d_points d) i f).
  Proof. unfold dpmod, point_at_. intros H. binvs. eauto. Qed.
  Lemma point_run d i : i < length (d_points d) -> exists p, nth_error (d_points d) i = Some p /\ point_at_ d i = Ok p.
  Proof. intros H. apply nth_some in H as (p & H). exists p. split; auto. unfold point_at_, at_. now rewrite H. Qed.

  (** Everything but the links: kept by all operations. *)
  Definition wf d : Prop := registered d /\ stars d /\ all_in_set d.

  Lemma wf0 : wf dcel0.
  Proof.
    unfold wf, registered, stars, all_in_set, live; cbn. repeat split; try constructor.
    - intros [].
    - intros (h & E). destruct e; discriminate.
    - destruct e; discriminate.
    - destruct e; discriminate.
    - destruct k; discriminate.
    - destruct k; discriminate.
    - destruct k; discriminate.
    - destruct k; discriminate.
    - destruct k; discriminate.
  Qed.

  (** *** Points *)
  Lemma coord_snoc d p i : i < length (d_points d) -> coord (wd_points d (d_points d ++ [p])) i = coord d i.
  Proof. intros H. unfold coord; cbn. now rewrite nth_error_app1. Qed.
  Lemma coord_last d p : coord (wd_points d (d_points d ++ [p])) (length (d_points d)) = p_at p.
  Proof. unfold coord; cbn. now rewrite nth_snoc_last. Qed.

  Lemma insert_new d p l : Forall (fun i => i < length (d_points d)) l -> pset_find d (p_at p) l = None ->
    let d' := wd_points d (d_points d ++ [p]) in
    Permutation (length (d_points d) :: l)
      (oset_insert (fun a b => vec_ltb (coord d' a) (coord d' b)) (length (d_points d)) l).
  Proof.
    intros HF HN d'. induction l as [|i r IH]; cbn; auto. inversion HF as [|? ? H1 H2]; subst. cbn in HN.
    unfold d'. rewrite coord_last, coord_snoc by auto.
    destruct (vec_ltb (coord d i) (p_at p)) eqn:E1.
    - destruct (vec_ltb (p_at p) (coord d i)); auto. rewrite perm_swap. constructor. exact (IH H2 HN).
    - destruct (vec_ltb (p_at p) (coord d i)); [auto|discriminate].
  Qed.

  Lemma all_bounded d : all_in_set d -> Forall (fun i => i < length (d_points d)) (d_pset d).
  Proof.
    intros H. rewrite Forall_forall. intros i Hi. apply (Permutation_in _ H) in Hi. apply in_seq in Hi. lia.
  Qed.
  Lemma pset_find_in d x l i : pset_find d x l = Some i -> In i l.
  Proof.
    induction l as [|j r IH]; cbn; [discriminate|]. destruct (vec_ltb _ _); auto. destruct (vec_ltb _ _); [discriminate|].
    intros E; injection E as ->. auto.
  Qed.

  Lemma find_or_add_wf d x y d' i : wf d -> find_or_add_point d x y = (d', i) ->
    wf d' /\ i < length (d_points d') /\ d_halves d' = d_halves d /\ d_edges d' = d_edges d /\
    d_fpool d' = d_fpool d /\ d_faces d' = d_faces d /\ d_type d' = d_type d /\
    exists l, d_points d' = d_points d ++ l.
  Proof.
    intros W H. destruct (W) as (HR & HS & HP). unfold find_or_add_point in H.
    destruct (pset_find d (V2 x y) (d_pset d)) as [j|] eqn:E; injection H as <- <-.
    - csplit; auto; [|exists []; now rewrite app_nil_r].
      apply pset_find_in in E. pose proof (all_bounded _ HP) as B. rewrite Forall_forall in B. auto.
    - csplit; auto; cbn.
      + split; [|split].
        * destruct HR as (R1 & R2 & R3). split; [|split]; auto. unfold live in *; cbn. intros e h L.
          rewrite app_length; cbn. specialize (R3 e h L). lia.
        * intros k p Hk. cbn in Hk. destruct (Nat.lt_ge_cases k (length (d_points d))) as [Lt|Ge].
          -- rewrite nth_error_app1 in Hk by auto. exact (HS k p Hk).
          -- assert (K : k < length (d_points d ++ [Point (V2 x y) []])) by (eapply nth_lt; eauto).
             rewrite app_length in K; cbn in K. assert (k = length (d_points d)) by lia. subst k.
             rewrite nth_snoc_last in Hk. injection Hk as <-. cbn. destruct HR as (R1 & R2 & R3). split; [constructor|].
             split; (intros e; split; [intros []|]); intros (h & L & Eq); specialize (R3 e h L); lia.
        * unfold all_in_set; cbn. rewrite app_length; cbn. rewrite Nat.add_1_r, seq_S; cbn.
          etransitivity; [|apply Permutation_cons_append]. etransitivity; [|apply perm_skip; exact HP].
          symmetry. apply (insert_new d (Point (V2 x y) [])); auto.
          now apply all_bounded.
      + rewrite app_length; cbn; lia.
      + eauto.
  Qed.

  (** *** Half edges *)
  Lemma new_line_run d a b : wf d -> a < length (d_points d) -> b < length (d_points d) ->
    exists d', new_line_edge d a b = Ok (d', length (d_halves d)) /\ wf d' /\
      d_halves d' = d_halves d ++ [Some (Half a b None None None None (d_type d) [])] /\
      d_edges d' = d_edges d ++ [length (d_halves d)] /\
      d_fpool d' = d_fpool d /\ d_faces d' = d_faces d /\ d_type d' = d_type d /\ d_pset d' = d_pset d /\
      map p_at (d_points d') = map p_at (d_points d).
  Proof.
    intros (HR & HS & HP) Ha Hb. unfold new_line_edge. set (e := length (d_halves d)).
    set (h0 := Half a b None None None None (d_type d) []).
    set (d1 := wd_edges (wd_halves d (d_halves d ++ [Some h0])) (d_edges d ++ [e])).
    change (wd_edges (wd_halves d (d_halves d ++ [Some h0]))
      (d_edges (wd_halves d (d_halves d ++ [Some h0])) ++ [e])) with d1.
    assert (L1 : forall i h, live d1 i h <-> live d i h \/ (i = e /\ h = h0)).
    { intros i h. unfold live, d1; cbn. destruct (Nat.lt_ge_cases i e) as [Lt|Ge].
      - rewrite nth_error_app1 by auto. split; auto. intros [E|[E _]]; auto. lia.
      - split.
        + intros E. assert (K := nth_lt _ _ _ E). rewrite app_length in K; cbn in K. assert (i = e) by (unfold e in *; lia).
          subst i. unfold e in E. rewrite nth_snoc_last in E. injection E as <-. auto.
        + intros [E|[-> ->]]; [apply nth_lt in E; unfold e in Ge; lia|]. unfold e. now rewrite nth_snoc_last. }
    assert (FR : forall i h, live d i h -> i <> e).
    { intros i h E. apply nth_lt in E. unfold e. lia. }
    destruct (point_run d a Ha) as (pa & Pa & _).
    rewrite (dpmod_run d1 a _ pa) by exact Pa. cbn [bind].
    set (d2 := wd_points d1 (upd (d_points d1) a (add_edge e true))).
    assert (Hb2 : b < length (d_points d2)) by (cbn; rewrite length_upd; auto).
    destruct (point_run d2 b Hb2) as (pb & Pb & _).
    rewrite (dpmod_run d2 b _ pb) by exact Pb. cbn [bind].
    eexists. split; [reflexivity|]. cbn. csplit; auto.
    - destruct HR as (R1 & R2 & R3). split; [|split].
      + split; [|split]; cbn.
        * apply nodup_snoc; auto. rewrite R2. intros (h & L). now apply FR in L.
        * intros i. rewrite in_app_iff, R2. cbn. split.
          -- intros [(h & L)|[<-|[]]]; [exists h|exists h0]; apply L1; auto.
          -- intros (h & L). apply L1 in L as [L|[-> ->]]; eauto.
        * intros i h L. rewrite !length_upd. apply L1 in L as [L|[-> ->]]; auto. apply (R3 i h L).
      + intros k p Hk. cbn in Hk. rewrite nth_upd in Hk.
        assert (G : exists p0, nth_error (d_points d) k = Some p0 /\
          p_edges p = p_edges p0 ++ (if Nat.eqb a k then [(e, true)] else []) ++ (if Nat.eqb b k then [(e, false)] else [])).
        { rewrite nth_upd in Hk. destruct (nth_error (d_points d) k) as [p0|]; [|now destruct (Nat.eqb b k), (Nat.eqb a k)].
          exists p0. split; auto. destruct (Nat.eqb b k), (Nat.eqb a k); cbn in Hk; injection Hk as <-; cbn;
            rewrite ?app_nil_r, <- ?app_assoc; auto. }
        destruct G as (p0 & K0 & ->). destruct (HS k p0 K0) as (S1 & S2 & S3).
        assert (E0 : forall bb, ~ In (e, bb) (p_edges p0)).
        { intros [] I; [apply S2 in I|apply S3 in I]; destruct I as (h & L & _); now apply FR in L. }
        split; [|split].
        * eapply Permutation_NoDup; [apply Permutation_app_comm|]. pose proof (E0 true). pose proof (E0 false).
          destruct (Nat.eqb a k), (Nat.eqb b k); cbn;
            repeat (apply NoDup_cons; [cbn; intuition congruence|]); auto.
        * intros i. rewrite !in_app_iff, S2. split.
          -- intros [(h & L & E)|[I|I]].
             ++ exists h. split; auto. apply L1; auto.
             ++ destruct (Nat.eqb a k) eqn:E; [|destruct I]. destruct I as [I|[]]. injection I as <-. exists h0.
                split; [apply L1; auto|]. now apply Nat.eqb_eq.
             ++ destruct (Nat.eqb b k); [|destruct I]. destruct I as [I|[]]. discriminate.
          -- intros (h & L & E). apply L1 in L as [L|[-> ->]]; [left; eauto|]. cbn in E. subst k.
             rewrite Nat.eqb_refl. right. left. now left.
        * intros i. rewrite !in_app_iff, S3. split.
          -- intros [(h & L & E)|[I|I]].
             ++ exists h. split; auto. apply L1; auto.
             ++ destruct (Nat.eqb a k); [|destruct I]. destruct I as [I|[]]. discriminate.
             ++ destruct (Nat.eqb b k) eqn:E; [|destruct I]. destruct I as [I|[]]. injection I as <-. exists h0.
                split; [apply L1; auto|]. now apply Nat.eqb_eq.
          -- intros (h & L & E). apply L1 in L as [L|[-> ->]]; [left; eauto|]. cbn in E. subst k.
             rewrite Nat.eqb_refl. right. right. now left.
      + unfold all_in_set; cbn. now rewrite !length_upd.
    - cbn. rewrite !map_upd_keep; auto.
  Qed.
End Base.
