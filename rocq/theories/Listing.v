(** Two listings of the same contours give the same vertices up to their numbers. *)
From Coq Require Import ZArith Bool List Lia Reals Lra Sorted Permutation.
From Verif Require Import Outcome Num Order Rmath Segment Path PathSpec RTac VState VPath VBreak VLemmas AelSpec VAel VOut VMain SortProofs
  RingSpec MarkProofs MarkSpec BreakSpec VRing VBuild VAdd VBroken RingStatements BreakStatements BreakDrawn ClimbRing EquiMap RenBreak RenRun Layout.
Import ListNotations.
Local Open Scope out.

(** *** Extrema of a ring *)
Lemma turned_in (l : list nat) v rest i : turned l v rest -> In i (v :: rest) -> In i l.
Proof. intros (a & b & -> & ->). cbn. rewrite !in_app_iff. cbn. tauto. Qed.
Section Turned.
  Context {T : Type} {N : Num T}.
  Lemma turned_rot (x y : list nat) v rest : turned (x ++ y) v rest -> NoDup (x ++ y) -> turned (y ++ x) v rest.
  Proof.
    intros (a & b & E & ->) ND. revert x y E ND. induction a as [|h a IH]; intros x y E ND.
    - cbn in E. destruct x as [|f x]; cbn in E.
      + subst y. exists [], b. rewrite !app_nil_r. auto.
      + injection E as -> <-. exists y, x. split; auto. now rewrite app_nil_r.
    - destruct x as [|f x]; cbn in E.
      + subst y. rewrite app_nil_r. exists (h :: a), b. auto.
      + injection E as -> E. destruct (in_app_or x y v) as [X|Y].
        { rewrite E. apply in_or_app. right. now left. }
        * apply in_split in X as (x1 & x2 & ->). rewrite <- app_assoc in E. cbn in E.
          assert (Q : x1 = a /\ x2 ++ y = b).
          { cbn in ND. inversion ND as [|? ? _ ND']; subst. rewrite <- app_assoc in ND'. cbn in ND'.
            clear IH ND. revert a E ND'. induction x1 as [|k x1 IH1]; intros [|m a] E ND'; cbn in *.
            - injection E as ->. auto.
            - injection E as <- E. exfalso. inversion ND' as [|? ? NI _]; subst. apply NI. rewrite E, in_app_iff. cbn. auto.
            - injection E as -> E. exfalso. inversion ND' as [|? ? NI _]; subst. apply NI. rewrite in_app_iff. cbn. auto.
            - injection E as <- E. inversion ND'; subst. destruct (IH1 a E) as (-> & ->); auto. }
          destruct Q as (-> & <-). exists (y ++ h :: a), x2. rewrite <- !app_assoc. cbn. auto.
        * apply in_split in Y as (y1 & y2 & ->). rewrite app_assoc in E.
          assert (Q : x ++ y1 = a /\ y2 = b).
          { cbn in ND. inversion ND as [|? ? _ ND']; subst. rewrite app_assoc in ND'. clear IH ND. revert a E ND'. generalize (x ++ y1) as z.
            induction z as [|k z IH1]; intros [|m a] E ND'; cbn in *.
            - injection E as ->. auto.
            - injection E as <- E. exfalso. inversion ND' as [|? ? NI _]; subst. apply NI. rewrite in_app_iff. cbn. auto.
            - injection E as -> E. exfalso. inversion ND' as [|? ? NI _]; subst. apply NI. rewrite in_app_iff. cbn. auto.
            - injection E as <- E. inversion ND'; subst. destruct (IH1 a E) as (-> & ->); auto. }
          destruct Q as (<- & <-). exists y1, (y2 ++ h :: x). rewrite <- !app_assoc. cbn. auto.
  Qed.
  Variables (Y Y' : nat -> T) (g : nat -> nat).
  Lemma turned_map l v rest : turned l v rest -> turned (map g l) (g v) (map g rest).
  Proof. intros (a & b & -> & ->). exists (map g a), (map g b). rewrite !map_app. auto. Qed.
  Lemma arrives_map l k v : (forall i, In i l -> Y' (g i) = Y i) -> Y' (g v) = Y v -> arrives Y k v l -> arrives Y' k (g v) (map g l).
  Proof.
    intros H V (e & p & q & -> & F & C). exists (map g e), (g p), (map g q). rewrite map_app. split; auto. rewrite V.
    rewrite (H p) by (apply in_or_app; right; now left). split; auto. apply Forall_forall. intros x X. apply in_map_iff in X as (i & <- & I).
    rewrite (H i) by (apply in_or_app; now left). rewrite Forall_forall in F. auto.
  Qed.
  Lemma lowest_map l v : (forall i, In i l -> Y' (g i) = Y i) -> lowest Y l v -> lowest Y' (map g l) (g v).
  Proof.
    intros H (n & r & TR & C & A). pose proof (fun i K => H i (turned_in _ _ _ i TR K)) as K. exists (g n), (map g r).
    split; [exact (turned_map _ _ _ TR)|]. split; [rewrite !K; cbn; auto|]. change (g n :: map g r) with (map g (n :: r)). rewrite <- map_rev.
    apply arrives_map; auto. 2: { apply K. now left. } intros i I. apply K. right. now apply in_rev.
  Qed.
  Lemma highest_map l v : (forall i, In i l -> Y' (g i) = Y i) -> highest Y l v -> highest Y' (map g l) (g v).
  Proof.
    intros H (n & r & TR & C & A). pose proof (fun i K => H i (turned_in _ _ _ i TR K)) as K. exists (g n), (map g r).
    split; [exact (turned_map _ _ _ TR)|]. split; [rewrite !K; cbn; auto|]. change (g n :: map g r) with (map g (n :: r)). rewrite <- map_rev.
    apply arrives_map; auto. 2: { apply K. now left. } intros i I. apply K. right. now apply in_rev.
  Qed.
  Lemma lowest_rot (x y : list nat) v : NoDup (x ++ y) -> lowest Y (x ++ y) v -> lowest Y (y ++ x) v.
  Proof. intros ND (n & r & TR & K). exists n, r. split; auto. now apply turned_rot. Qed.
  Lemma highest_rot (x y : list nat) v : NoDup (x ++ y) -> highest Y (x ++ y) v -> highest Y (y ++ x) v.
  Proof. intros ND (n & r & TR & K). exists n, r. split; auto. now apply turned_rot. Qed.
End Turned.

(** *** A function with given values *)
Definition look (ps : list (nat * nat)) (i : nat) : nat := match find (fun p => Nat.eqb (fst p) i) ps with Some p => snd p | None => i end.
Lemma look_in ps i j : NoDup (map fst ps) -> In (i, j) ps -> look ps i = j.
Proof.
  unfold look. induction ps as [|(a & b) ps IH]; cbn; [contradiction|]. intros ND [E|H].
  - injection E as -> ->. now rewrite Nat.eqb_refl.
  - inversion ND as [|? ? NI ND']; subst. destruct (Nat.eqb_spec a i) as [->|]; auto. exfalso. apply NI. apply in_map_iff. exists (i, j). auto.
Qed.
Lemma look_map ps l : forall l', length l = length l' -> NoDup (map fst ps) -> (forall x, In x (combine l l') -> In x ps) -> map (look ps) l = l'.
Proof.
  induction l as [|i l IH]; intros [|j l'] E ND H; cbn in *; try discriminate; auto. f_equal; [apply look_in; auto|]. apply IH; auto.
Qed.
Lemma combine_fst {A B} (l : list A) : forall l' : list B, length l = length l' -> map fst (combine l l') = l.
Proof. induction l; intros [|b l'] E; cbn in *; try discriminate; auto. f_equal. auto. Qed.
Lemma combine_snd {A B} (l : list A) : forall l' : list B, length l = length l' -> map snd (combine l l') = l'.
Proof. induction l; intros [|b l'] E; cbn in *; try discriminate; auto. f_equal. auto. Qed.
Lemma in_combine_map {A B} (f : A -> B) l i : In i l -> In (i, f i) (combine l (map f l)).
Proof. induction l; cbn; [contradiction|]. intros [->|H]; auto. Qed.
Lemma combine_app2 {A B} (a : list A) : forall (b : list B) a' b', length a = length b -> combine (a ++ a') (b ++ b') = combine a b ++ combine a' b'.
Proof. induction a; intros [|c b] a' b' E; cbn in *; try discriminate; auto. f_equal. apply IHa. lia. Qed.
Lemma combine_concat {A B} (ls : list (list A)) : forall (ls' : list (list B)), Forall2 (fun l l' => length l = length l') ls ls' ->
  length (concat ls) = length (concat ls') /\ forall l l' x, In (l, l') (combine ls ls') -> In x (combine l l') -> In x (combine (concat ls) (concat ls')).
Proof.
  induction ls as [|l ls IH]; intros ls' F; inversion F as [|? l' ? ls2 L F2]; subst; [split; [reflexivity|contradiction]|].
  destruct (IH _ F2) as (E & H). cbn [concat]. split; [rewrite !app_length; lia|]. intros k k' x [Q|Q] X; rewrite combine_app2 by auto; apply in_or_app.
  - injection Q as -> ->. auto.
  - right. eauto.
Qed.
Lemma look_maps (ls ls' : list (list nat)) : NoDup (concat ls) -> Forall2 (fun l l' => length l = length l') ls ls' ->
  map (map (look (combine (concat ls) (concat ls')))) ls = ls'.
Proof.
  intros ND F. destruct (combine_concat ls ls' F) as (L & H). assert (NF : NoDup (map fst (combine (concat ls) (concat ls')))) by now rewrite combine_fst.
  revert H NF. generalize (combine (concat ls) (concat ls')) as ps. clear ND L. induction F as [|l l' ls ls' E F IH]; intros ps H NF; [reflexivity|].
  cbn [map]. f_equal; [apply look_map; auto; intros x; apply H; now left|]. apply IH; auto. intros k k' x K. apply H. now right.
Qed.

Section Listed.
  Notation contour := (@contour R).
  Variables s s' : clipper R.
  Variable ts : list (contour * list nat * contour).
  Definition side1 := map (fun t => fst (fst t)) ts.
  Definition side2 := map (fun t : contour * list nat * contour => snd t) ts.
  Definition ls1 := map (fun t => snd (fst t)) ts.
  Definition ls2 := map c_verts side2.
  Definition matched (t : contour * list nat * contour) : Prop := let '(c, l, c') := t in
    c_type c' = c_type c /\ (exists x y, c_verts c = x ++ y /\ l = y ++ x) /\ ring (verts s) l (c_segs c') /\
    contour_ok (verts s) c /\ contour_ok (verts s') c'.
  Hypothesis M : Forall matched ts.
  Hypothesis ND1 : NoDup (all_verts side1).
  Hypothesis ND2 : NoDup (all_verts side2).
  Hypothesis DR : Forall (fun c => Forall drawable (c_segs c)) side2.
  Definition r0 := look (combine (concat ls1) (concat ls2)).
  Definition r1 := look (combine (concat ls2) (concat ls1)).

  Lemma ok_ring (c : contour) vs : contour_ok vs c -> ring vs (c_verts c) (c_segs c) /\ 2 <= length (c_verts c) /\ extrema (height vs) (c_verts c) (c_marks c) /\
    (forall i v, In i (c_verts c) -> nth_error vs i = Some v -> (v_min v = true <-> lowest (height vs) (c_verts c) i) /\ (v_max v = true <-> highest (height vs) (c_verts c) i)).
  Proof.
    intros (f & r & E & NE & R & X & F). rewrite E in *. split; auto. split; [destruct r; [contradiction|cbn; lia]|].
    assert (EX : extrema (height vs) (f :: r) (c_marks c)) by (apply extremes_extrema; auto; intros; exact I).
    split; auto. destruct EX as (_ & X1 & X2 & _). intros i v Hi Hv. rewrite <- X1, <- X2. exact (F i v Hi Hv).
  Qed.
  Lemma ring_len (vs : list (vertex R)) l gs : ring vs l gs -> length l = length gs.
  Proof. destruct l; [contradiction|]. intros (_ & S). apply strand_len in S. rewrite app_length in S. cbn in *. lia. Qed.
  Lemma same_len : Forall2 (fun l l' => length l = length l') ls1 ls2.
  Proof.
    unfold ls1, ls2, side2. revert M. clear. induction ts as [|((c & l) & c') t IH]; intros M; cbn; constructor; inversion M as [|? ? H H2]; subst; auto.
    destruct H as (_ & _ & R & _ & O). destruct (ok_ring _ _ O) as (R' & _). apply ring_len in R, R'. cbn. congruence.
  Qed.
  Lemma perm_ls : Permutation (concat ls1) (all_verts side1).
  Proof.
    unfold ls1, side1, all_verts. revert M. clear. induction ts as [|((c & l) & c') t IH]; intros M; [reflexivity|]. inversion M as [|? ? H H2]; subst.
    destruct H as (_ & (x & y & E & ->) & _). cbn [map concat flat_map fst snd]. apply Permutation_app; auto. rewrite E. apply Permutation_app_comm.
  Qed.
  Lemma concat_ls2 : concat ls2 = all_verts side2.
  Proof. unfold ls2, all_verts. now rewrite flat_map_concat_map. Qed.
  Lemma nd_ls1 : NoDup (concat ls1).
  Proof. eapply Permutation_NoDup; [symmetry; apply perm_ls|exact ND1]. Qed.
  Lemma nd_ls2 : NoDup (concat ls2).
  Proof. rewrite concat_ls2. exact ND2. Qed.
  Lemma maps_r0 : map (map r0) ls1 = ls2.
  Proof. apply look_maps; [apply nd_ls1|apply same_len]. Qed.
  Lemma maps_r1 : map (map r1) ls2 = ls1.
  Proof. apply look_maps; [apply nd_ls2|]. pose proof same_len as H. revert H. clear. induction 1; constructor; auto. Qed.
  Lemma map_r0 c l c' : In (c, l, c') ts -> map r0 l = c_verts c'.
  Proof.
    intros H. pose proof maps_r0 as E. unfold ls1, ls2, side2 in E. rewrite !map_map in E.
    pose proof (ext_in_map E) as K. apply (K (c, l, c') H).
  Qed.
  Lemma map_r1 c l c' : In (c, l, c') ts -> map r1 (c_verts c') = l.
  Proof.
    intros H. pose proof maps_r1 as E. unfold ls1, ls2, side2 in E. rewrite !map_map in E.
    pose proof (ext_in_map E) as K. apply (K (c, l, c') H).
  Qed.
  Lemma r1_r0 i : In i (concat ls1) -> r1 (r0 i) = i.
  Proof.
    intros H. pose proof maps_r1 as E. rewrite <- maps_r0 in E. rewrite map_map in E. assert (K : concat (map (fun x => map r1 (map r0 x)) ls1) = concat ls1) by now rewrite E.
    replace (concat (map (fun x => map r1 (map r0 x)) ls1)) with (map (fun i => r1 (r0 i)) (concat ls1)) in K.
    - rewrite <- (map_id (concat ls1)) in K at 2. exact (ext_in_map K i H).
    - rewrite concat_map. f_equal. apply map_ext. intros l. now rewrite map_map.
  Qed.
  Lemma ls1_in c l c' i : In (c, l, c') ts -> In i l -> In i (concat ls1).
  Proof. intros H I. apply in_concat. exists l. split; auto. unfold ls1. apply in_map_iff. exists (c, l, c'). auto. Qed.
  Lemma in_ls1 i : In i (concat ls1) -> exists c l c', In (c, l, c') ts /\ In i l.
  Proof. intros H. apply in_concat in H as (l & L & H). unfold ls1 in L. apply in_map_iff in L as (((c & l') & c') & <- & L). eauto. Qed.
  Lemma matched_in c l c' : In (c, l, c') ts -> matched (c, l, c').
  Proof. intros H. rewrite Forall_forall in M. now apply M. Qed.

  (** *** The vertices *)
  Lemma same_vertex c l c' i : In (c, l, c') ts -> In i l -> exists v w, nth_error (verts s) i = Some v /\ nth_error (verts s') (r0 i) = Some w /\ v_pt w = v_pt v /\ v_seg w = v_seg v.
  Proof.
    intros H I. destruct (matched_in _ _ _ H) as (_ & _ & R & _ & O). destruct (ok_ring _ _ O) as (R' & _).
    pose proof (in_combine_map r0 l i I) as P. rewrite (map_r0 _ _ _ H) in P.
    destruct (ring_pairs _ _ _ _ _ R R' _ _ P) as (y & y' & g & z & z' & h & _ & _ & L1 & L2 & L3 & L4).
    destruct L1 as (v & vy & V1 & _ & N1 & _ & S1 & _). destruct L2 as (w & wy & W1 & _ & N2 & _ & S2 & _).
    destruct L3 as (vz & v' & _ & V2 & _ & Q1 & _ & T1). rewrite V1 in V2. injection V2 as <-.
    destruct L4 as (wz & w' & _ & W2 & _ & Q2 & _ & T2). rewrite W1 in W2. injection W2 as <-.
    exists v, w. csplit; auto; congruence.
  Qed.
  Lemma same_height c l c' i : In (c, l, c') ts -> In i l -> height (verts s') (r0 i) = height (verts s) i.
  Proof. intros H I. destruct (same_vertex _ _ _ _ H I) as (v & w & V & W & P & _). unfold height. now rewrite V, W, P. Qed.
  Lemma verts_nodup c l c' : In (c, l, c') ts -> NoDup (c_verts c).
  Proof. intros H. destruct (matched_in _ _ _ H) as (_ & _ & _ & O & _). destruct (ok_ring _ _ O) as (R & _). destruct (c_verts c); [contradiction|]. apply R. Qed.
  Lemma low_same c l c' i : In (c, l, c') ts -> In i l -> (lowest (height (verts s)) (c_verts c) i <-> lowest (height (verts s')) (c_verts c') (r0 i)).
  Proof.
    intros H I. destruct (matched_in _ _ _ H) as (_ & (x & y & E & L) & _). pose proof (verts_nodup _ _ _ H) as ND. rewrite E in *. split; intros K.
    - apply lowest_rot in K; auto. rewrite <- L in K. rewrite <- (map_r0 _ _ _ H). apply (lowest_map (height (verts s))); auto. intros j J. eapply same_height; eauto.
    - apply (lowest_map (height (verts s')) (height (verts s)) r1) in K.
      + rewrite (map_r1 _ _ _ H) in K. rewrite r1_r0 in K by (eapply ls1_in; eauto). rewrite L in K. apply lowest_rot in K; auto.
        eapply Permutation_NoDup; [apply Permutation_app_comm|exact ND].
      + rewrite <- (map_r0 _ _ _ H). intros j J. apply in_map_iff in J as (k & <- & J). rewrite r1_r0 by (eapply ls1_in; eauto). symmetry. eapply same_height; eauto.
  Qed.
  Lemma high_same c l c' i : In (c, l, c') ts -> In i l -> (highest (height (verts s)) (c_verts c) i <-> highest (height (verts s')) (c_verts c') (r0 i)).
  Proof.
    intros H I. destruct (matched_in _ _ _ H) as (_ & (x & y & E & L) & _). pose proof (verts_nodup _ _ _ H) as ND. rewrite E in *. split; intros K.
    - apply highest_rot in K; auto. rewrite <- L in K. rewrite <- (map_r0 _ _ _ H). apply (highest_map (height (verts s))); auto. intros j J. eapply same_height; eauto.
    - apply (highest_map (height (verts s')) (height (verts s)) r1) in K.
      + rewrite (map_r1 _ _ _ H) in K. rewrite r1_r0 in K by (eapply ls1_in; eauto). rewrite L in K. apply highest_rot in K; auto.
        eapply Permutation_NoDup; [apply Permutation_app_comm|exact ND].
      + rewrite <- (map_r0 _ _ _ H). intros j J. apply in_map_iff in J as (k & <- & J). rewrite r1_r0 by (eapply ls1_in; eauto). symmetry. eapply same_height; eauto.
  Qed.
  Lemma l_verts c l c' i : In (c, l, c') ts -> (In i l <-> In i (c_verts c)).
  Proof. intros H. destruct (matched_in _ _ _ H) as (_ & (x & y & E & L) & _). rewrite E, L, !in_app_iff. tauto. Qed.
  Lemma bool_same a b : (a = true <-> b = true) -> a = b.
  Proof. destruct a, b; intros (A & B); auto. discriminate (A eq_refl). Qed.
  Lemma same_flags i : In i (concat ls1) -> exists v w, nth_error (verts s) i = Some v /\ nth_error (verts s') (r0 i) = Some w /\
    v_pt w = v_pt v /\ v_seg w = v_seg v /\ v_max w = v_max v /\ v_min w = v_min v.
  Proof.
    intros Hi. destruct (in_ls1 i Hi) as (c & l & c' & H & I). destruct (same_vertex _ _ _ _ H I) as (v & w & V & W & P & S). exists v, w. csplit; auto.
    - destruct (matched_in _ _ _ H) as (_ & _ & _ & O & O'). destruct (ok_ring _ _ O) as (_ & _ & _ & F). destruct (ok_ring _ _ O') as (_ & _ & _ & F').
      apply bool_same. rewrite (proj2 (F i v (proj1 (l_verts _ _ _ i H) I) V)), (proj2 (F' (r0 i) w (eq_ind _ (In (r0 i)) (in_map r0 l i I) _ (map_r0 _ _ _ H)) W)).
      symmetry. apply (high_same _ _ _ _ H I).
    - destruct (matched_in _ _ _ H) as (_ & _ & _ & O & O'). destruct (ok_ring _ _ O) as (_ & _ & _ & F). destruct (ok_ring _ _ O') as (_ & _ & _ & F').
      apply bool_same. rewrite (proj1 (F i v (proj1 (l_verts _ _ _ i H) I) V)), (proj1 (F' (r0 i) w (eq_ind _ (In (r0 i)) (in_map r0 l i I) _ (map_r0 _ _ _ H)) W)).
      symmetry. apply (low_same _ _ _ _ H I).
  Qed.
  Lemma rings1 : rings (verts s) ls1.
  Proof.
    split; [|apply nd_ls1]. apply Forall_forall. intros l L. unfold ls1 in L. apply in_map_iff in L as (((c & l') & c') & <- & L). cbn [fst snd].
    destruct (matched_in _ _ _ L) as (_ & _ & R & _ & O). exists (c_segs c'). split; auto. split.
    - rewrite Forall_forall in DR. apply DR. unfold side2. apply in_map_iff. exists (c, l', c'). auto.
    - destruct (ok_ring _ _ O) as (R' & L2 & _). rewrite <- (map_r0 _ _ _ L), map_length in L2. exact L2.
  Qed.
  Lemma rings2 : rings (verts s') (map (map r0) ls1).
  Proof.
    rewrite maps_r0. split; [|apply nd_ls2]. apply Forall_forall. intros l L. unfold ls2 in L. apply in_map_iff in L as (c' & <- & L).
    pose proof L as L0. unfold side2 in L. apply in_map_iff in L as (((c & l') & c2) & <- & L). cbn [fst snd] in *.
    destruct (matched_in _ _ _ L) as (_ & _ & R & _ & O). destruct (ok_ring _ _ O) as (R' & L2 & _). exists (c_segs c2). split; auto. split; auto.
    rewrite Forall_forall in DR. now apply DR.
  Qed.

  (** *** The minima *)
  Lemma lows_in (cs : list contour) m : In m (all_lows cs) <-> exists c, In c cs /\ lm_type m = c_type c /\ In (lm_vert m, true) (c_marks c).
  Proof.
    unfold all_lows. rewrite in_flat_map. split; intros (c & C & H); exists c; split; auto.
    - apply in_map_iff in H as (v & <- & H). split; auto. unfold lows in H. apply in_map_iff in H as ((a & b) & <- & H). apply filter_In in H as (H & K). cbn in *. now subst b.
    - destruct H as (H1 & H2). apply in_map_iff. exists (lm_vert m). split; [destruct m; cbn in *; congruence|]. unfold lows. apply in_map_iff. exists (lm_vert m, true).
      split; auto. now apply filter_In.
  Qed.
  Lemma lows_nodup vs (cs : list contour) : Forall (contour_ok vs) cs -> NoDup (all_verts cs) -> NoDup (map lm_vert (all_lows cs)).
  Proof.
    intros O ND. unfold all_lows, all_verts in *. induction cs as [|c cs IH]; cbn [flat_map map] in *; [constructor|]. inversion O as [|? ? O1 O2]; subst.
    rewrite map_app, map_map. cbn [lm_vert]. rewrite map_id. destruct (ok_ring _ _ O1) as (_ & _ & (SB & _) & _).
    assert (LS : forall i, In i (lows c) -> In i (c_verts c)).
    { intros i I. apply (sub_in _ _ SB). unfold lows in I. apply in_map_iff in I as (x & <- & I). apply filter_In in I as (I & _). now apply in_map. }
    apply nodup_join.
    - assert (NM : NoDup (map fst (c_marks c))). { apply (sub_nodup _ _ SB). revert ND. clear. induction (c_verts c); cbn; intros ND; constructor; inversion ND; subst; auto. intros K. apply H1. apply in_or_app. auto. }
      unfold lows. revert NM. generalize (c_marks c) as ms. clear. induction ms as [|(a & b) ms IH]; cbn; intros NM; [constructor|]. inversion NM as [|? ? NI NM']; subst. destruct b; cbn; auto.
      constructor; auto. intros K. apply NI. apply in_map_iff in K as (x & <- & K). apply filter_In in K as (K & _). now apply in_map.
    - apply IH; auto. revert ND. clear. induction (c_verts c); cbn; auto. intros ND. inversion ND; auto.
    - intros i I J. apply LS in I. assert (JV : In i (flat_map c_verts cs)).
      { apply in_map_iff in J as (m & <- & J). apply (lows_in cs) in J as (c2 & C2 & _ & J). apply in_flat_map. exists c2. split; auto.
        rewrite Forall_forall in O2. destruct (ok_ring _ _ (O2 c2 C2)) as (_ & _ & (S2 & _) & _). apply (sub_in _ _ S2). change (lm_vert m) with (fst (lm_vert m, true)). now apply in_map. }
      revert ND I JV. clear. induction (c_verts c) as [|x l IH]; cbn; [contradiction|]. intros ND [->|I] J; inversion ND; subst; auto. apply H1. apply in_or_app. auto.
  Qed.
  Lemma marks_low c vs i : contour_ok vs c -> (In (i, true) (c_marks c) <-> lowest (height vs) (c_verts c) i).
  Proof. intros O. destruct (ok_ring _ _ O) as (_ & _ & (_ & X & _) & _). apply X. Qed.
  Lemma lowest_in Y (l : list nat) (v : nat) : lowest (T := R) Y l v -> In v l.
  Proof. intros (n & r & TR & _). eapply turned_in; [exact TR|now left]. Qed.
  Definition rl0 (m : lmin) : lmin := Lmin (r0 (lm_vert m)) (lm_type m).
  Lemma lows_same m : In m (map rl0 (all_lows side1)) <-> In m (all_lows side2).
  Proof.
    rewrite in_map_iff. split.
    - intros (m0 & <- & H). apply lows_in in H as (c & C & TY & MK). unfold side1 in C. apply in_map_iff in C as (((c0 & l) & c') & <- & C). cbn [fst snd] in *.
      destruct (matched_in _ _ _ C) as (TT & _ & _ & O & O'). apply (marks_low _ _ _ O) in MK. assert (I : In (lm_vert m0) l) by (apply (l_verts _ _ _ _ C); eapply lowest_in; eauto).
      apply lows_in. exists c'. split; [unfold side2; apply in_map_iff; exists (c0, l, c'); auto|]. cbn. split; [congruence|]. apply (marks_low _ _ _ O'). now apply (low_same _ _ _ _ C I).
    - intros H. apply lows_in in H as (c' & C & TY & MK). unfold side2 in C. apply in_map_iff in C as (((c & l) & c2) & <- & C). cbn [fst snd] in *.
      destruct (matched_in _ _ _ C) as (TT & _ & _ & O & O'). apply (marks_low _ _ _ O') in MK. pose proof (lowest_in _ _ _ MK) as I. rewrite <- (map_r0 _ _ _ C) in I.
      apply in_map_iff in I as (i & E & I). exists (Lmin i (lm_type m)). unfold rl0. cbn. rewrite E. split; [now destruct m|].
      apply lows_in. exists c. split; [unfold side1; apply in_map_iff; exists (c, l, c2); auto|]. cbn. split; [congruence|]. apply (marks_low _ _ _ O). apply (low_same _ _ _ _ C I). now rewrite E.
  Qed.
  Lemma ok1 : Forall (contour_ok (verts s)) side1.
  Proof. unfold side1. apply Forall_forall. intros c C. apply in_map_iff in C as (((c0 & l) & c') & <- & C). now destruct (matched_in _ _ _ C) as (_ & _ & _ & O & _). Qed.
  Lemma ok2 : Forall (contour_ok (verts s')) side2.
  Proof. unfold side2. apply Forall_forall. intros c C. apply in_map_iff in C as (((c0 & l) & c') & <- & C). now destruct (matched_in _ _ _ C) as (_ & _ & _ & _ & O). Qed.
  Lemma lows_verts m : In m (all_lows side1) -> In (lm_vert m) (concat ls1).
  Proof.
    intros H. apply lows_in in H as (c & C & TY & MK). unfold side1 in C. apply in_map_iff in C as (((c0 & l) & c') & <- & C). cbn [fst snd] in *.
    destruct (matched_in _ _ _ C) as (_ & _ & _ & O & _). apply (marks_low _ _ _ O) in MK. eapply ls1_in; [exact C|]. apply (l_verts _ _ _ _ C). eapply lowest_in; eauto.
  Qed.
  Lemma lows_perm : Permutation (map rl0 (all_lows side1)) (all_lows side2).
  Proof.
    apply NoDup_Permutation.
    - pose proof (lows_nodup _ _ ok1 ND1) as H. assert (K : forall m, In m (all_lows side1) -> In (lm_vert m) (concat ls1)) by apply lows_verts. revert H K.
      generalize (all_lows side1) as l. induction l as [|m l IH]; cbn; intros H K; constructor; inversion H as [|? ? NI H']; subst; auto.
      intros J. apply in_map_iff in J as (m' & E & J). apply NI. apply in_map_iff. exists m'. split; auto. unfold rl0 in E. injection E as E _.
      rewrite <- (r1_r0 (lm_vert m')), E, r1_r0; auto.
    - apply (NoDup_map_inv lm_vert). apply (lows_nodup (verts s')); [apply ok2|exact ND2].
    - apply lows_same.
  Qed.
End Listed.
