(** The queue of minima does not depend on the order of listing. *)
From Coq Require Import ZArith Bool List Lia Reals Lra Sorted Permutation.
From Verif Require Import Outcome Num Order Rmath Segment Path PathSpec RTac VState VPath VBreak VLemmas AelSpec VAel VOut VMain SortProofs
  RingSpec MarkProofs MarkSpec BreakSpec VRing VBuild VAdd VBroken BreakDrawn EquiMap RenBreak RenRun Layout Listing.
Import ListNotations.
Local Open Scope out.

Section Queue.
  Variable s : clipper R.
  Definition min_at (k : nat) : vec2 R :=
    match nth_error (lmins s) k with
    | Some m => match nth_error (verts s) (lm_vert m) with Some v => v_pt v | None => V2 0 0 end
    | None => V2 0 0
    end%R.
  Definition lex_lt (p q : vec2 R) : Prop := (vy p < vy q \/ vy p = vy q /\ vx p < vx q)%R.
  Definition lex_le (p q : vec2 R) : Prop := (vy p < vy q \/ vy p = vy q /\ vx p <= vx q)%R.
  Lemma min_ltb_lex t a b : lmins t = lmins s -> (forall i v, nth_error (verts s) i = Some v -> exists w, nth_error (verts t) i = Some w /\ v_pt w = v_pt v) ->
    (forall m, In m (lmins s) -> exists v, nth_error (verts s) (lm_vert m) = Some v) -> a < length (lmins s) -> b < length (lmins s) ->
    (min_ltb t a b = true <-> lex_lt (min_at a) (min_at b)).
  Proof.
    intros L V H A B. destruct (nth_some _ _ A) as (m & MA). destruct (nth_some _ _ B) as (m' & MB).
    destruct (H m (nth_error_In _ _ MA)) as (v & Hv). destruct (H m' (nth_error_In _ _ MB)) as (w & Hw).
    destruct (V _ _ Hv) as (v' & Hv' & Pv). destruct (V _ _ Hw) as (w' & Hw' & Pw).
    unfold min_ltb, min_at. rewrite L, MA, MB, Hv, Hw, Hv', Hw', Pv, Pw. unfold lex_lt. cbn [n_eqb n_ltb R_num].
    destruct (Reqb (vy (v_pt v)) (vy (v_pt w))) eqn:E.
    - apply Reqb_true in E. rewrite Rltb_true. split; [auto|]. intros [K|(_ & K)]; auto. lra.
    - rewrite Rltb_true. split; [auto|]. intros [K|(K & _)]; auto. exfalso. apply Reqb_true in K. congruence.
  Qed.
  Lemma sort_minima t l l' : lmins t = lmins s -> (forall i v, nth_error (verts s) i = Some v -> exists w, nth_error (verts t) i = Some w /\ v_pt w = v_pt v) ->
    (forall m, In m (lmins s) -> exists v, nth_error (verts s) (lm_vert m) = Some v) ->
    (forall k, In k l -> k < length (lmins s)) -> Permutation l l' ->
    (forall a b, In a l -> In b l -> min_at a = min_at b -> a = b) -> sort_by (min_ltb t) l = sort_by (min_ltb t) l'.
  Proof.
    intros L V H IN P INJ.
    assert (IN' : forall k, In k l' -> k < length (lmins s)) by (intros k K; apply IN; eapply Permutation_in; [symmetry; exact P|exact K]).
    assert (SS : forall m, (forall k, In k m -> k < length (lmins s)) -> StronglySorted (fun a b => lex_le (min_at a) (min_at b)) (sort_by (min_ltb t) m)).
    { intros m IM. apply (sort_by_sorted (min_ltb t) (fun k => k < length (lmins s))); [| |now apply Forall_forall].
      - intros a b c _ _ _. unfold lex_le. lra.
      - intros a b A B. pose proof (min_ltb_lex t a b L V H A B) as K. destruct (min_ltb t a b).
        + destruct (proj1 K eq_refl) as [?|(? & ?)]; unfold lex_le; lra.
        + unfold lex_le, lex_lt in *. destruct (Rtotal_order (vy (min_at a)) (vy (min_at b))) as [X|[X|X]]; [exfalso; discriminate (proj2 K (or_introl X))| |lra].
          right. split; [lra|]. destruct (Rlt_le_dec (vx (min_at a)) (vx (min_at b))) as [Z|Z]; auto. exfalso. discriminate (proj2 K (or_intror (conj X Z))). }
    apply (sorted_once (fun a b => lex_le (min_at a) (min_at b))); auto.
    - etransitivity; [symmetry; apply sort_by_perm|]. etransitivity; [exact P|apply sort_by_perm].
    - intros a b A B L1 L2. apply (Permutation_in _ (Permutation_sym (sort_by_perm _ _))) in A, B. apply INJ; auto.
      unfold lex_le in *. destruct (min_at a), (min_at b). cbn in *. f_equal; lra.
  Qed.
End Queue.

Lemma seq_perm (f : nat -> nat) n : (forall x y, f x = f y -> x = y) -> (forall x, x < n -> f x < n) -> Permutation (seq 0 n) (map f (seq 0 n)).
Proof.
  intros J B. symmetry. apply NoDup_Permutation_bis.
  - apply FinFun.Injective_map_NoDup; [exact J|apply seq_NoDup].
  - rewrite map_length. lia.
  - intros x X. apply in_map_iff in X as (k & <- & K). apply in_seq in K. apply in_seq. specialize (B k). lia.
Qed.

Section Renumber.
  Notation contour := (@contour R).
  Variables s s' : clipper R.
  Variable ts : list (contour * list nat * contour).
  Variables (its its' : list (path_type * list (seg R))) (cs : list contour).
  Hypothesis M : Forall (matched s s') ts.
  Hypothesis B1 : built clipper0 its cs s.
  Hypothesis P1 : Permutation cs (side1 ts).
  Hypothesis B2 : built clipper0 its' (side2 ts) s'.
  Hypothesis DR : Forall (fun c => Forall drawable (c_segs c)) (side2 ts).
  Hypothesis LEN : length (verts s') = length (verts s).
  (** Different vertices are at different places. *)
  Hypothesis PI : forall i j v w, In i (all_verts (side2 ts)) -> In j (all_verts (side2 ts)) -> nth_error (verts s') i = Some v -> nth_error (verts s') j = Some w -> v_pt v = v_pt w -> i = j.
  Lemma nd_side1 : NoDup (all_verts (side1 ts)).
  Proof.
    destruct B1 as (_ & _ & _ & _ & _ & _ & ND & _). eapply Permutation_NoDup; [|exact ND]. unfold all_verts. now apply Permutation_flat_map.
  Qed.
  Lemma nd_side2 : NoDup (all_verts (side2 ts)).
  Proof. now destruct B2 as (_ & _ & _ & _ & _ & _ & ND & _). Qed.
  Lemma lmins1 : Permutation (lmins s) (all_lows (side1 ts)).
  Proof. destruct B1 as (_ & _ & _ & _ & L & _). rewrite L. cbn. unfold all_lows. now apply Permutation_flat_map. Qed.
  Lemma lmins2 : lmins s' = all_lows (side2 ts).
  Proof. destruct B2 as (_ & _ & _ & _ & L & _). rewrite L. reflexivity. Qed.
  Lemma renumber op fill : exists q, renumbered (r0 ts) q (ls1 ts) (w_op s op fill) (w_op s' op fill).
  Proof.
    assert (PL : Permutation (lmins s') (map (rl0 ts) (lmins s))).
    { rewrite lmins2. etransitivity; [symmetry; apply (lows_perm s s' ts M nd_side1 nd_side2)|]. apply Permutation_map. symmetry. apply lmins1. }
    pose proof PL as PL0. apply Permutation_nth_error_bis in PL0 as (q & QI & QB & Q). exists q.
    pose proof (Permutation_length PL) as LL. rewrite map_length in LL.
    assert (LV : forall m, In m (lmins s') -> In (lm_vert m) (all_verts (side2 ts))).
    { intros m H. rewrite lmins2 in H. apply lows_in in H as (c & C & _ & MK). pose proof (ok2 s s' ts M) as O. rewrite Forall_forall in O.
      apply (marks_low _ _ _ (O c C)) in MK. apply in_flat_map. exists c. split; auto. eapply lowest_in; eauto. }
    assert (VV : forall m, In m (lmins s') -> exists v, nth_error (verts s') (lm_vert m) = Some v).
    { intros m H. apply LV in H. pose proof (rings2 s s' ts M nd_side1 nd_side2 DR) as RG.
      destruct (rings_in _ _ (lm_vert m) RG) as (l & gs & j & g & v & w & K); [|exists v; tauto].
      rewrite (maps_r0 s s' ts M nd_side1), concat_ls2. exact H. }
    assert (MN : minima s = seq 0 (length (lmins s))) by (destruct B1 as (_ & _ & _ & _ & L & K & _); rewrite K, L; reflexivity).
    assert (MN' : minima s' = seq 0 (length (lmins s'))) by (destruct B2 as (_ & _ & _ & _ & L & K & _); rewrite K, L; reflexivity).
    constructor; cbn [w_op verts lmins minima edges starts breaks cur scans ael bounds obl changes polys cop cfill].
    - exact (rings1 s s' ts M nd_side1 DR).
    - exact (rings2 s s' ts M nd_side1 nd_side2 DR).
    - intros i Hi. exact (same_flags s s' ts M nd_side1 nd_side2 i Hi).
    - exact LEN.
    - apply Forall_forall. intros m H. apply (lows_verts s s' ts M). eapply Permutation_in; [apply lmins1|exact H].
    - intros k. rewrite <- Q. apply nth_error_map.
    - intros t TL TV. rewrite MN', MN, <- LL. apply (sort_minima s'); auto.
      + intros k K. apply in_seq in K. lia.
      + apply seq_perm; [exact QI|exact QB].
      + intros a b A B E. apply in_seq in A, B. destruct (nth_some (lmins s') a) as (m & MA); [lia|]. destruct (nth_some (lmins s') b) as (m' & MB); [lia|].
        unfold min_at in E. rewrite MA, MB in E. destruct (VV m (nth_error_In _ _ MA)) as (v & Hv). destruct (VV m' (nth_error_In _ _ MB)) as (w & Hw). rewrite Hv, Hw in E.
        assert (EV : lm_vert m = lm_vert m') by (apply (PI _ _ v w); auto; apply LV; eapply nth_error_In; eauto).
        pose proof (lows_nodup _ _ (ok2 s s' ts M) nd_side2) as ND. rewrite <- lmins2 in ND. apply (proj1 (NoDup_nth_error _) ND); [rewrite map_length; lia|].
        rewrite !nth_error_map, MA, MB. cbn. now rewrite EV.
    - destruct B1 as ((G & _) & _). rewrite G. reflexivity.
    - destruct B1 as ((G & _) & _), B2 as ((G' & _) & _). rewrite G, G'. reflexivity.
  Qed.
End Renumber.
