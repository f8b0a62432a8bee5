(** Contours broken in two orders differ only in the numbers of the new vertices. *)
From Coq Require Import ZArith Bool List Lia.
From Verif Require Import Outcome Num Order Rmath Segment Path PathSpec ScanLine VState VPath VBreak VAel VOut VMain VLemmas AelSpec SortProofs
  RingSpec BreakSpec VRing VBuild VAdd VCut VBroken VFresh EquiMap RenMap.
Import ListNotations.
Local Open Scope out.

Section Pairs.
  Context {T : Type} {N : Num T}.
  Implicit Types V W : list (vertex T).

  (** *** The vertices of two rings with the same segments *)
  Lemma strand_pairs V W l : forall l' a a' gs, strand V a l gs -> strand W a' l' gs ->
    (forall x x', In (x, x') (combine (removelast (a :: l)) (removelast (a' :: l'))) ->
       exists y y' g, In (y, y') (combine l l') /\ link V x y g /\ link W x' y' g) /\
    (forall y y', In (y, y') (combine l l') ->
       exists x x' g, In (x, x') (combine (removelast (a :: l)) (removelast (a' :: l'))) /\ link V x y g /\ link W x' y' g).
  Proof.
    induction l as [|b l IH]; intros [|b' l'] a a' [|g gs] H H'; try contradiction; [split; cbn; contradiction|].
    destruct H as (L & H). destruct H' as (L' & H'). destruct (IH l' b b' gs H H') as (A & B).
    change (removelast (a :: b :: l)) with (a :: removelast (b :: l)). change (removelast (a' :: b' :: l')) with (a' :: removelast (b' :: l')).
    cbn [combine]. split.
    - intros x x' [E|X]; [injection E as <- <-; exists b, b', g; cbn; auto|]. destruct (A x x' X) as (y & y' & h & Y & K). exists y, y', h. cbn. auto.
    - intros y y' [E|Y]; [injection E as <- <-; exists a, a', g; cbn; auto|]. destruct (B y y' Y) as (x & x' & h & X & K). exists x, x', h. cbn. auto.
  Qed.
  Lemma combine_last {A B} (l : list A) : forall (l' : list B) a b, length l = length l' -> combine (l ++ [a]) (l' ++ [b]) = combine l l' ++ [(a, b)].
  Proof. induction l; intros [|c l'] a0 b E; cbn in *; try discriminate; auto. f_equal. apply IHl. lia. Qed.
  Lemma strand_length V l : forall a gs, strand V a l gs -> length l = length gs.
  Proof. induction l; intros a0 [|g gs] H; cbn in *; try contradiction; auto. destruct H. f_equal. eauto. Qed.
  Lemma ring_pairs V W l l' gs : ring V l gs -> ring W l' gs -> forall x x', In (x, x') (combine l l') ->
    exists y y' g z z' h, In (y, y') (combine l l') /\ In (z, z') (combine l l') /\ link V x y g /\ link W x' y' g /\ link V z x h /\ link W z' x' h.
  Proof.
    destruct l as [|i t]; [contradiction|]. destruct l' as [|i' t']; [contradiction|]. intros (_ & S) (_ & S') x x' X.
    assert (LE : length t = length t').
    { apply strand_length in S. apply strand_length in S'. rewrite app_length in *. cbn in *. lia. }
    destruct (strand_pairs V W _ _ _ _ _ S S') as (A & B).
    change (i :: t ++ [i]) with ((i :: t) ++ [i]) in A, B. change (i' :: t' ++ [i']) with ((i' :: t') ++ [i']) in A, B. rewrite !removelast_last in A, B.
    assert (IN : forall y y', In (y, y') (combine (t ++ [i]) (t' ++ [i'])) <-> In (y, y') (combine (i :: t) (i' :: t'))).
    { intros y y'. rewrite combine_last by auto. rewrite in_app_iff. cbn. tauto. }
    destruct (A x x' X) as (y & y' & g & Y & L1 & L2). destruct (B x x' (proj2 (IN x x') X)) as (z & z' & h & Z & L3 & L4).
    exists y, y', g, z, z', h. rewrite <- IN. auto 8.
  Qed.

  (** *** The renaming *)
  (** [ls] are rings of [vs0], and their images under [r0] are rings of [ws0]. *)
  Variables (vs0 ws0 V W : list (vertex T)) (ls : list (list nat)) (r0 : nat -> nat) (n1 n2 : nat -> list nat) (hsf hsg : nat -> list (seg T)).
  Hypothesis B1 : broken vs0 ls V n1 hsf.
  Hypothesis B2 : broken ws0 (map (map r0) ls) W n2 hsg.
  Hypothesis SAME : forall i, In i (concat ls) -> hsg (r0 i) = hsf i.
  Hypothesis LEN : length W = length V.
  Hypothesis OLD : forall i, In i (concat ls) -> exists v w, nth_error vs0 i = Some v /\ nth_error ws0 (r0 i) = Some w /\ v_max w = v_max v /\ v_min w = v_min v.
  Definition pairs : list (nat * nat) := flat_map (fun l => combine (with_new n1 l) (with_new n2 (map r0 l))) ls.
  Definition ren (i : nat) : nat := match find (fun p => Nat.eqb (fst p) i) pairs with Some p => snd p | None => i end.
  Definition dom (i : nat) : Prop := exists j, In (i, j) pairs.
  Lemma concat_maps l (i : nat) : In i (concat l) -> In (r0 i) (concat (map (map r0) l)).
  Proof. rewrite <- concat_map. apply in_map. Qed.
  Lemma news_len i : In i (concat ls) -> length (n1 i) = length (n2 (r0 i)).
  Proof.
    intros H. pose proof (bk_len _ _ _ _ _ B1 i H) as A. pose proof (bk_len _ _ _ _ _ B2 (r0 i) (concat_maps _ _ H)) as B.
    rewrite SAME in B by auto. congruence.
  Qed.
  Lemma combine_app {A B} (a : list A) : forall (b : list B) a' b', length a = length b -> combine (a ++ a') (b ++ b') = combine a b ++ combine a' b'.
  Proof. induction a; intros [|c b] a' b' E; cbn in *; try discriminate; auto. f_equal. apply IHa. lia. Qed.
  Lemma with_new_pairs l : (forall i, In i l -> length (n1 i) = length (n2 (r0 i))) ->
    combine (with_new n1 l) (with_new n2 (map r0 l)) = flat_map (fun i => (i, r0 i) :: combine (n1 i) (n2 (r0 i))) l /\ length (with_new n1 l) = length (with_new n2 (map r0 l)).
  Proof.
    induction l as [|i l IH]; intros H; [split; reflexivity|]. destruct IH as (E & L); [intros j J; apply H; now right|].
    change (with_new n1 (i :: l)) with ((i :: n1 i) ++ with_new n1 l). change (with_new n2 (map r0 (i :: l))) with ((r0 i :: n2 (r0 i)) ++ with_new n2 (map r0 l)).
    assert (K : length (i :: n1 i) = length (r0 i :: n2 (r0 i))) by (cbn; f_equal; apply H; now left).
    rewrite combine_app, E, !app_length, L, K by auto. split; auto.
  Qed.
  Lemma ring_in l : In l ls -> forall i, In i l -> In i (concat ls).
  Proof. intros L i I. apply in_concat. eauto. Qed.
  Lemma pairs_fst : map fst pairs = concat (map (with_new n1) ls).
  Proof.
    unfold pairs. assert (H : forall l, In l ls -> length (with_new n1 l) = length (with_new n2 (map r0 l))).
    { intros l L. apply with_new_pairs. intros i I. apply news_len. eapply ring_in; eauto. }
    revert H. clear. induction ls as [|l t IH]; intros H; [reflexivity|]. cbn [flat_map map concat]. rewrite map_app, IH by (intros; apply H; now right). f_equal.
    assert (E := H l (or_introl eq_refl)). revert E. generalize (with_new n1 l) as a, (with_new n2 (map r0 l)) as b. clear.
    induction a; intros [|c b] E; cbn in *; try discriminate; auto. f_equal. apply IHa. lia.
  Qed.
  Lemma ren_pair i j : In (i, j) pairs -> ren i = j.
  Proof.
    intros H. unfold ren. pose proof (bk_nodup _ _ _ _ _ B1) as ND. rewrite <- pairs_fst in ND. revert ND H. generalize pairs as ps.
    induction ps as [|(a & b) ps IH]; cbn; [contradiction|]. intros ND [E|H].
    - injection E as -> ->. now rewrite Nat.eqb_refl.
    - inversion ND as [|? ? NI ND']; subst. destruct (Nat.eqb_spec a i) as [->|]; auto. exfalso. apply NI. apply in_map_iff. exists (i, j). auto.
  Qed.
  Lemma pair_cases i j : In (i, j) pairs -> (j = r0 i /\ In i (concat ls)) \/ (length vs0 <= i /\ length ws0 <= j).
  Proof.
    unfold pairs. intros H. apply in_flat_map in H as (l & L & H).
    destruct (with_new_pairs l) as (E & _); [intros k K; apply news_len; eapply ring_in; eauto|]. rewrite E in H.
    apply in_flat_map in H as (k & K & [H|H]).
    - injection H as <- <-. left. split; auto. eapply ring_in; eauto.
    - right. split; [apply (bk_new _ _ _ _ _ B1 k)|apply (bk_new _ _ _ _ _ B2 (r0 k))]; [apply in_combine_l in H|apply in_combine_r in H]; auto.
  Qed.
  Lemma dom_old i : In i (concat ls) -> In (i, r0 i) pairs.
  Proof.
    intros H. apply in_concat in H as (l & L & H). apply in_flat_map. exists l. split; auto.
    destruct (with_new_pairs l) as (E & _); [intros k K; apply news_len; eapply ring_in; eauto|]. rewrite E. apply in_flat_map. exists i. split; auto. now left.
  Qed.
  Lemma ren_old i : In i (concat ls) -> ren i = r0 i.
  Proof. intros H. apply ren_pair. now apply dom_old. Qed.
  Lemma broken_renames : renames ren V W dom.
  Proof.
    split; auto. intros i (j & P). pose proof P as P0. unfold pairs in P. apply in_flat_map in P as (l & L & P).
    pose proof (bk_ring _ _ _ _ _ B1) as R1. pose proof (bk_ring _ _ _ _ _ B2) as R2. rewrite Forall_forall in R1, R2.
    assert (R2l : ring W (with_new n2 (map r0 l)) (flat_map hsf l)).
    { replace (flat_map hsf l) with (flat_map hsg (map r0 l)); [apply R2; now apply in_map|].
      assert (H : forall k, In k l -> hsg (r0 k) = hsf k) by (intros k K; apply SAME; eapply ring_in; eauto). revert H. clear.
      induction l as [|k l IH]; intros H; [reflexivity|]. cbn [map flat_map]. rewrite H by now left. f_equal. apply IH. intros; apply H; now right. }
    destruct (ring_pairs V W _ _ _ (R1 l L) R2l i j P) as (y & y' & g & z & z' & h & Y & Z & L1 & L2 & L3 & L4).
    assert (PY : In (y, y') pairs) by (apply in_flat_map; eauto). assert (PZ : In (z, z') pairs) by (apply in_flat_map; eauto).
    destruct L1 as (v & vy & V1 & _ & N1 & _ & S1 & _). destruct L2 as (w & wy & W1 & _ & N2 & _ & S2 & _).
    destruct L3 as (vz & v' & _ & V2 & _ & Q1 & _ & T1). rewrite V1 in V2. injection V2 as <-.
    destruct L4 as (wz & w' & _ & W2 & _ & Q2 & _ & T2). rewrite W1 in W2. injection W2 as <-.
    assert (MM : v_max w = v_max v /\ v_min w = v_min v).
    { destruct (pair_cases i j P0) as [(-> & O)|(G1 & G2)].
      - destruct (OLD i O) as (u & u' & U & U' & M & X). destruct (bk_old _ _ _ _ _ B1 i u U) as (v1 & E1 & _ & M1 & X1).
        destruct (bk_old _ _ _ _ _ B2 (r0 i) u' U') as (w1 & E2 & _ & M2 & X2). rewrite V1 in E1. rewrite W1 in E2. injection E1 as <-. injection E2 as <-. split; congruence.
      - destruct (bk_plain _ _ _ _ _ B1 i v G1 V1) as (A1 & A2). destruct (bk_plain _ _ _ _ _ B2 j w G2 W1) as (C1 & C2). split; congruence. }
    exists v. split; auto. rewrite (ren_pair i j P0), W1. split.
    - f_equal. destruct MM as (MX & MN). unfold rv. rewrite N1, Q1, S1. cbn [option_map]. rewrite (ren_pair y y' PY), (ren_pair z z' PZ), T1, <- T2, <- MX, <- MN.
      destruct w; cbn in *. subst. reflexivity.
    - rewrite N1, Q1. split; intros k E; injection E as <-; [exists y'|exists z']; auto.
  Qed.
End Pairs.

(** *** How many vertices there are *)
Section Length.
  Context {T : Type} {N : Num T}.
  Implicit Types s : clipper T.
  Lemma upd_length {A} (l : list A) f : forall i, length (upd l i f) = length l.
  Proof. induction l; intros [|i]; cbn; auto. Qed.
  Lemma vmod_length s i f s' : vmod s i f = Ok s' -> length (verts s') = length (verts s).
  Proof. unfold vmod. intros H. apply bind_ok in H as (v & _ & H). injection H as <-. cbn. apply upd_length. Qed.
  Lemma set_segment_length s p m g s' : set_segment s p m g = Ok s' -> length (verts s') = length (verts s).
  Proof.
    unfold set_segment. intros H. apply bind_ok in H as (q & _ & H). apply bind_ok in H as (s1 & E & H). apply vmod_length in E. apply vmod_length in H. congruence.
  Qed.
  Lemma chain_length gs : forall s c s' c', chain s c gs = Ok (s', c') -> length (verts s') = length (verts s) + length gs.
  Proof.
    induction gs as [|g gs IH]; intros s c s' c' H; cbn [chain] in H; [injection H as <- _; cbn; lia|].
    unfold new_vertex in H. apply bind_ok in H as (s1 & E & H). apply IH in H. apply set_segment_length in E. rewrite H, E. cbn. rewrite app_length. cbn. lia.
  Qed.
  Lemma relink_length s st gs l s' : relink s st gs l = Ok s' -> length (verts s') = length (verts s) + length gs.
  Proof.
    unfold relink. intros H. apply bind_ok in H as (v & _ & H). apply bind_ok in H as (e & _ & H). apply bind_ok in H as ((s1 & c) & E & H).
    apply bind_ok in H as (ve & _ & H). apply bind_ok in H as (s2 & E2 & H). apply chain_length in E. apply set_segment_length in E2. apply vmod_length in H. congruence.
  Qed.
  Lemma cubic_pieces_length bs : forall zs (gs : list (seg T)) l, cubic_pieces zs bs = Ok (gs, l) -> length gs = length bs.
  Proof.
    induction bs as [|b bs IH]; intros [|z zs] gs l H; cbn [cubic_pieces] in H; try discriminate.
    - destruct zs; [|discriminate]. injection H as <- _. reflexivity.
    - apply bind_ok in H as ((gs' & l') & E & H). injection H as <- _. cbn. f_equal. eauto.
  Qed.
  Lemma break_vertex_length s st bs s' v g : break_vertex s st bs = Ok s' -> nth_error (verts s) st = Some v -> v_seg v = Some g -> drawable g ->
    length (verts s') = length (verts s) + length bs.
  Proof.
    unfold break_vertex, at_. intros H V G D. rewrite V in H. cbn [of_opt bind] in H. rewrite G in H. cbn [of_opt bind] in H. destruct g; try contradiction.
    - apply relink_length in H. now rewrite map_length in H.
    - cbv zeta in H. apply bind_ok in H as ((gs & l) & E & H). apply cubic_pieces_length in E. apply relink_length in H. rewrite H, E.
      f_equal. symmetry. apply Permutation.Permutation_length. apply sort_by_perm.
  Qed.
  Lemma broken_seg vs0 ls (vs : list (vertex T)) news hsf i : broken vs0 ls vs news hsf -> In i (concat ls) ->
    exists v g, nth_error vs i = Some v /\ v_seg v = Some g /\ drawable g.
  Proof.
    intros B H. apply in_concat in H as (l & L & H). pose proof (bk_ring _ _ _ _ _ B) as R. rewrite Forall_forall in R.
    destruct (ring_link _ _ _ i (R l L) (with_new_in news l i H)) as (j & g & _ & G & (v & w & E & _ & _ & _ & S & _)).
    apply in_flat_map in G as (k & K & G). pose proof (bk_draw _ _ _ _ _ B k) as D. rewrite Forall_forall in D.
    exists v, g. split; auto. split; auto. apply D; auto. apply in_concat. eauto.
  Qed.
  Lemma break_runs_length vs0 ls rs : forall s news hsf s', broken vs0 ls (verts s) news hsf -> Forall (fun l => 2 <= length l) ls ->
    (forall i, In i (concat ls) -> exists v, nth_error vs0 i = Some v) ->
    Forall (fun r => snd r <> [] /\ In (fst r) (concat ls)) rs -> fold_left break_run rs (Ok s) = Ok s' ->
    length (verts s') = length (verts s) + length (concat (map snd rs)).
  Proof.
    induction rs as [|[st bs] rs IH]; intros s news hsf s' B TWO SOME F H; cbn [fold_left] in H; [injection H as <-; cbn; lia|].
    inversion F as [|? ? [F1 F2] F3]; subst. cbn [fst snd] in *. destruct (SOME _ F2) as (v0 & V0).
    destruct (broken_step s vs0 ls news hsf st v0 bs B TWO F2 V0 F1) as (vs1 & fresh & E & B1). cbn [break_run bind fst snd] in H. rewrite E in H.
    destruct (broken_seg _ _ _ _ _ _ B F2) as (v & g & V & G & D). pose proof (break_vertex_length _ _ _ _ _ _ E V G D) as L.
    rewrite (IH (w_verts s vs1) _ _ _ B1 TWO SOME F3 H). rewrite L. cbn [map concat snd]. rewrite app_length. lia.
  Qed.
  Lemma runs_concat (bs : list (break_info T)) : concat (map snd (runs bs)) = bs.
  Proof.
    induction bs as [|b bs IH]; [reflexivity|]. cbn [runs]. destruct (runs bs) as [|(v & x) t]; [cbn in *; now rewrite <- IH|].
    destruct (Nat.eqb (br_vert b) v); cbn in *; now rewrite <- IH.
  Qed.
  Lemma break_all_length s ls (bs : list (break_info T)) s' : rings (verts s) ls -> Forall (fun b => In (br_vert b) (concat ls)) bs ->
    break_all (length bs) s bs = Ok s' -> length (verts s') = length (verts s) + length bs.
  Proof.
    intros R F H. rewrite break_all_runs in H by auto. rewrite <- (f_equal (@length _) (runs_concat bs)).
    eapply (break_runs_length (verts s) ls); [apply (broken_start _ _ R)|..|exact H].
    - destruct R as [R _]. eapply Forall_impl; [|exact R]. intros l (gs & _ & _ & L). exact L.
    - intros i Hi. destruct (rings_in _ _ _ R Hi) as (l & gs & j & g & v & w & K). exists v. tauto.
    - pose proof (runs_ok bs) as RO. rewrite Forall_forall in *. intros [v x] Hr. destruct (RO _ Hr) as [A B]. split; auto.
      cbn [fst snd] in *. destruct x as [|b x]; [contradiction|]. inversion B as [|? ? [B1 B2] _]; subst. auto.
  Qed.
End Length.
