(** The drawing after [process]. *)
From Coq Require Import ZArith Bool List Reals Lra Lia Permutation Sorted.
From Verif Require Import Outcome Num Order Rmath RTac RectSpec ScanLine ScanProofs VState VLemmas SortProofs LineSpec LineR.
From Verif Require Import Dcel DcelSpec DcelBase DcelBreak DcelFace DcelLink DcelSplit DcelUnique DcelProcess DcelR DcelLaySpec DcelKept DcelPieces DcelCut.
Import ListNotations.
Local Open Scope out.

Implicit Types d : dcel R.
(** *** Order along a line *)
Lemma scaled_lt u k v w : (u + v * k < u + w * k)%R <-> (0 < k /\ v < w \/ k < 0 /\ w < v)%R.
Proof.
  split.
  - intros H. destruct (Rtotal_order k 0) as [K|[->|K]].
    + right. split; auto. apply (Rmult_lt_reg_r (- k)); lra.
    + lra.
    + left. split; auto. apply (Rmult_lt_reg_r k); lra.
  - intros [(K & L)|(K & L)].
    + apply Rplus_lt_compat_l, Rmult_lt_compat_r; auto.
    + assert (w * - k < v * - k)%R by (apply Rmult_lt_compat_r; lra). lra.
Qed.
Lemma along_iff s q a b : along_ltb s q a b = true <->
  (vx s <= vx q /\ vx a < vx b \/ vx q < vx s /\ vx b < vx a \/ vy s <= vy q /\ vy a < vy b \/ vy q < vy s /\ vy b < vy a)%R.
Proof.
  unfold along_ltb. rops. destruct (Rleb (vx s) (vx q)) eqn:X; [apply Rleb_true in X|apply Rleb_false in X];
  (destruct (Rleb (vy s) (vy q)) eqn:Y; [apply Rleb_true in Y|apply Rleb_false in Y]); cbn [negb andb];
  repeat match goal with |- context [if Rltb ?u ?v then _ else _] => let E := fresh "E" in destruct (Rltb u v) eqn:E; [apply Rltb_true in E|apply Rltb_false in E] end;
  rewrite ?Rltb_true; split; intros H; try discriminate; try reflexivity; lra.
Qed.
Lemma along_lt s q a b : s <> q -> along_ltb s q (pt s q a) (pt s q b) = true <-> (a < b)%R.
Proof.
  intros NE. rewrite along_iff. destruct s as [sx sy], q as [qx qy]. unfold pt. cbn [vx vy]. rewrite !scaled_lt.
  assert (NZ : (sx < qx \/ qx < sx \/ sx = qx /\ (sy < qy \/ qy < sy))%R).
  { destruct (Rtotal_order sx qx) as [H|[H|H]]; auto. right. right. split; auto. destruct (Rtotal_order sy qy) as [K|[K|K]]; auto. elim NE. now rewrite H, K. }
  split; [lra|]. intros L. destruct NZ as [H|[H|(H & [K|K])]]; lra.
Qed.

(** *** Consecutive values *)
Lemma steps_map {A B} (f : A -> B) l : forall a, steps (f a) (map f l) = map (fun x => (f (fst x), f (snd x))) (steps a l).
Proof. induction l as [|b r IH]; intros a; cbn; auto. now rewrite IH. Qed.
Lemma steps_facts ts : forall u, StronglySorted Rle (u :: ts) -> Forall (fun x => (u <= fst x <= snd x)%R /\ In (fst x) (u :: ts) /\ In (snd x) ts /\ forall z, In z (u :: ts) -> (z <= fst x \/ snd x <= z)%R) (steps u ts) /\
  ForallOrdPairs (fun x y => (snd x <= fst y)%R) (steps u ts).
Proof.
  induction ts as [|v r IH]; intros u S; cbn [steps]; [split; constructor|]. inversion S as [|? ? S' F]; subst. inversion S' as [|? ? S'' F']; subst.
  destruct (IH v S') as (A & B). inversion F as [|? ? UV F2]; subst. rewrite Forall_forall in F', F2. split.
  - constructor.
    + cbn [fst snd]. split; [lra|]. split; [now left|]. split; [now left|]. intros z [<-|[<-|Hz]]; [left; lra|right; lra|right; auto].
    + eapply Forall_impl; [|exact A]. intros [x y] (H1 & H2 & H3 & H4). cbn [fst snd] in *. split; [lra|]. split; [now right|]. split; [now right|]. intros z [<-|Hz]; [left; lra|auto].
  - constructor; auto. eapply Forall_impl; [|exact A]. intros [x y] (H1 & _). cbn [fst snd] in *. lra.
Qed.
Lemma steps_cover ts w : forall u t, (u <= t <= w)%R -> exists x, In x (steps u (ts ++ [w])) /\ (fst x <= t <= snd x)%R.
Proof.
  induction ts as [|v r IH]; intros u t H; cbn.
  - exists (u, w). auto.
  - destruct (Rle_lt_dec t v) as [L|L]; [exists (u, v); cbn; split; [auto|lra]|]. destruct (IH v t) as (x & I & K); [lra|]. exists x. auto.
Qed.
Lemma steps_equal ts w : forall u x, StronglySorted Rlt ts -> In x (steps u (ts ++ [w])) -> fst x = snd x -> (fst x = u /\ In u (ts ++ [w])) \/ (snd x = w /\ In w ts).
Proof.
  induction ts as [|v r IH]; intros u x S H E; cbn in H.
  - destruct H as [<-|[]]. cbn in E. subst w. left. split; auto. now left.
  - destruct H as [<-|H]; [cbn in E; subst v; left; split; auto; now left|]. inversion S as [|? ? S' F]; subst.
    destruct (IH v x S' H E) as [(E1 & I)|(E1 & I)]; [|right; split; auto; now right].
    apply in_app_iff in I as [I|[<-|[]]].
    + rewrite Forall_forall in F. specialize (F v I). lra.
    + right. split; [congruence|now left].
Qed.
Lemma steps_first ts w u : In u ts -> StronglySorted Rle (u :: ts) -> In (u, u) (steps u (ts ++ [w])).
Proof.
  destruct ts as [|v r]; intros I S; [destruct I|]. inversion S as [|? ? S' F]; subst. inversion F; subst. cbn. left. f_equal. destruct I as [->|I]; auto.
  inversion S' as [|? ? S'' F']; subst. rewrite Forall_forall in F'. pose proof (F' u I). lra.
Qed.
Lemma steps_last ts w : forall u, In w ts -> StronglySorted Rle (ts ++ [w]) -> In (w, w) (steps u (ts ++ [w])).
Proof.
  induction ts as [|v r IH]; intros u I S; [destruct I|]. cbn. inversion S as [|? ? S' F]; subst. destruct r as [|v' r].
  - destruct I as [->|[]]. right. now left.
  - destruct I as [->|I]; [|right; apply IH; auto]. right. apply IH; auto. cbn in F. rewrite Forall_forall in F. left.
    pose proof (F v' (or_introl eq_refl)). inversion S' as [|? ? S'' F']; subst. rewrite Forall_forall in F'. pose proof (F' w ltac:(apply in_or_app; right; now left)). lra.
Qed.

(** *** The pieces of one line *)
Lemma params_of s q l : (forall p, In p l -> on_segment p s q) -> exists ts, l = map (pt s q) ts /\ Forall (fun t => (0 <= t <= 1)%R) ts.
Proof.
  induction l as [|p r IH]; intros H; [exists []; auto|]. destruct (H p (or_introl eq_refl)) as (t & Ht & ->). destruct IH as (ts & -> & F); [intros; apply H; now right|].
  exists (t :: ts). auto.
Qed.
Lemma sorted_map (s q : vec2 R) ts : s <> q -> StronglySorted (fun a b => along_ltb s q b a = false) (map (pt s q) ts) -> StronglySorted Rle ts.
Proof.
  intros NE. induction ts as [|t r IH]; cbn; intros S; constructor; inversion S as [|? ? S' F]; subst; auto. rewrite Forall_forall in *. intros z Hz.
  specialize (F (pt s q z) (in_map _ _ _ Hz)). destruct (Rle_lt_dec t z); auto. rewrite (proj2 (along_lt s q z t NE)) in F; auto. discriminate.
Qed.
Definition spread (s q : vec2 R) (bs : list (vec2 R)) (ps : list (R * R)) : Prop :=
  (forall x y, In (x, y) ps -> (0 <= x <= y /\ y <= 1)%R /\ (x = 0%R \/ In (pt s q x) bs) /\ (y = 1%R \/ In (pt s q y) bs) /\
    (forall z, (0 <= z <= 1)%R -> z = 0%R \/ z = 1%R \/ In (pt s q z) bs -> (z <= x \/ y <= z)%R) /\
    (x = y -> In (pt s q x) bs /\ (x = 0 \/ x = 1)%R)) /\
  (forall t, (0 <= t <= 1)%R -> exists x y, In (x, y) ps /\ (x <= t <= y)%R) /\
  ForallOrdPairs (fun a b => (snd a <= fst b)%R) ps /\
  (forall z, (z = 0 \/ z = 1)%R -> In (pt s q z) bs -> In (z, z) ps).
Definition piece (s q : vec2 R) (t : path_type) (x : R * R) : path_type * (vec2 R * vec2 R) := (t, (pt s q (fst x), pt s q (snd x))).
Lemma pieces_spread d h (s := coord d (h_start h)) (q := coord d (h_end h)) : s <> q -> NoDup (h_breaks h) -> (forall p, In p (h_breaks h) -> on_segment p s q) ->
  exists ps, spread s q (h_breaks h) ps /\ pieces d h = map (piece s q (match h_breaks h with [] => h_type h | _ => d_type d end)) ps.
Proof.
  intros NE ND ON. unfold pieces. fold s q. destruct (h_breaks h) as [|b0 bs0] eqn:EB.
  { exists [(0, 1)%R]. split.
    - split; [|split; [|split]].
      + intros x y [E|[]]. injection E as <- <-. split; [lra|]. split; [auto|]. split; [auto|]. split; [|lra]. intros z Hz [->|[->|[]]]; lra.
      + intros t Ht. exists 0%R, 1%R. split; [now left|lra].
      + constructor; constructor.
      + intros z _ [].
    - cbn. unfold piece, tseg. cbn. now rewrite pt_0, pt_1. }
  set (bs := b0 :: bs0) in *. set (L := sort_by (along_ltb s q) bs). pose proof (sort_by_perm (along_ltb s q) bs) as PL. fold L in PL.
  destruct (params_of s q L) as (ts & EL & FT).
  { intros p Hp. apply ON. eapply Permutation_in; [symmetry; exact PL|exact Hp]. }
  assert (INB : forall t, In (pt s q t) bs <-> In t ts).
  { intros t. split.
    - intros K. apply (Permutation_in _ PL) in K. rewrite EL in K. apply in_map_iff in K as (t' & E & K). apply pt_inj in E; auto. now subst.
    - intros K. eapply Permutation_in; [symmetry; exact PL|]. rewrite EL. now apply in_map. }
  assert (SRT : StronglySorted Rle ts).
  { apply (sorted_map s q); auto. rewrite <- EL. apply sort_by_sorted with (V := fun p => on_segment p s q).
    - intros a b c (ta & _ & ->) (tb & _ & ->) (tc & _ & ->) H1 H2.
      destruct (along_ltb s q (pt s q tc) (pt s q ta)) eqn:K; auto. apply along_lt in K; auto.
      destruct (Rle_lt_dec ta tb); [|rewrite (proj2 (along_lt s q tb ta NE)) in H1 by auto; discriminate].
      destruct (Rle_lt_dec tb tc); [lra|rewrite (proj2 (along_lt s q tc tb NE)) in H2 by auto; discriminate].
    - intros a b (ta & _ & ->) (tb & _ & ->). destruct (along_ltb s q (pt s q ta) (pt s q tb)) eqn:K; auto.
      apply along_lt in K; auto. destruct (along_ltb s q (pt s q tb) (pt s q ta)) eqn:K2; auto. apply along_lt in K2; auto. lra.
    - apply Forall_forall. exact ON. }
  assert (NDT : NoDup ts).
  { apply (NoDup_map_inv (pt s q)). rewrite <- EL. eapply Permutation_NoDup; [exact PL|exact ND]. }
  assert (SLT : StronglySorted Rlt ts).
  { clear -SRT NDT. induction SRT as [|t r S IH F]; constructor; inversion NDT; subst; auto. rewrite Forall_forall in *. intros z Hz. destruct (F z Hz) as [K|K]; auto. subst z. contradiction. }
  rewrite Forall_forall in FT.
  assert (S1 : StronglySorted Rle (ts ++ [1%R])).
  { clear -SRT FT. induction SRT as [|t r S IH F]; cbn; [constructor; [constructor|constructor]|]. constructor; [apply IH; intros; apply FT; now right|]. apply Forall_app. split; auto. constructor; [apply FT; now left|constructor]. }
  assert (S0 : StronglySorted Rle (0%R :: ts ++ [1%R])).
  { constructor; auto. apply Forall_forall. intros z Hz. apply in_app_iff in Hz as [Hz|[<-|[]]]; [apply FT; auto|lra]. }
  destruct (steps_facts (ts ++ [1%R]) 0%R S0) as (A & B). rewrite Forall_forall in A.
  exists (steps 0%R (ts ++ [1%R])). split.
  - split; [|split; [|split; [exact B|]]].
    + intros x y H. destruct (A (x, y) H) as (A1 & A2 & A3 & A4). cbn [fst snd] in *. split; [|split; [|split; [|split]]].
      * split; [lra|]. apply in_app_iff in A3 as [A3|[<-|[]]]; [destruct (FT y A3); auto|lra].
      * destruct A2 as [<-|A2]; auto. apply in_app_iff in A2 as [A2|[<-|[]]]; [right; now apply INB|].
        (* the first value of a step is not the last of all unless it is a break *)
        right. apply INB. destruct (Req_dec y 1) as [->|NY].
        -- destruct (steps_equal ts 1%R 0%R (1, 1)%R SLT H eq_refl) as [(E & _)|(_ & I)]; [cbn in E; lra|auto].
        -- apply in_app_iff in A3 as [A3|[E|[]]]; [|congruence]. destruct (FT y A3). lra.
      * apply in_app_iff in A3 as [A3|[<-|[]]]; auto. right. now apply INB.
      * intros z Hz [->|[->|K]]; apply A4; [now left|right; apply in_or_app; right; now left|right; apply in_or_app; left; now apply INB].
      * intros ->. destruct (steps_equal ts 1%R 0%R (y, y) SLT H eq_refl) as [(E & I)|(E & I)]; cbn in E; subst y; (split; [|auto]); apply INB; auto.
        apply in_app_iff in I as [I|[I|[]]]; auto. lra.
    + intros t Ht. destruct (steps_cover ts 1%R 0%R t Ht) as ((x & y) & I & K). exists x, y. auto.
    + intros z [->| ->] K; apply INB in K.
      * apply steps_first; auto. constructor; auto. apply Forall_forall. intros z Hz. apply FT; auto.
      * apply steps_last; auto.
  - assert (SS : steps s (L ++ [q]) = map (fun x => (pt s q (fst x), pt s q (snd x))) (steps 0%R (ts ++ [1%R]))).
    { rewrite <- steps_map, map_app, <- EL. cbn [map]. now rewrite pt_0, pt_1. }
    subst bs. cbn beta iota. fold L. rewrite SS, map_map. reflexivity.
Qed.
