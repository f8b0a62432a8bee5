(** The concrete histories run. *)
From Coq Require Import ZArith Bool List Reals Lra Floats.SpecFloat Permutation.
From Verif Require Import Outcome Num Order Rmath RectSpec LineSpec LineR RTac VState VLemmas Dcel DcelSpec DcelCases DcelBase.
Import ListNotations.

Definition ok_that {A} (f : A -> bool) (o : outcome A) : bool := match o with Ok x => f x | _ => false end.
Lemma ok_that_ok {A} (f : A -> bool) o : ok_that f o = true -> exists x, o = Ok x /\ f x = true.
Proof. destruct o; cbn; try discriminate. eauto. Qed.
Definition validb (v : vec2 b64) : bool := SFeqb (vx v) (vx v) && SFeqb (vy v) (vy v).
Lemma validb_ok (lm : libm) v : validb v = true -> @vvalid b64 (B64 lm) (B64_ord lm) v.
Proof. unfold validb. intros H. apply andb_prop in H as [H1 H2]. split; cbn; intros E; [rewrite E in H1|rewrite E in H2]; discriminate. Qed.
Lemma all_valid (lm : libm) (l : list (point b64)) : forallb (fun p => validb (p_at p)) l = true ->
  Forall (fun p => @vvalid b64 (B64 lm) (B64_ord lm) (p_at p)) l.
Proof. rewrite forallb_forall, Forall_forall. intros H p Hp. apply validb_ok, H, Hp. Qed.

Lemma fan_case (lm : libm) : let N := B64 lm in let O := B64_ord lm in
  Forall dcall_valid fan_calls /\
  exists d, dcalls_run dcel0 fan_calls = Ok d /\ length (d_points d) = 3 /\ length (d_edges d) = 2.
Proof.
  intros N O. split.
  - repeat constructor; cbn; discriminate.
  - destruct (ok_that_ok (fun d => Nat.eqb (length (d_points d)) 3 && Nat.eqb (length (d_edges d)) 2) (dcalls_run dcel0 fan_calls)) as (d & E & K).
    + vm_compute. reflexivity.
    + exists d. split; auto. apply andb_prop in K as [K1 K2]. apply Nat.eqb_eq in K1, K2. auto.
Qed.

Lemma run_that {T} {N : Num T} en l (f : dcel T -> bool) (g : dcel T -> bool) :
  ok_that (fun d => f d && ok_that g (dcel_process en d)) (dcalls_run dcel0 l) = true ->
  exists d d', dcalls_run dcel0 l = Ok d /\ dcel_process en d = Ok d' /\ f d = true /\ g d' = true.
Proof.
  intros H. apply ok_that_ok in H as (d & E & H). apply andb_prop in H as [H1 H]. apply ok_that_ok in H as (d' & E' & H). eauto 8.
Qed.
Lemma cross_points_case : let N := B64 lm_angle in let O := B64_ord lm_angle in
  exists d d', dcalls_run dcel0 cross_calls = Ok d /\ dcel_process en_plain d = Ok d' /\
    Forall (fun p => vvalid (p_at p)) (d_points d') /\ length (d_points d) = 4 /\ length (d_points d') = 5.
Proof.
  intros N O. destruct (@run_that b64 N en_plain cross_calls (fun d => Nat.eqb (length (d_points d)) 4)
    (fun d => forallb (fun p => validb (p_at p)) (d_points d) && Nat.eqb (length (d_points d)) 5)) as (d & d' & R & P & H1 & H2).
  - vm_compute. reflexivity.
  - exists d, d'. apply andb_prop in H2 as [H2 H3]. apply Nat.eqb_eq in H1, H3. apply (all_valid lm_angle) in H2. auto.
Qed.
Lemma square_case : let N := B64 lm_angle in
  exists d d', dcalls_run dcel0 square_calls = Ok d /\ dcel_process en_plain d = Ok d' /\
    length (d_edges d) = 5 /\ length (d_edges d') = 28 /\ length (d_faces d') = 20.
Proof.
  intros N. destruct (@run_that b64 N en_plain square_calls (fun d => Nat.eqb (length (d_edges d)) 5)
    (fun d => Nat.eqb (length (d_edges d)) 28 && Nat.eqb (length (d_faces d)) 20)) as (d & d' & R & P & H1 & H2).
  - vm_compute. reflexivity.
  - exists d, d'. apply andb_prop in H2 as [H2 H3]. apply Nat.eqb_eq in H1, H2, H3. auto.
Qed.
Lemma cross_fin : (forall l : list nat, Permutation (de_order en_plain l) l) /\
  Forall dcall_fin [DLine 0%R 0%R 4%R 4%R; DLine 0%R 4%R 4%R 0%R].
Proof.
  split; [intros l; apply Permutation_refl|].
  pose proof R_huge_big.
  repeat constructor; cbn; lra.
Qed.
Lemma eight_case : inverse_links eight_dcel /\ exists d', split_face eight_dcel 0 = Ok (d', Some 1).
Proof.
  split.
  - split; intros e h n L E; (do 4 (destruct e as [|e]; [injection L as <-; injection E as <-; eexists; split; reflexivity|])); destruct e; discriminate.
  - eexists. vm_compute. reflexivity.
Qed.
