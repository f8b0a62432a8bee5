(** C61: concrete lines. *)
From Coq Require Import ZArith Bool List Reals Lra Floats.SpecFloat Permutation.
From Verif Require Import Outcome Num Order Rmath RectSpec LineSpec LineR RTac VState VLemmas Dcel DcelSpec DcelCases DcelBase DcelCaseProofs DcelStatements DcelInv.
From Verif Require Import DcelLaySpec DcelLayMain DcelLayCases DcelNextSpec DcelNext.
Import ListNotations.
Local Open Scope out.

(** The lines of [cross_R] in the other order, one from its other end, both of the subject *)
Definition cross_other : list (dcall R) := [DLine 4 0 0 4; DLine 0 0 4 4]%R.
Lemma cross_other_fin : Forall dcall_fin cross_other.
Proof. pose proof R_huge_big. repeat constructor; cbn; lra. Qed.
Lemma cross_other_lines : lines_given subject cross_other = [(subject, (V2 4 0, V2 0 4)); (subject, (V2 0 0, V2 4 4))]%R.
Proof.
  cbn. unfold veqb. cbn. rops. rewrite (proj2 (Reqb_false 4 0)) by lra. rewrite (proj2 (Reqb_false 0 4)) by lra. cbn [andb]. reflexivity.
Qed.
Lemma cross_other_runs : exists d d', dcalls_run dcel0 cross_other = Ok d /\ dcel_process en_plain d = Ok d'.
Proof. destruct (C37_process_exact_lemma en_plain cross_other) as (d & d' & A & B & _); [intros; reflexivity|exact cross_other_fin|eauto]. Qed.
Lemma cross_other_free : no_lap (lines_given subject cross_other).
Proof.
  rewrite cross_other_lines. intros i j t a b t' a' b' p NE. unfold line_is.
  destruct i as [|[|i]]; destruct j as [|[|j]]; cbn; try congruence; try (destruct i; discriminate); try (destruct j; discriminate);
    intros E E'; injection E as <- <- <-; injection E' as <- <- <-; unfold parallel; cbn; intros K; exfalso; lra.
Qed.
Lemma cross_same : same_lines (lines_given subject cross_R) (lines_given subject cross_other).
Proof.
  rewrite cross_R_lines, cross_other_lines. intros a b. split.
  - intros (t & [[E|[E|[]]]|[E|[E|[]]]]); injection E as <- <- <-; exists subject; cbn; auto.
  - intros (t & [[E|[E|[]]]|[E|[E|[]]]]); injection E as <- <- <-; [exists clip|exists subject|exists clip|exists subject]; cbn; auto.
Qed.
Lemma cross_node p : node (lines_given subject cross_R) p <-> (p = V2 0 0 \/ p = V2 4 4 \/ p = V2 0 4 \/ p = V2 4 0 \/ p = V2 2 2)%R.
Proof.
  rewrite cross_R_lines. split.
  - intros [(t & a & b & [E|[E|[]]] & D)|(t & a & b & t' & a' & b' & [E|[E|[]]] & [E'|[E'|[]]] & NP & (u & U & O) & (v & V & O'))]; injection E as <- <- <-; try tauto; injection E' as <- <- <-.
    + elim NP. unfold parallel. cbn. lra.
    + right. right. right. right. rewrite O in *. unfold pt in *. cbn in *. injection O' as X Y. apply vec_eq; cbn; lra.
    + right. right. right. right. rewrite O in *. unfold pt in *. cbn in *. injection O' as X Y. apply vec_eq; cbn; lra.
    + elim NP. unfold parallel. cbn. lra.
  - destruct cross_R_on as (O1 & O2). intros [->|[->|[->|[->| ->]]]];
      [left; exists subject, (V2 0 0)%R, (V2 4 4)%R; cbn; auto|left; exists subject, (V2 0 0)%R, (V2 4 4)%R; cbn; auto|left; exists clip, (V2 0 4)%R, (V2 4 0)%R; cbn; auto|left; exists clip, (V2 0 4)%R, (V2 4 0)%R; cbn; auto|right].
    exists subject, (V2 0 0)%R, (V2 4 4)%R, clip, (V2 0 4)%R, (V2 4 0)%R. cbn [In]. csplit; auto. unfold parallel. cbn. lra.
Qed.
Lemma cross_next : (neighbours (lines_given subject cross_R) (V2 0 0) (V2 2 2) /\ ~ neighbours (lines_given subject cross_R) (V2 0 0) (V2 4 4))%R.
Proof.
  split.
  - split; [intros E; injection E; lra|]. split; [apply cross_node; auto|]. split; [apply cross_node; auto|]. split.
    + rewrite cross_R_lines. exists subject, (V2 0 0)%R, (V2 4 4)%R. cbn [In]. csplit; auto; [exists 0%R|exists (1/2)%R]; (split; [lra|]); unfold pt; apply vec_eq; cbn; lra.
    + intros p Np (u & U & ->). apply cross_node in Np. unfold pt in *. cbn in *.
      destruct Np as [E|[E|[E|[E|E]]]]; injection E as X Y; try (exfalso; lra); [left|right]; apply vec_eq; cbn; lra.
  - intros (_ & _ & _ & _ & F). destruct (F (V2 2 2)%R) as [E|E]; [apply cross_node; auto|exists (1/2)%R; split; [lra|]; unfold pt; apply vec_eq; cbn; lra| |]; injection E; lra.
Qed.
Lemma C61_next_case : Forall dcall_fin cross_R /\ no_lap (lines_given subject cross_R) /\
  (neighbours (lines_given subject cross_R) (V2 0 0) (V2 2 2) /\ ~ neighbours (lines_given subject cross_R) (V2 0 0) (V2 4 4))%R /\
  exists d d', dcalls_run dcel0 cross_R = Ok d /\ dcel_process en_plain d = Ok d' /\
    (exists e t, half_from d' e t (V2 0 0) (V2 2 2))%R /\ ~ (exists e t, half_from d' e t (V2 0 0) (V2 4 4))%R.
Proof.
  split; [exact cross_R_fin|]. split; [exact cross_R_free|]. split; [exact cross_next|]. destruct cross_R_runs as (d & d' & R1 & R2). exists d, d'.
  assert (PO : forall l, Permutation (de_order en_plain l) l) by (intros; reflexivity). destruct cross_next as (Y & N). csplit; auto.
  - destruct (proj1 (C61_next_lemma en_plain cross_R d d' PO cross_R_fin R1 R2 cross_R_free (V2 0 0)%R (V2 2 2)%R ltac:(intros E; injection E; lra)) Y) as (e & (t & K) & _). eauto.
  - intros K. apply N. apply (proj2 (C61_next_lemma en_plain cross_R d d' PO cross_R_fin R1 R2 cross_R_free (V2 0 0)%R (V2 4 4)%R ltac:(intros E; injection E; lra)) K).
Qed.
Lemma C61_order_case : Forall dcall_fin cross_R /\ Forall dcall_fin cross_other /\ no_lap (lines_given subject cross_R) /\ no_lap (lines_given subject cross_other) /\
  same_lines (lines_given subject cross_R) (lines_given subject cross_other) /\
  exists d d' g g', dcalls_run dcel0 cross_R = Ok d /\ dcel_process en_plain d = Ok d' /\ dcalls_run dcel0 cross_other = Ok g /\ dcel_process en_plain g = Ok g' /\
    (exists e t, half_from d' e t (V2 0 0) (V2 2 2))%R /\ (exists e t, half_from g' e t (V2 0 0) (V2 2 2))%R.
Proof.
  split; [exact cross_R_fin|]. split; [exact cross_other_fin|]. split; [exact cross_R_free|]. split; [exact cross_other_free|]. split; [exact cross_same|].
  destruct C61_next_case as (_ & _ & _ & d & d' & R1 & R2 & K & _). destruct cross_other_runs as (g & g' & R3 & R4). exists d, d', g, g'. csplit; auto.
  assert (PO : forall l, Permutation (de_order en_plain l) l) by (intros; reflexivity).
  destruct (C61_order_lemma en_plain en_plain cross_R cross_other d d' g g') as (_ & Q); auto using cross_R_fin, cross_other_fin, cross_R_free, cross_other_free, cross_same.
  apply Q; auto. intros E; injection E; lra.
Qed.
Lemma C61_lap_lemma : let N := B64 lm_angle in exists l d d' e i q, dcalls_run dcel0 l = Ok d /\ dcel_process en_plain d = Ok d' /\
  half_from d' e subject (zv 0 0) (zv 10 0) /\ nth_error (d_points d') i = Some q /\ p_at q = zv 2 0.
Proof.
  intros N. exists lap_calls. destruct (@run_that b64 N en_plain lap_calls (fun _ => true) (fun d => half_from_b d 0 subject (zv 0 0) (zv 10 0) && point_is_b d 2 (zv 2 0))) as (d & d' & R1 & R2 & _ & K).
  - vm_compute. reflexivity.
  - apply andb_prop in K as (K1 & K2). unfold point_is_b in K2. destruct (nth_error (d_points d') 2) as [q|] eqn:E; [|discriminate]. exists d, d', 0, 2, q. csplit; auto; [now apply half_from_b_ok|].
    apply andb_prop in K2 as (A & B). apply sfe_eq in A, B. destruct (p_at q) as [x y]. unfold zv in *. cbn [vx vy] in A, B. rewrite A, B. reflexivity.
Qed.
