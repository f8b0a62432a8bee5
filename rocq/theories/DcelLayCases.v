(** C54-C56: concrete lines. *)
From Coq Require Import ZArith Bool List Reals Lra Floats.SpecFloat Permutation.
From Verif Require Import Outcome Num Order Rmath RectSpec LineSpec LineR RTac VState VLemmas Dcel DcelSpec DcelCases DcelBase DcelCaseProofs DcelStatements DcelInv.
From Verif Require Import DcelLaySpec DcelKept DcelPieces DcelCut DcelLay DcelLayMain.
Import ListNotations.
Local Open Scope out.

Definition zv (x y : Z) : vec2 b64 := V2 (SFofZ x) (SFofZ y).
(** Four lines, two across the other two *)
Definition hash_calls : list (dcall b64) := [zline 0 1 3 1; zline 0 2 3 2; zline 1 0 1 3; zline 2 0 2 3].
(** Two lines from one point *)
Definition corner_calls : list (dcall b64) := [zline 0 0 4 0; zline 0 0 0 4].
(** A short line on a long one *)
Definition lap_calls : list (dcall b64) := [zline 0 0 10 0; zline 2 0 3 0].
(** A line of the subject and one of the clip across it *)
Definition mixed_calls : list (dcall b64) := [zline 0 0 4 4; DType clip; zline 0 4 4 0].

Definition sfe (a b : b64) : bool :=
  match a, b with
  | S754_zero s, S754_zero t => Bool.eqb s t
  | S754_infinity s, S754_infinity t => Bool.eqb s t
  | S754_nan, S754_nan => true
  | S754_finite s m e, S754_finite t n f => Bool.eqb s t && Pos.eqb m n && Z.eqb e f
  | _, _ => false
  end.
Lemma sfe_eq a b : sfe a b = true -> a = b.
Proof.
  destruct a, b; cbn; try discriminate; intros H.
  - apply eqb_prop in H. congruence.
  - apply eqb_prop in H. congruence.
  - reflexivity.
  - apply andb_prop in H as (H & H3). apply andb_prop in H as (H1 & H2). apply eqb_prop in H1. apply Pos.eqb_eq in H2. apply Z.eqb_eq in H3. congruence.
Qed.
Definition ptyb (a b : path_type) : bool := match a, b with subject, subject | clip, clip => true | _, _ => false end.
Definition half_at_b (d : dcel b64) e (f : half b64 -> bool) : bool := match nth_error (d_halves d) e with Some (Some h) => f h | _ => false end.
Definition point_is_b (d : dcel b64) i (v : vec2 b64) : bool := match nth_error (d_points d) i with Some p => sfe (vx (p_at p)) (vx v) && sfe (vy (p_at p)) (vy v) | _ => false end.
Definition half_from_b (d : dcel b64) e t a b : bool := half_at_b d e (fun h => ptyb (h_type h) t && point_is_b d (h_start h) a && point_is_b d (h_end h) b).
Lemma half_from_b_ok d e t a b : half_from_b d e t a b = true -> half_from d e t a b.
Proof.
  unfold half_from_b, half_at_b. destruct (nth_error (d_halves d) e) as [[h|]|] eqn:E; try discriminate. intros H. apply andb_prop in H as (H & H3). apply andb_prop in H as (H1 & H2).
  unfold point_is_b in *. destruct (nth_error (d_points d) (h_start h)) as [p|] eqn:P; [|discriminate]. destruct (nth_error (d_points d) (h_end h)) as [q|] eqn:Q; [|discriminate].
  apply andb_prop in H2 as (A1 & A2). apply andb_prop in H3 as (B1 & B2). apply sfe_eq in A1, A2, B1, B2. exists h, p, q. csplit; auto.
  - destruct (h_type h), t; try discriminate; reflexivity.
  - destruct (p_at p), a; cbn in *; congruence.
  - destruct (p_at q), b; cbn in *; congruence.
Qed.
Lemma half_at_b_ok d e f : half_at_b d e f = true -> exists h, live d e h /\ f h = true.
Proof. unfold half_at_b, live. destruct (nth_error (d_halves d) e) as [[h|]|]; try discriminate. eauto. Qed.

Lemma lap_lemma : let N := B64 lm_angle in exists l d d' e e', dcalls_run dcel0 l = Ok d /\ dcel_process en_plain d = Ok d' /\
  half_from d' e subject (zv 0 0) (zv 10 0) /\ half_from d' e' subject (zv 2 0) (zv 3 0).
Proof.
  intros N. exists lap_calls. destruct (@run_that b64 N en_plain lap_calls (fun _ => true) (fun d => half_from_b d 0 subject (zv 0 0) (zv 10 0) && half_from_b d 1 subject (zv 2 0) (zv 3 0))) as (d & d' & R1 & R2 & _ & K).
  - vm_compute. reflexivity.
  - apply andb_prop in K as (K1 & K2). exists d, d', 0, 1. csplit; auto; now apply half_from_b_ok.
Qed.
Lemma corner_lemma : let N := B64 lm_angle in exists l d d' e, dcalls_run dcel0 l = Ok d /\ dcel_process en_plain d = Ok d' /\ half_from d' e subject (zv 0 0) (zv 0 0).
Proof.
  intros N. exists corner_calls. destruct (@run_that b64 N en_plain corner_calls (fun _ => true) (fun d => half_from_b d 2 subject (zv 0 0) (zv 0 0))) as (d & d' & R1 & R2 & _ & K).
  - vm_compute. reflexivity.
  - exists d, d', 2. csplit; auto; now apply half_from_b_ok.
Qed.
Lemma mixed_lemma : let N := B64 lm_angle in exists l d d' e, dcalls_run dcel0 l = Ok d /\ dcel_process en_plain d = Ok d' /\
  lines_given subject l = [(subject, (zv 0 0, zv 4 4)); (clip, (zv 0 4, zv 4 0))] /\ half_from d' e clip (zv 0 0) (zv 2 2).
Proof.
  intros N. exists mixed_calls. destruct (@run_that b64 N en_plain mixed_calls (fun _ => true) (fun d => half_from_b d 2 clip (zv 0 0) (zv 2 2))) as (d & d' & R1 & R2 & _ & K).
  - vm_compute. reflexivity.
  - exists d, d', 2. csplit; auto; now apply half_from_b_ok.
Qed.
Lemma faceless_lemma : let N := B64 lm_angle in exists l d d' e h, dcalls_run dcel0 l = Ok d /\ dcel_process en_plain d = Ok d' /\ live d' e h /\ h_face h = None.
Proof.
  intros N. exists hash_calls. destruct (@run_that b64 N en_plain hash_calls (fun _ => true) (fun d => half_at_b d 11 (fun h => match h_face h with None => true | _ => false end))) as (d & d' & R1 & R2 & _ & K).
  - vm_compute. reflexivity.
  - apply half_at_b_ok in K as (h & L & F). exists d, d', 11, h. csplit; auto. destruct (h_face h); congruence.
Qed.
Lemma right_lemma : let N := B64 lm_angle in exists l d d' e h n e' a v b c, dcalls_run dcel0 l = Ok d /\ dcel_process en_plain d = Ok d' /\
  half_from d' e subject a v /\ live d' e h /\ h_next h = Some n /\ half_from d' n subject v b /\ turns_right a v b /\ half_from d' e' subject v c /\ turns_left a v c.
Proof.
  intros N. exists hash_calls. destruct (@run_that b64 N en_plain hash_calls (fun _ => true) (fun d => half_from_b d 8 subject (zv 1 2) (zv 2 2) && half_at_b d 8 (fun h => match h_next h with Some n => Nat.eqb n 26 | _ => false end)
    && half_from_b d 26 subject (zv 2 2) (zv 2 1) && half_from_b d 15 subject (zv 2 2) (zv 2 3))) as (d & d' & R1 & R2 & _ & K).
  - vm_compute. reflexivity.
  - apply andb_prop in K as (K & K4). apply andb_prop in K as (K & K3). apply andb_prop in K as (K1 & K2). apply half_at_b_ok in K2 as (h & L & E). destruct (h_next h) as [n|] eqn:HN; [|discriminate]. apply Nat.eqb_eq in E as ->.
    exists d, d', 8, h, 26, 15, (zv 1 2), (zv 2 2), (zv 2 1), (zv 2 3). csplit; auto; try (now apply half_from_b_ok); vm_compute; reflexivity.
Qed.

(** *** Over the reals *)
Definition cross_R : list (dcall R) := [DLine 0 0 4 4; DType clip; DLine 0 4 4 0]%R.
Lemma cross_R_fin : Forall dcall_fin cross_R.
Proof. pose proof R_huge_big. repeat constructor; cbn; lra. Qed.
Lemma cross_R_lines : lines_given subject cross_R = [(subject, (V2 0 0, V2 4 4)); (clip, (V2 0 4, V2 4 0))]%R.
Proof.
  cbn. unfold veqb. cbn. rops. rewrite (proj2 (Reqb_false 0 4)) by lra. cbn [andb]. reflexivity.
Qed.
Lemma cross_R_runs : exists d d', dcalls_run dcel0 cross_R = Ok d /\ dcel_process en_plain d = Ok d'.
Proof. destruct (C37_process_exact_lemma en_plain cross_R) as (d & d' & A & B & _); [intros; reflexivity|exact cross_R_fin|eauto]. Qed.
Lemma cross_R_free : no_lap (lines_given subject cross_R).
Proof.
  rewrite cross_R_lines. intros i j t a b t' a' b' p NE. unfold line_is.
  destruct i as [|[|i]]; destruct j as [|[|j]]; cbn; try congruence; try (destruct i; discriminate); try (destruct j; discriminate);
    intros E E'; injection E as <- <- <-; injection E' as <- <- <-; unfold parallel; cbn; intros K; exfalso; lra.
Qed.
Lemma cross_R_on : (on_segment (V2 2 2) (V2 0 0) (V2 4 4) /\ on_segment (V2 2 2) (V2 0 4) (V2 4 0))%R.
Proof. split; exists (1/2)%R; (split; [lra|]); unfold pt; apply vec_eq; cbn; lra. Qed.

(** *** Statements *)
Section Statements.
  Context (en : denv) (l : list (dcall R)) (d d' : dcel R) (PO : forall l, Permutation (de_order en l) l) (FI : Forall dcall_fin l)
    (HC : dcalls_run dcel0 l = Ok d) (HP : dcel_process en d = Ok d').
  Lemma C54_cover_lemma : forall p, (exists e t a b, half_from d' e t a b /\ on_segment p a b) <->
    exists t a b, In (t, (a, b)) (lines_given subject l) /\ on_segment p a b.
  Proof. destruct (lay_parts en l d d' PO FI HC HP) as (d1 & H). exact (drawn_cover l d d1 d' H). Qed.
  Lemma C54_points_lemma : forall p, (exists q, In q (d_points d') /\ p_at q = p) <->
    (exists t a b, In (t, (a, b)) (lines_given subject l) /\ (p = a \/ p = b)) \/
    exists t a b t' a' b', In (t, (a, b)) (lines_given subject l) /\ In (t', (a', b')) (lines_given subject l) /\ ~ parallel a b a' b' /\ on_segment p a b /\ on_segment p a' b'.
  Proof. destruct (lay_parts en l d d' PO FI HC HP) as (d1 & H). intros p. rewrite <- (drawn_points l d d1 d' H p), in_map_iff. split; intros (q & A & B); exists q; auto. Qed.
  Lemma C54_apart_lemma : no_lap (lines_given subject l) -> forall e e' t a b t' a' b' p, e <> e' -> half_from d' e t a b -> half_from d' e' t' a' b' ->
    on_segment p a b -> on_segment p a' b' -> (p = a \/ p = b) /\ (p = a' \/ p = b') \/ a' = b /\ b' = a.
  Proof. destruct (lay_parts en l d d' PO FI HC HP) as (d1 & H). exact (drawn_apart l d d1 d' H). Qed.
  Lemma C55_partial_lemma : forall e t a, half_from d' e t a a -> exists i j ti ai bi tj aj bj,
    i <> j /\ line_is (lines_given subject l) i ti ai bi /\ line_is (lines_given subject l) j tj aj bj /\ (a = ai \/ a = bi) /\ on_segment a aj bj.
  Proof. destruct (lay_parts en l d d' PO FI HC HP) as (d1 & H). intros e t a K. apply (drawn_empty l d d1 d' H t a). eauto. Qed.
  Lemma C55_corner_lemma : forall i j ti ai bi tj aj bj p, line_is (lines_given subject l) i ti ai bi -> line_is (lines_given subject l) j tj aj bj ->
    ~ parallel ai bi aj bj -> p = ai \/ p = bi -> on_segment p aj bj -> exists e t, half_from d' e t p p.
  Proof. destruct (lay_parts en l d d' PO FI HC HP) as (d1 & H). intros i j ti ai bi tj aj bj p A B C D E. destruct (drawn_empty_conv l d d1 d' H i j ti ai bi tj aj bj p A B C D E) as (e & K). eauto. Qed.
  Lemma C56_type_lemma : forall e t a b, half_from d' e t a b -> t = type_after subject l \/ In (t, (a, b)) (lines_given subject l).
  Proof. destruct (lay_parts en l d d' PO FI HC HP) as (d1 & H). intros e t a b K. apply (drawn_type l d d1 d' H t a b). eauto. Qed.
End Statements.

Lemma cross_R_case : exists d d', dcalls_run dcel0 cross_R = Ok d /\ dcel_process en_plain d = Ok d' /\
  (exists q, In q (d_points d') /\ p_at q = V2 2 2)%R /\ (exists e t a b, half_from d' e t a b /\ on_segment (V2 2 2) a b)%R /\
  (forall e t a b, half_from d' e t a b -> on_segment (V2 2 2) a b -> V2 2 2 = a \/ V2 2 2 = b)%R.
Proof.
  destruct cross_R_runs as (d & d' & R1 & R2). exists d, d'. assert (PO : forall l, Permutation (de_order en_plain l) l) by (intros; reflexivity).
  pose proof (C54_points_lemma en_plain cross_R d d' PO cross_R_fin R1 R2) as CP. pose proof (C54_cover_lemma en_plain cross_R d d' PO cross_R_fin R1 R2) as CC.
  destruct cross_R_on as (O1 & O2). rewrite cross_R_lines in *. 
  assert (A1 : In (subject, (V2 0 0, V2 4 4)%R) [(subject, (V2 0 0, V2 4 4)); (clip, (V2 0 4, V2 4 0))]%R) by (now left).
  assert (A2 : In (clip, (V2 0 4, V2 4 0)%R) [(subject, (V2 0 0, V2 4 4)); (clip, (V2 0 4, V2 4 0))]%R) by (right; now left).
  assert (NP : (~ parallel (V2 0 0) (V2 4 4) (V2 0 4) (V2 4 0))%R) by (unfold parallel; cbn; lra).
  csplit; auto.
  - apply CP. right. exists subject, (V2 0 0)%R, (V2 4 4)%R, clip, (V2 0 4)%R, (V2 4 0)%R. auto 6.
  - apply CC. exists subject, (V2 0 0)%R, (V2 4 4)%R. auto.
  - (* it lies on a half edge of either line; apart *)
    intros e t a b K O.
    destruct (lay_parts en_plain cross_R d d' PO cross_R_fin R1 R2) as (d1 & H).
    destruct (proj1 (final_in cross_R d d1 d' H t a b) (ex_intro _ e K)) as (i & I & D).
    destruct (per_line cross_R d d1 d' H i I) as (bs & ps & (S1 & _) & NE & HB & PC).
    assert (HS : has d1 i (V2 2 2)%R).
    { pose proof H as (_ & _ & _ & _ & _ & _ & (_ & BR2 & _) & _).
      destruct (edge_line cross_R d d1 d' H i I) as (ti & LI). rewrite cross_R_lines in LI. unfold line_is in LI.
      pose proof (line_edge cross_R d d1 d' H) as LE. rewrite cross_R_lines in LE. unfold line_is in LE.
      destruct (proj1 (LE 0 _ _ _) eq_refl) as (I0 & E0). destruct (proj1 (LE 1 _ _ _) eq_refl) as (I1 & E1).
      destruct i as [|[|i]]; [apply (BR2 0 1)|apply (BR2 1 0)|destruct i; discriminate]; auto; unfold sa, sb; rewrite ?E0, ?E1; cbn [fst snd]; auto.
      intros P. apply NP. now apply parallel_sym. }
    assert (Q : forall t' a' b', In (t', (a', b')) (pieces_at d1 i) -> on_segment (V2 2 2)%R a' b' -> (V2 2 2 = a' \/ V2 2 2 = b')%R).
    { intros t' a' b' J O'. rewrite PC in J. apply in_map_iff in J as ((x & y) & E & J). unfold piece in E. cbn [fst snd] in E. injection E as _ <- <-. destruct (S1 x y J) as ((X1 & X2) & _ & _ & X3 & _).
      apply (proj1 (on_piece _ _ _ x y X1 X2)) in O' as (z & Hz & E). apply HB in HS. rewrite E in HS |- *. destruct (X3 z ltac:(lra) ltac:(auto)); [left|right]; f_equal; lra. }
    destruct D as [D|(_ & t' & D)]; [eauto|]. destruct (Q _ _ _ D (on_flip _ _ _ O)); auto.
Qed.

Definition corner_R : list (dcall R) := [DLine 0 0 4 0; DLine 0 0 0 4]%R.
Lemma corner_R_case : Forall dcall_fin corner_R /\
  (line_is (lines_given subject corner_R) 0%nat subject (V2 0 0) (V2 4 0) /\ line_is (lines_given subject corner_R) 1%nat subject (V2 0 0) (V2 0 4) /\
   ~ parallel (V2 0 0) (V2 4 0) (V2 0 0) (V2 0 4) /\ on_segment (V2 0 0) (V2 0 0) (V2 0 4))%R /\
  exists d d' e t, dcalls_run dcel0 corner_R = Ok d /\ dcel_process en_plain d = Ok d' /\ half_from d' e t (V2 0 0)%R (V2 0 0)%R.
Proof.
  assert (F : Forall dcall_fin corner_R) by (pose proof R_huge_big; repeat constructor; cbn; lra).
  assert (E : lines_given subject corner_R = [(subject, (V2 0 0, V2 4 0)); (subject, (V2 0 0, V2 0 4))]%R).
  { cbn. unfold veqb. cbn. rops. rewrite (proj2 (Reqb_false 0 4)) by lra. rewrite (proj2 (Reqb_true 0 0)) by reflexivity. cbn [andb]. reflexivity. }
  assert (L0 : (line_is (lines_given subject corner_R) 0%nat subject (V2 0 0) (V2 4 0))%R) by (rewrite E; reflexivity).
  assert (L1 : (line_is (lines_given subject corner_R) 1%nat subject (V2 0 0) (V2 0 4))%R) by (rewrite E; reflexivity).
  assert (NP : (~ parallel (V2 0 0) (V2 4 0) (V2 0 0) (V2 0 4))%R) by (unfold parallel; cbn; lra).
  assert (O : on_segment (V2 0 0)%R (V2 0 0)%R (V2 0 4)%R) by (exists 0%R; split; [lra|now rewrite pt_0]).
  split; [exact F|]. split; [auto|]. destruct (C37_process_exact_lemma en_plain corner_R) as (d & d' & R1 & R2 & _); [intros; reflexivity|exact F|].
  destruct (C55_corner_lemma en_plain corner_R d d' ltac:(intros; reflexivity) F R1 R2 0 1 _ _ _ _ _ _ (V2 0 0)%R L0 L1 NP (or_introl eq_refl) O) as (e & t & K).
  exists d, d', e, t. auto.
Qed.
