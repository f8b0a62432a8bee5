(** Cases for undefined behaviour in clipping runs. *)
From Coq Require Import ZArith Bool List Reals Floats.SpecFloat Permutation.
From Verif Require Import Outcome Num Order Rmath Segment Path PathSpec ScanLine VState VPath VBreak VLemmas VAel VOut VMain RingSpec BreakSpec
  BreakDrawn ClipCases BreakCases ClimbSpec ClimbCases DcelCaseProofs.
Import ListNotations.
Local Open Scope Z_scope.

(** The multiple [n] of the power [k] of two *)
Definition two (n k : Z) : b64 := binary_normalize 53 1024 n k false.
Definition zoutline (k : Z) (p : Z * Z) (l : list (Z * Z)) : outline (T := b64) :=
  (V2 (two (fst p) k) (two (snd p) k), map (fun q => PLine (V2 (two (fst q) k) (two (snd q) k))) l).
Section Cases.
  Variable lm : libm.
  Let N := B64 lm.
  Existing Instance N.
  (** Two rectangles *)
  Definition ps_null := [(subject, [[zoutline 0 (1, 7) [(18, 7); (18, 15); (1, 15)]]]); (clip, [[zoutline 0 (5, 11) [(13, 11); (13, 17); (5, 17)]]])].
  (** Two triangles near the origin: an edge of length 2^-598 crosses one of length 2^-529. *)
  Definition ps_tiny := [(subject, [[zoutline (-600) (-2, -1) [(2, 1); (0, 9)]]]); (clip, [[zoutline (-530) (0, -1) [(0, 1); (-1, 0)]]])].
  Definition is_ub (k : ub) {A} (o : outcome A) : bool :=
    match o, k with UB NullDeref, NullDeref => true | UB OobWrite, OobWrite => true | _, _ => false end.
  Lemma is_ub_ok k {A} (o : outcome A) : is_ub k o = true -> o = UB k.
  Proof. destruct o as [|[]| |]; destruct k; cbn; congruence. Qed.
  Lemma null_run : ok_that (fun s => is_ub NullDeref (process env0 1000 s op_difference even_odd)) (add_all clipper0 ps_null) = true.
  Proof. vm_compute. reflexivity. Qed.
  Lemma tiny_run : ok_that (fun s => is_ub OobWrite (process env0 1000 s op_union even_odd)) (add_all clipper0 ps_tiny) = true.
  Proof. vm_compute. reflexivity. Qed.
  Lemma cut_run : ok_that (fun s => ok_that (fun bs => negb (Nat.eqb (length bs) 0)) (find_breaks env0 (verts s) (starts s))) (add_all clipper0 ps_cut) = true.
  Proof. vm_compute. reflexivity. Qed.
End Cases.
Lemma env0_members : forall l x, In x (en_order env0 l) -> In x l.
Proof. auto. Qed.
Lemma ps_null_drawable : drawable_paths ps_null.
Proof. repeat constructor. Qed.
Lemma ps_tiny_drawable : drawable_paths ps_tiny.
Proof. repeat constructor. Qed.
Lemma null_case (lm : libm) : let N := B64 lm in
  (forall l x, In x (en_order env0 l) -> In x l) /\ drawable_paths ps_null /\
  exists s, add_all clipper0 ps_null = Ok s /\ process env0 1000 s op_difference even_odd = UB NullDeref.
Proof.
  intros N. split; [exact env0_members|]. split; [exact ps_null_drawable|]. destruct (ok_that_ok _ _ (null_run lm)) as (s & E & H).
  exists s. split; [exact E|]. apply is_ub_ok. exact H.
Qed.
Lemma tiny_case (lm : libm) : let N := B64 lm in
  drawable_paths ps_tiny /\ exists s, add_all clipper0 ps_tiny = Ok s /\ process env0 1000 s op_union even_odd = UB OobWrite.
Proof.
  intros N. split; [exact ps_tiny_drawable|]. destruct (ok_that_ok _ _ (tiny_run lm)) as (s & E & H).
  exists s. split; [exact E|]. apply is_ub_ok. exact H.
Qed.
Lemma cut_case (lm : libm) : let N := B64 lm in
  drawable_paths ps_cut /\ exists s bs, add_all clipper0 ps_cut = Ok s /\ find_breaks env0 (verts s) (starts s) = Ok bs /\ bs <> [].
Proof.
  intros N. split; [repeat constructor|]. destruct (ok_that_ok _ _ (cut_run lm)) as (s & E & H). apply ok_that_ok in H as (bs & F & H).
  exists s, bs. split; [exact E|]. split; [exact F|]. intros ->. discriminate H.
Qed.
Lemma squares_safe_case : let ps := [(subject, [[sqR 0]]); (clip, [[sqR 2]])] in
  Forall polygon (all_outlines ps) /\ (forall l, Permutation (en_order env0 l) l) /\ (forall i j, en_addr env0 i = en_addr env0 j -> i = j) /\
  exists s, add_all clipper0 ps = Ok s.
Proof. intros ps. destruct squares_case as (A & B & D). split; [exact A|]. split; [exact B|]. split; [|exact D]. intros i j. apply Nat2Z.inj. Qed.
