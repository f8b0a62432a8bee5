(** A processor used three times. *)
From Coq Require Import ZArith Bool List Floats.SpecFloat.
From Verif Require Import Outcome Num Rmath Segment Path VState VPath VBreak VAel VOut VMain ClipSpec ClipCases ClipRefuted.
Import ListNotations.
Local Open Scope Z_scope.

Lemma loaded_history {T} {N : Num T} (s : clipper T) : loaded s -> history clipper0 s.
Proof. induction 1; [apply history_none|eapply history_add; eauto]. Qed.

Section Repeat.
  Variable lm : libm.
  Let N := B64 lm.
  Existing Instance N.
  (** After the intersection of two squares another one is added. *)
  Definition a34 := get clipper0 (add_paths (fst (r34 lm)) [poly_path (box 20 20 30 30)] subject).
  Definition u34 := get (clipper0, []) (process env0 1000 a34 op_union positive).
  Definition n34 := get (clipper0, []) (process env0 1000 a34 op_none positive).
  Lemma a34_ok : add_paths (fst (r34 lm)) [poly_path (box 20 20 30 30)] subject = Ok a34.
  Proof. vm_compute. reflexivity. Qed.
  Lemma u34_ok : process env0 1000 a34 op_union positive = Ok (fst u34, snd u34).
  Proof. vm_compute. reflexivity. Qed.
  Lemma n34_ok : process env0 1000 a34 op_none positive = Ok (fst n34, snd n34).
  Proof. vm_compute. reflexivity. Qed.
  Lemma u34_new : (length (snd (r34 lm)) < length (snd u34))%nat.
  Proof. vm_compute. repeat constructor. Qed.
  Lemma s34_history : history clipper0 (s34 lm).
  Proof. apply loaded_history. exact (load_loaded _ _ _ _ (s34_ok lm)). Qed.
  Lemma a34_additions : additions (fst (r34 lm)) a34.
  Proof. eapply additions_add; [apply additions_none|exact a34_ok]. Qed.
  Lemma a34_history : history (fst (r34 lm)) a34.
  Proof. eapply history_add; [apply history_none|exact a34_ok]. Qed.
End Repeat.

Lemma C34_prefix_case_lemma : forall lm : libm, let N := B64 lm in
  exists s s1 l1 s2 s3 l2, history clipper0 s /\
    process env0 1000 s op_intersection positive = Ok (s1, l1) /\ history s1 s2 /\
    process env0 1000 s2 op_union positive = Ok (s3, l2) /\ l1 <> [] /\ (length l1 < length l2)%nat.
Proof.
  intros lm N. exists (s34 lm), (fst (r34 lm)), (snd (r34 lm)), (a34 lm), (fst (u34 lm)), (snd (u34 lm)).
  exact (conj (s34_history lm) (conj (r34_ok lm) (conj (a34_history lm) (conj (u34_ok lm) (conj (r34_some lm) (u34_new lm)))))).
Qed.
Lemma C34_none_case_lemma : forall lm : libm, let N := B64 lm in
  exists s s1 l1 s2 s3 l2, history clipper0 s /\
    process env0 1000 s op_intersection positive = Ok (s1, l1) /\ additions s1 s2 /\ s2 <> s1 /\
    process env0 1000 s2 op_none positive = Ok (s3, l2) /\ l1 <> [].
Proof.
  intros lm N. exists (s34 lm), (fst (r34 lm)), (snd (r34 lm)), (a34 lm), (fst (n34 lm)), (snd (n34 lm)).
  refine (conj (s34_history lm) (conj (r34_ok lm) (conj (a34_additions lm) (conj _ (conj (n34_ok lm) (r34_some lm)))))).
  intros E. apply (f_equal (fun s => length (minima s))) in E. revert E. vm_compute. discriminate.
Qed.
