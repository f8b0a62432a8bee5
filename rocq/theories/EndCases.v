(** Witnesses for C29. *)
From Coq Require Import ZArith Bool List Floats.SpecFloat.
From Verif Require Import Outcome Num Rmath Segment Path VState VPath VBreak VAel VOut VMain ClipSpec VFuel ClipCases RunCases FuelCases.
Import ListNotations.

Lemma process_answer (T : Type) (N : Num T) en n m (s : clipper T) op fill r :
  n <= m -> r <> NoFuel -> process en n s op fill = r -> process en m s op fill = r.
Proof.
  intros L R H. destruct (process_le en n m s op fill L) as [E|E]; congruence.
Qed.

Section Case.
  Variable lm : libm.
  Let N := B64 lm.
  Existing Instance N.
  Definition s31 := get clipper0 (load lm [box 0 0 4 4] [box 2 2 6 6]).
  Definition r31 := get (clipper0, []) (process env0 100 s31 op_intersection positive).
  Lemma s31_ok : load lm [box 0 0 4 4] [box 2 2 6 6] = Ok s31.
  Proof. vm_compute. reflexivity. Qed.
  Lemma r31_ok : process env0 100 s31 op_intersection positive = Ok r31.
  Proof. vm_compute. reflexivity. Qed.
  Lemma r31_some : (match snd r31 with [] => true | _ => false end) = false.
  Proof. vm_compute. reflexivity. Qed.
  Lemma r31_ne : snd r31 <> [].
  Proof. intros E. pose proof r31_some as H. rewrite E in H. discriminate H. Qed.
End Case.
Lemma C29_case_lemma (lm : libm) : let N := B64 lm in
  exists s r, load lm [box 0 0 4 4] [box 2 2 6 6] = Ok s /\ process env0 100 s op_intersection positive = Ok r /\ snd r <> [].
Proof. intros N. exists (s31 lm), (r31 lm). exact (conj (s31_ok lm) (conj (r31_ok lm) (r31_ne lm))). Qed.
