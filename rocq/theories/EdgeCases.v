(** The case for C64. *)
From Coq Require Import ZArith List.
From Verif Require Import Outcome Num VState VPath VBreak VOut VMain VFuel ClipCases RunCases FuelCases EndCases.
Import ListNotations.

Lemma r31_count (lm : libm) : (length (edges (s31 lm)), length (bounds (s31 lm)), length (polys (s31 lm))) = (0, 0, 0) /\ length (minima (s31 lm)) = 2 /\
  cur (fst (r31 lm)) = 2 /\ (length (edges (fst (r31 lm))), length (bounds (fst (r31 lm))), length (polys (fst (r31 lm)))) = (4, 2, 1).
Proof. vm_compute. auto. Qed.
Lemma C64_case (lm : libm) : let N := B64 lm in
  exists s s' out, load lm [box 0%Z 0%Z 4%Z 4%Z] [box 2%Z 2%Z 6%Z 6%Z] = Ok s /\ process env0 100 s op_intersection positive = Ok (s', out) /\
    (length (edges s), length (bounds s), length (polys s)) = (0, 0, 0) /\ length (minima s) = 2 /\
    cur s' = 2 /\ (length (edges s'), length (bounds s'), length (polys s')) = (4, 2, 1).
Proof.
  intros N. exists (s31 lm), (fst (r31 lm)), (snd (r31 lm)). split; [exact (s31_ok lm)|]. split; [rewrite <- surjective_pairing; exact (r31_ok lm)|]. exact (r31_count lm).
Qed.
