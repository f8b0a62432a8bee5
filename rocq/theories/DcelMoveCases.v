(** Moved lines: concrete runs. *)
From Coq Require Import ZArith Bool List Reals Lra Permutation Floats.SpecFloat.
From Verif Require Import Outcome Num Rmath RTac LineSpec LineR VState Dcel DcelSpec DcelCases DcelCaseProofs DcelStatements DcelLaySpec DcelLayCases DcelAgainSpec DcelAgainCases StretchSpec AffineSpec DcelMoveSpec.
Import ListNotations.

(** Two lines across each other, then [process] *)
Definition cross_life : list (use R) := map UCall cross_R ++ [UProcess].
Lemma life_calls {T} {N : Num T} en l r (d : dcel T) : life en d (map UCall l ++ r) = (do d <- dcalls_run d l ;; life en d r)%out.
Proof. revert d. induction l as [|c l IH]; intros d; cbn; auto. destruct (dcall_run d c); cbn; auto. Qed.
Lemma cross_life_case : (forall l : list nat, Permutation (de_order en_plain l) l) /\ Forall use_fin cross_life /\ Forall use_fin (map (moved_use 3 1 (-2)) cross_life) /\
  exists s, life en_plain dcel0 cross_life = Ok s /\ exists q, In q (d_points s) /\ p_at q = V2 2%R 2%R.
Proof.
  pose proof R_huge_big as H. split; [intros; reflexivity|]. split; [|split].
  - unfold cross_life, cross_R. cbn. repeat (apply Forall_cons || apply Forall_nil); cbn; unfold fin; cbn; auto; lra.
  - unfold cross_life, cross_R. cbn. repeat (apply Forall_cons || apply Forall_nil); cbn; unfold fin, affine; cbn; auto; lra.
  - destruct cross_R_case as (d & d' & A & B & C & _). exists d'. split; [|exact C]. unfold cross_life. rewrite life_calls, A. cbn [bind life use_run]. now rewrite B.
Qed.

(** The diagonals of a square of side 1, and of the same square 2^52 further to the right and upwards *)
Definition diagonals (x : Z) : list (use spec_float) := [UCall (zline x x (x + 1) (x + 1)); UCall (zline x (x + 1) (x + 1) x); UProcess]%Z.
Lemma far_lemma : let N := B64 lm_angle in exists s s',
  life en_plain dcel0 (diagonals 0) = Ok s /\ life en_plain dcel0 (diagonals (2 ^ 52)) = Ok s' /\ length (d_points s) = 5 /\ length (d_points s') = 4.
Proof.
  intros N. exists (ended (life en_plain dcel0 (diagonals 0))), (ended (life en_plain dcel0 (diagonals (2 ^ 52)))).
  split; [vm_compute; reflexivity|]. split; [vm_compute; reflexivity|]. split; vm_compute; reflexivity.
Qed.
