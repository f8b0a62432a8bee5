(** Structures processed more than once: concrete runs. *)
From Coq Require Import ZArith Bool List Floats.SpecFloat.
From Verif Require Import Outcome Num Rmath VState Dcel DcelSpec DcelCases DcelCaseProofs DcelAgainSpec DcelAgain.
Import ListNotations.

(** the structure that a life ends with *)
Definition ended (o : outcome (dcel spec_float)) : dcel spec_float := match o with Ok d => d | _ => dcel0 end.
Lemma more_lines_lemma : let N := B64 lm_angle in exists d,
  life en_plain dcel0 [UCall (zline 0 0 4 4); UProcess] = Ok d /\
  life en_plain d [UCall (zline 0 4 4 0); UProcess] = UB Dangling.
Proof.
  intros N. exists (ended (life en_plain dcel0 [UCall (zline 0 0 4 4); UProcess])). split; [vm_compute; reflexivity|vm_compute; reflexivity].
Qed.
Lemma process_twice_lemma : let N := B64 lm_angle in exists d,
  life en_plain dcel0 [UCall (zline 0 0 4 4); UCall (zline 4 4 0 4); UProcess] = Ok d /\ dcel_process en_plain d = UB Dangling.
Proof.
  intros N. exists (ended (life en_plain dcel0 [UCall (zline 0 0 4 4); UCall (zline 4 4 0 4); UProcess])). split; [vm_compute; reflexivity|vm_compute; reflexivity].
Qed.
Lemma doubled_case : let N := B64 lm_angle in exists d d',
  life en_plain dcel0 [UCall (zline 0 0 4 4); UProcess; UCall (zline 5 0 9 0)] = Ok d /\
  dcel_process en_plain d = Ok d' /\ length (d_edges d) = 3 /\ length (d_edges d') = 6.
Proof.
  intros N. set (d := ended (life en_plain dcel0 [UCall (zline 0 0 4 4); UProcess; UCall (zline 5 0 9 0)])).
  exists d, (ended (dcel_process en_plain d)). split; [vm_compute; reflexivity|]. split; [vm_compute; reflexivity|]. split; vm_compute; reflexivity.
Qed.
