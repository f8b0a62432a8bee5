(** C57: a half-edge structure that is processed more than once. *)
From Coq Require Import ZArith Bool List Floats.SpecFloat.
From Verif Require Import Outcome Num Rmath VState Dcel DcelSpec DcelCases DcelAgainSpec DcelAgain DcelAgainCases.
Import ListNotations.

(** C57: after any calls, [process] among them as often as one likes, each
    answered: the set of half edges and the lists of the points are right.
    Missing: that the calls are answered, see below. *)
Theorem C57_partial :
  forall (T : Type) (N : Num T) (en : denv) (l : list (use T)) (d : dcel T),
    life en dcel0 l = Ok d -> registered d /\ stars d /\ all_in_set d.
Proof. exact @life_rest. Qed.
Print Assumptions C57_partial.
(** C57: a [process] that is answered leaves every half edge a twin, and at least
    twice as many half edges as it found, those with twins included. *)
Theorem C57_doubled :
  forall (T : Type) (N : Num T) (en : denv) (l : list (use T)) (d d' : dcel T),
    life en dcel0 l = Ok d -> dcel_process en d = Ok d' ->
    registered d' /\ stars d' /\ all_in_set d' /\ twinned d' /\ 2 * length (d_edges d) <= length (d_edges d').
Proof. exact @life_doubled. Qed.
Print Assumptions C57_doubled.
(** One line, [process], another line elsewhere: the second [process] finds three
    half edges and leaves six. *)
Example C57_case : let N := B64 lm_angle in exists d d',
  life en_plain dcel0 [UCall (zline 0 0 4 4); UProcess; UCall (zline 5 0 9 0)] = Ok d /\
  dcel_process en_plain d = Ok d' /\ length (d_edges d) = 3 /\ length (d_edges d') = 6.
Proof. exact doubled_case. Qed.
(** C57 is false when a line given after [process] crosses an earlier one: the
    second [process] reads half edges that it has deleted. *)
Theorem C57_refuted : let N := B64 lm_angle in exists d,
  life en_plain dcel0 [UCall (zline 0 0 4 4); UProcess] = Ok d /\
  life en_plain d [UCall (zline 0 4 4 0); UProcess] = UB Dangling.
Proof. exact more_lines_lemma. Qed.
Print Assumptions C57_refuted.
(** So it does without a new line, after two lines with a common end. *)
Theorem C57_twice_refuted : let N := B64 lm_angle in exists d,
  life en_plain dcel0 [UCall (zline 0 0 4 4); UCall (zline 4 4 0 4); UProcess] = Ok d /\ dcel_process en_plain d = UB Dangling.
Proof. exact process_twice_lemma. Qed.
Print Assumptions C57_twice_refuted.
