(** The conditions of BoxZ.v hold. *)
From Coq Require Import Bool List.
From Verif Require Import BoxZ.
Import ListNotations.

Lemma boxes_from : forallb (fun fs => forallb (fun k => forallb (pairs_ok fs k) [0; 1; 2; 3]) [0; 1; 2; 3]) [true; false] = true.
Proof. vm_compute. reflexivity. Qed.
