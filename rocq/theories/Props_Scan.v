(** C20: the scan line. *)
From Coq Require Import ZArith Bool List Permutation Floats.SpecFloat.
From Verif Require Import Num Order Rmath RectSpec ScanLine ScanProofs.
Import ListNotations.

(** [order] is the iteration order of the set of active segments, which depends
    on their addresses.  No pair is reported twice, nor in both orders; a pair is
    reported iff it consists of two different segments whose boxes share a point. *)
Theorem C20_each_pair_once :
  forall (T : Type) (N : Num T) (O : OrdNum T) (order : list nat -> list nat) (boxes : list (rect T)),
    (forall l, Permutation (order l) l) -> Forall rect_wf boxes ->
    let calls := scan_process order (scan_of boxes) in
    NoDup calls /\ (forall i j, In (i, j) calls -> ~ In (j, i) calls) /\
    forall i j, (In (i, j) calls \/ In (j, i) calls) <->
      i <> j /\ exists a b p, nth_error boxes i = Some a /\ nth_error boxes j = Some b /\
        vvalid p /\ inbox a p /\ inbox b p.
Proof. exact (@C20_lemma). Qed.
Print Assumptions C20_each_pair_once.
(** Four boxes in binary64: two that touch at an edge, one that starts where
    another ends, one apart. *)
Example C20_case (lm : libm) : let N := B64 lm in
  let d (z : Z) : b64 := SFofZ z in
  let box a b c e := Rect (V2 (d a) (d b)) (V2 (d c) (d e)) in
  let bs := [box 0 0 2 2; box 2 1 5 9; box 1 7 3 8; box 20 0 21 1]%Z in
  Forall rect_wf bs /\ scan_process (@rev nat) (scan_of bs) = [(0, 1); (2, 1)].
Proof. split; [repeat constructor; vm_compute; discriminate|]. vm_compute. reflexivity. Qed.
