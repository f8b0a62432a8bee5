(** One processor for several runs. *)
From Coq Require Import Bool List.
From Verif Require Import Outcome Num Rmath Segment VState VPath VBreak VAel VOut VMain Order.
Import ListNotations.
Local Open Scope out.

Section ReuseSpec.
  Context {T : Type} {N : Num T} {O : OrdNum T}.
  (** The runs of one processor, one after the other, and what each of them writes *)
  Fixpoint uses (en : env) (n : nat) (s : clipper T) (js : list (clip_type * fill_rule)) : outcome (list (list (call (T := T)))) :=
    match js with
    | [] => Ok []
    | (op, fill) :: r => do x <- process en n s op fill ;; do y <- uses en n (fst x) r ;; Ok (snd x :: y)
    end.
  (** Each list with all the lists before it in front *)
  Fixpoint totals {A} (acc : list A) (ls : list (list A)) : list (list A) :=
    match ls with
    | [] => []
    | l :: r => (acc ++ l) :: totals (acc ++ l) r
    end.
  (** The local minima are at proper places: no coordinate is NaN. *)
  Definition minima_valid (s : clipper T) : Prop :=
    forall m, In m (minima s) -> exists x v, nth_error (lmins s) m = Some x /\ nth_error (verts s) (lm_vert x) = Some v /\ nvalid (vx (v_pt v)) /\ nvalid (vy (v_pt v)).
  (** Once broken, the contours have no more crossings to be broken at. *)
  Definition quiet (en : env) (s : clipper T) : Prop :=
    forall b, process_intersect en s = Ok b -> find_breaks en (verts b) (starts b) = Ok [].
End ReuseSpec.
