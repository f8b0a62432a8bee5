(** What the machine decides: the order in which a set of pointers is run through,
    and the addresses of the vertices. *)
From Coq Require Import ZArith Bool List Permutation.
From Verif Require Import Outcome Num VState VBreak VOut VMain.
Import ListNotations.

(** A set is run through completely; different vertices have different addresses. *)
Definition lawful (en : env) : Prop :=
  (forall l, Permutation (en_order en l) l) /\ forall i j, en_addr en i = en_addr en j -> i = j.
(** The same calls, or the same failure *)
Definition same_answer {A B} (o o' : outcome (A * B)) : Prop :=
  match o, o' with
  | Ok (_, l), Ok (_, l') => l = l'
  | UB w, UB w' => w = w'
  | NoFuel, NoFuel | Throw, Throw => True
  | _, _ => False
  end.
(** Two records of one segment with equal parameters are the same. *)
Definition told_once {T} {N : Num T} (bs : list (break_info T)) : Prop :=
  forall b c, In b bs -> In c bs -> br_vert b = br_vert c -> n_eqb (br_t b) (br_t c) = true -> b = c.
