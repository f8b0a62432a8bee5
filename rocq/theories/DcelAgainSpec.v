(** A half-edge structure used for longer: calls and [process] in any order. *)
From Coq Require Import List.
From Verif Require Import Outcome Num Dcel.
Import ListNotations.
Local Open Scope out.

Section Life.
  Context {T : Type} {N : Num T}.
  (** dcel.h:143-154: what a user of the class may call, [process] (decl.cpp:300-305) included. *)
  Inductive use := UCall (c : dcall T) | UProcess.
  Definition use_run (en : denv) (d : dcel T) (u : use) : outcome (dcel T) :=
    match u with UCall c => dcall_run d c | UProcess => dcel_process en d end.
  (** All of them one after another. *)
  Fixpoint life (en : denv) (d : dcel T) (l : list use) : outcome (dcel T) :=
    match l with [] => Ok d | u :: r => do d <- use_run en d u ;; life en d r end.
End Life.
Arguments use : clear implicits.
