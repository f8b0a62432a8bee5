(** Outcomes of modelled C++ functions.  Undefined behaviour, an exhausted
    loop bound and a thrown exception are kept apart from ordinary results. *)
From Coq Require Import List.
Import ListNotations.

(** What kind of undefined behaviour the C++ code runs into. *)
Inductive ub :=
| OobRead        (* read past the end of an array / vector *)
| OobWrite       (* write past the end of a fixed-size array *)
| NullDeref      (* dereference of nullptr *)
| BackOfEmpty    (* std::vector::back() on an empty vector *)
| EndDeref       (* dereference of a container's end() iterator *)
| BadCast        (* pointer cast to a type the object does not have *)
| Dangling.      (* use of an object after delete *)

Inductive outcome (A : Type) :=
| Ok (a : A)
| UB (why : ub)
| NoFuel         (* the model's loop bound was exhausted *)
| Throw.         (* a C++ exception was thrown *)
Arguments Ok {A} _.
Arguments UB {A} _.
Arguments NoFuel {A}.
Arguments Throw {A}.

Definition bind {A B} (x : outcome A) (f : A -> outcome B) : outcome B :=
  match x with
  | Ok a => f a
  | UB w => UB w
  | NoFuel => NoFuel
  | Throw => Throw
  end.

Declare Scope outcome_scope.
Delimit Scope outcome_scope with out.
Notation "'do' x <- e ;; f" := (bind e (fun x => f))
  (at level 200, x pattern, e at level 100, f at level 200, right associativity)
  : outcome_scope.

Definition of_opt {A} (w : ub) (o : option A) : outcome A :=
  match o with Some a => Ok a | None => UB w end.

Lemma bind_ok {A B} (x : outcome A) (f : A -> outcome B) b :
  bind x f = Ok b -> exists a, x = Ok a /\ f a = Ok b.
Proof. destruct x; simpl; try discriminate; eauto. Qed.

Lemma of_opt_ok {A} w (o : option A) a : of_opt w o = Ok a -> o = Some a.
Proof. destruct o; simpl; congruence. Qed.

Lemma bind_assoc {A B C} (x : outcome A) (f : A -> outcome B) (g : B -> outcome C) :
  bind (bind x f) g = bind x (fun a => bind (f a) g).
Proof. destruct x; reflexivity. Qed.
