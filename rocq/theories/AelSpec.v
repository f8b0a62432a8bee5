(** What the active edge list is: a doubly linked list through [prev_in_ael] and
    [next_in_ael], starting at [ael_first]. *)
From Coq Require Import ZArith Bool List Permutation.
From Verif Require Import Outcome Num Rmath Segment VState VAel VOut.
Import ListNotations.

(** the first element of [l], or [n] *)
Definition hd_or {A} (l : list A) (n : option A) : option A :=
  match l with [] => n | j :: _ => Some j end.
(** the last element of [l], or [p] *)
Fixpoint last_or {A} (p : option A) (l : list A) : option A :=
  match l with [] => p | i :: r => last_or (Some i) r end.

Section AelSpec.
  Context {T : Type}.
  Implicit Types s : clipper T.

  (** The edges [l] are linked to each other, to [p] before and [n] behind. *)
  Fixpoint lseg (es : list (edge T)) (p : option nat) (l : list nat) (n : option nat) : Prop :=
    match l with
    | [] => True
    | i :: r =>
      exists e, nth_error es i = Some e /\ e_prev e = p /\ e_next e = hd_or r n /\ lseg es (Some i) r n
    end.
  (** The active edges of [s] are [l] from left to right. *)
  Definition active s (l : list nat) : Prop :=
    ael s = hd_or l None /\ lseg (edges s) None l None /\ NoDup l.

  (** Edge by edge. *)
  Definition erel (R : edge T -> edge T -> Prop) (es fs : list (edge T)) : Prop :=
    length fs = length es /\
    forall i e, nth_error es i = Some e -> exists f, nth_error fs i = Some f /\ R e f.
  (** Two edges differ at most in their list links, *)
  Definition same_edge (e f : edge T) : Prop :=
    f = Edge (e_bot e) (e_top e) (e_x e) (e_dx e) (e_cnt e) (e_cnt2 e) (e_prev f) (e_next f)
          (e_bound e) (e_vtop e) (e_lmin e).
  (** in the links and the output bound, *)
  Definition same_but_links (e f : edge T) : Prop :=
    f = Edge (e_bot e) (e_top e) (e_x e) (e_dx e) (e_cnt e) (e_cnt2 e) (e_prev f) (e_next f)
          (e_bound f) (e_vtop e) (e_lmin e).
  (** in the output bound, *)
  Definition same_but_bound (e f : edge T) : Prop := f = set_ebound (e_bound f) e.
  (** in the counts and the output bound. *)
  Definition same_but_count (e f : edge T) : Prop :=
    f = set_ecnt (e_cnt f) (e_cnt2 f) (set_ebound (e_bound f) e).
  Definition same_edges := erel same_edge.

  (** Everything but the list is untouched. *)
  Definition only_links s s' : Prop :=
    same_edges (edges s) (edges s') /\ s' = w_ael (w_edges s (edges s')) (ael s').

  (** The edges [l] are in order of their x. *)
  Definition ordered {N : Num T} (es : list (edge T)) (l : list nat) : Prop :=
    ForallOrdPairs (fun i j => forall e f, nth_error es i = Some e -> nth_error es j = Some f ->
      n_leb (e_x e) (e_x f) = true) l.
  (** Their x are ordinary numbers (not NaN). *)
  Definition xvalid {N : Num T} {O : OrdNum T} (es : list (edge T)) (l : list nat) : Prop :=
    forall i e, In i l -> nth_error es i = Some e -> nvalid (e_x e).
End AelSpec.

(** [a] arises from [b] by leaving out elements. *)
Inductive subseq {A} : list A -> list A -> Prop :=
| sub_nil : subseq [] []
| sub_skip x a b : subseq a b -> subseq a (x :: b)
| sub_keep x a b : subseq a b -> subseq (x :: a) (x :: b).

(** *** Histories of list operations *)
Section History.
  Context {T : Type} {N : Num T}.
  Inductive ael_op := OpInsert (i : nat) | OpTake (i : nat) | OpDelete (i : nat) | OpResort.
  Definition ael_step (s : clipper T) (o : ael_op) : outcome (clipper T) :=
    match o with
    | OpInsert i => insert_into_ael s i
    | OpTake i => take_from_ael s i
    | OpDelete i => bind (delete_active_edge s i) (fun r => Ok (snd r))
    | OpResort => resort_ael s
    end.
  Fixpoint ael_run (s : clipper T) (l : list ael_op) : outcome (clipper T) :=
    match l with
    | [] => Ok s
    | o :: r => bind (ael_step s o) (fun s => ael_run s r)
    end.
  (** the members after a history; inserting a member or removing a stranger is
      not allowed *)
  Inductive members : list nat -> list ael_op -> list nat -> Prop :=
  | mem_nil l : members l [] l
  | mem_insert i l r l' : ~ In i l -> members (i :: l) r l' -> members l (OpInsert i :: r) l'
  | mem_take i a b r l' : members (a ++ b) r l' -> members (a ++ i :: b) (OpTake i :: r) l'
  | mem_delete i a b r l' : members (a ++ b) r l' -> members (a ++ i :: b) (OpDelete i :: r) l'
  | mem_resort l r l' : members l r l' -> members l (OpResort :: r) l'
  | mem_perm l m r l' : Permutation l m -> members m r l' -> members l r l'.
End History.
