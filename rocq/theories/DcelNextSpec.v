(** Which two points a half edge joins (C61). *)
From Coq Require Import List Reals.
From Verif Require Import Num Rmath LineSpec VState.
Import ListNotations.

Section Next.
  Context (ls : list (path_type * (vec2 R * vec2 R))).
  (** An end of a line, or a common point of two lines that are not parallel *)
  Definition node (p : vec2 R) : Prop :=
    (exists t a b, In (t, (a, b)) ls /\ (p = a \/ p = b)) \/
    exists t a b t' a' b', In (t, (a, b)) ls /\ In (t', (a', b')) ls /\ ~ parallel a b a' b' /\ on_segment p a b /\ on_segment p a' b'.
  (** Two different nodes on one line with no other node between them *)
  Definition neighbours (a b : vec2 R) : Prop :=
    a <> b /\ node a /\ node b /\ (exists t s q, In (t, (s, q)) ls /\ on_segment a s q /\ on_segment b s q) /\
    forall p, node p -> on_segment p a b -> p = a \/ p = b.
End Next.
(** The same lines but for their order, their direction and their type *)
Definition same_lines (ls ls' : list (path_type * (vec2 R * vec2 R))) : Prop :=
  forall a b, (exists t, In (t, (a, b)) ls \/ In (t, (b, a)) ls) <-> (exists t, In (t, (a, b)) ls' \/ In (t, (b, a)) ls').
