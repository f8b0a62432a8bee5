(** The subject and the clipping polygons exchanged. *)
From Coq Require Import List.
From Verif Require Import Num Rmath Path PathSpec VState RingSpec BreakSpec.
Import ListNotations.

Definition other (t : path_type) : path_type := match t with subject => clip | clip => subject end.
Definition swapped {T} (ps : list (path_type * list (list (outline (T := T))))) : list (path_type * list (list (outline (T := T)))) :=
  map (fun x => (other (fst x), snd x)) ps.
(** Operations that mean the same with their two operands exchanged *)
Definition symmetric (op : clip_type) : Prop := op <> op_difference.
