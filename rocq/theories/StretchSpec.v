(** Axis-parallel polygons whose coordinates are moved without changing their order. *)
From Coq Require Import ZArith Bool List Reals.
From Verif Require Import Outcome Num Rmath Segment Path PathSpec VState VPath VBreak VAel VOut VMain RingSpec BreakSpec LineSpec EquiSpec.
Import ListNotations.

(** A strictly increasing map of the reals that leaves the sentinels +-DBL_MAX *)
Definition stretch (f : R -> R) : Prop := (forall a b, (a < b)%R -> (f a < f b)%R) /\ f R_huge = R_huge /\ f (- R_huge)%R = (- R_huge)%R.

Section Moved.
  Variables fx fy : R -> R.
  Definition moved (p : vec2 R) : vec2 R := V2 (fx (vx p)) (fy (vy p)).
  (** The outlines with every point moved *)
  Definition moved_pcall (c : pcall R) : pcall R :=
    match c with PMove p => PMove (moved p) | PLine p => PLine (moved p) | PCubic a b p => PCubic (moved a) (moved b) (moved p) end.
  Definition moved_outline (o : outline (T := R)) : outline (T := R) := (moved (fst o), map moved_pcall (snd o)).
  Definition moved_paths (ps : list (path_type * list (list (outline (T := R))))) : list (path_type * list (list (outline (T := R)))) :=
    map (fun x => (fst x, map (map moved_outline) (snd x))) ps.
  (** The output with every point moved.  The source of a move is not used. *)
  Definition moved_call (c : call (T := R)) : call (T := R) :=
    match c with
    | MoveTo a t => MoveTo a (moved t)
    | LineTo a b => LineTo (moved a) (moved b)
    | CubicTo a b c d => CubicTo (moved a) (moved b) (moved c) (moved d)
    end.
  (** The second run ends as the first does, with its output moved. *)
  Definition same_run (o o' : outcome (clipper R * list (call (T := R)))) : Prop :=
    match o, o' with
    | Ok (_, l), Ok (_, l') => l' = map moved_call l
    | UB w, UB w' => w' = w
    | NoFuel, NoFuel => True
    | Throw, Throw => True
    | _, _ => False
    end.
End Moved.

(** Conditions on a loaded processor: all edges parallel to an axis, no two of
    them on one line, and *)
Definition everything (s : clipper R) : list nat := seq 0 (length (verts s)).
Definition right_angled (s : clipper R) : Prop := axial (verts s) (everything s) /\ unaligned (verts s) (everything s).
(** no edge met by another one within a millionth of its length from its ends. *)
Definition well_met (s : clipper R) : Prop := spread (verts s) (everything s).
