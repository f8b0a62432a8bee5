(** Half-edge structures whose lines are moved and scaled. *)
From Coq Require Import ZArith Bool List Reals.
From Verif Require Import Outcome Num Rmath Dcel DcelAgainSpec BoxSpec LineSpec StretchSpec AffineSpec.
Import ListNotations.

Section Moved.
  (** one scale, and a shift in each direction *)
  Variables k b d : R.
  Definition there : vec2 R -> vec2 R := moved (affine k b) (affine k d).
  Definition moved_use (u : use R) : use R :=
    match u with
    | UCall (DLine x1 y1 x2 y2) => UCall (DLine (affine k b x1) (affine k d y1) (affine k b x2) (affine k d y2))
    | UCall (DType t) => UCall (DType t)
    | UProcess => UProcess
    end.
  (** The structure with all points elsewhere and everything else the same *)
  Definition moved_dpoint (p : point R) : point R := Point (there (p_at p)) (p_edges p).
  Definition moved_half (h : half R) : half R := Half (h_start h) (h_end h) (h_twin h) (h_face h) (h_next h) (h_prev h) (h_type h) (map there (h_breaks h)).
  Definition moved_dcel (s : dcel R) : dcel R :=
    Dcel (map moved_dpoint (d_points s)) (d_pset s) (map (option_map moved_half) (d_halves s)) (d_edges s) (d_fpool s) (d_faces s) (d_type s).
  (** Both runs end in the same way. *)
  Definition same_life (o o' : outcome (dcel R)) : Prop :=
    match o, o' with
    | Ok s, Ok s' => s' = moved_dcel s
    | UB w, UB w' => w' = w
    | NoFuel, NoFuel => True
    | Throw, Throw => True
    | _, _ => False
    end.
End Moved.
(** The lines given lie within the range of double. *)
Definition use_fin (u : use R) : Prop :=
  match u with UCall (DLine x1 y1 x2 y2) => fin (V2 x1 y1) /\ fin (V2 x2 y2) | _ => True end.
