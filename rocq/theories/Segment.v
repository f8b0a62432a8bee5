(** Model of src/src/segment.h and segment.cpp. *)
From Coq Require Import ZArith Bool List.
From Verif Require Import Outcome Num Rmath.
Import ListNotations.
Local Open Scope num_scope.

(** segment.h:38-40, 58-60, 80-84, 111-115: the subclasses of [segment] with
    their data members.  Objects are modelled by value; [copy] and [deep_copy]
    are therefore the identity. *)
Inductive seg (T : Type) :=
| SMove (target : vec2 T)
| SLine (target : vec2 T)
| SArc (target center : vec2 T) (longarc : bool)
| SCubic (ctrl1 ctrl2 target : vec2 T).
Arguments SMove {T} _.
Arguments SLine {T} _.
Arguments SArc {T} _ _ _.
Arguments SCubic {T} _ _ _.

(** segment.h:17-23 *)
Inductive seg_type := ST_moveto | ST_lineto | ST_arcto | ST_cubicto.

Section Segment.
  Context {T : Type} {N : Num T}.
  Notation vec := (vec2 T).

  (** segment.cpp:4, 13, 22, 31 [get_target] *)
  Definition seg_target (s : seg T) : vec :=
    match s with SMove t => t | SLine t => t | SArc t _ _ => t | SCubic _ _ t => t end.

  (** segment.cpp:8, 17, 26, 35 [get_type] *)
  Definition seg_kind (s : seg T) : seg_type :=
    match s with
    | SMove _ => ST_moveto | SLine _ => ST_lineto
    | SArc _ _ _ => ST_arcto | SCubic _ _ _ => ST_cubicto
    end.

  (** segment.h:119-121 [get_cubic] *)
  Definition cubic_from (from c1 c2 t : vec) : bezier T := Bez from c1 c2 t.

  (** segment.h:45, 65, 93, 124 [get_boundary(from)]; rect(point) is
      rmath.h:69 (min = max = the point) *)
  Definition seg_boundary (s : seg T) (from : vec) : rect T :=
    match s with
    | SMove t => Rect t t
    | SLine t => rect_from [t; from]
    | SArc t _ _ => rect_from [t; from]
    | SCubic c1 c2 t => get_boundary (cubic_from from c1 c2 t)
    end.

  (** segment.h:52, 72, 102, 133 [reverse(from)] *)
  Definition seg_reverse (s : seg T) (from : vec) : seg T :=
    match s with
    | SMove _ => SMove from
    | SLine _ => SLine from
    | SArc _ c l => SArc from c l
    | SCubic c1 c2 _ => SCubic c2 c1 from
    end.

  (** segment.h:76, 107; segment.cpp:48: abscissa on the chord *)
  Definition chord_x (from target : vec) (y : T) : T :=
    (vx target - vx from) * (y - vy from) / (vy target - vy from) + vx from.

  (** segment.h:55, 75, 105; segment.cpp:40-51 [curr_x(from, y)] *)
  Definition seg_curr_x (s : seg T) (from : vec) (y : T) : outcome T :=
    match s with
    | SMove t => Ok (vx t)
    | SLine t => Ok (chord_x from t y)
    | SArc t _ _ => Ok (chord_x from t y)
    | SCubic c1 c2 t =>
      (do ts <- point_at_y (cubic_from from c1 c2 t) y ;;
       match ts with
       | [t0] => Ok (vx (point_at (cubic_from from c1 c2 t) t0))
       | _ => Ok (chord_x from t y)
       end)%out
    end.
End Segment.
