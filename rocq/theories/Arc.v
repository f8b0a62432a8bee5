(** Model of [arc] (src/include/rmath.h:119-144, src/src/rmath.cpp:249-299).
    [arc_split_y] (rmath.cpp:301-393) is not modelled: its constructor fills a
    local vector that is discarded and [split_y] is empty. *)
From Coq Require Import ZArith Bool List.
From Verif Require Import Outcome Num Rmath.
Local Open Scope num_scope.

(** rmath.h:140-143: data members *)
Record arc (T : Type) := Arc {
  a_start : vec2 T; a_end : vec2 T; a_center : vec2 T;
  a_sweep : T; a_start_rad : T; a_end_rad : T; a_radius : T }.
Arguments Arc {T}.
Arguments a_start {T}.
Arguments a_end {T}.
Arguments a_center {T}.
Arguments a_sweep {T}.
Arguments a_start_rad {T}.
Arguments a_end_rad {T}.
Arguments a_radius {T}.

Section Arc.
  Context {T : Type} {N : Num T}.

  (** rmath.cpp:249-263 *)
  Definition make_arc (start center : vec2 T) (sweep : T) : arc T :=
    let tmp := vsub start center in
    let radius := vdist tmp in
    let start_rad := clamp_0_2pi (n_atan2 (vy tmp) (vx tmp)) in
    let end_rad := start_rad + sweep in
    let p1 := V2 (n_cos end_rad) (n_sin end_rad) in
    let p1 := vadd center (vmul p1 radius) in
    Arc start p1 center sweep start_rad (clamp_0_2pi (n_atan2 (vy p1) (vx p1))) radius.

  (** rmath.cpp:293-299 *)
  Definition arc_reverse (a : arc T) : arc T :=
    Arc (a_end a) (a_start a) (a_center a) (a_sweep a) (a_end_rad a) (a_start_rad a) (a_radius a).
End Arc.
