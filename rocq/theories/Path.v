(** Model of struct path: src/include/river.h and src/src/path.cpp. *)
From Coq Require Import ZArith Bool List.
From Verif Require Import Outcome Num Rmath.
Import ListNotations.

(** segment.h:17-23 [enum class seg_type]; stored as char (path.cpp:15,25,37) *)
Definition ty_moveto : Z := 0.
Definition ty_lineto : Z := 1.
Definition ty_arcto : Z := 2.
Definition ty_cubicto : Z := 3.

(** river.h:45-48: the two vectors of struct path *)
Record path (T : Type) := Path { p_data : list T; p_types : list Z }.
Arguments Path {T} _ _.
Arguments p_data {T} _.
Arguments p_types {T} _.

(** river.h:30-36 [path_traverse_funcs].  A callback gets the points and the
    user state; it may itself fail.  arc_to is never called by traverse
    (path.cpp:58, 85-90), so it has no field here. *)
Record funcs (T S : Type) := Funcs {
  f_move : option (vec2 T -> vec2 T -> S -> outcome S);
  f_line : option (vec2 T -> vec2 T -> S -> outcome S);
  f_cubic : option (vec2 T -> vec2 T -> vec2 T -> vec2 T -> S -> outcome S)
}.
Arguments Funcs {T S} _ _ _.
Arguments f_move {T S} _.
Arguments f_line {T S} _.
Arguments f_cubic {T S} _.

Section Path.
  Context {T : Type} {N : Num T}.

  (** river.h:50 [path()] *)
  Definition path_empty : path T := Path [] [].

  (** path.cpp:5-8: move constructor; result is (new path, moved-from path) *)
  Definition path_move (l : path T) : path T * path T :=
    (Path (p_data l) (p_types l), Path [] []).

  (** path.cpp:14-18 (and 10-12) *)
  Definition moveto (p : path T) (x y : T) : path T :=
    Path ((p_data p ++ [x]) ++ [y]) (p_types p ++ [ty_moveto]).

  (** path.cpp:24-28 (and 20-22) *)
  Definition lineto (p : path T) (x y : T) : path T :=
    Path ((p_data p ++ [x]) ++ [y]) (p_types p ++ [ty_lineto]).

  (** path.cpp:36-44 *)
  Definition cubicto (p : path T) (c1 c2 e : vec2 T) : path T :=
    Path ((((((p_data p ++ [vx c1]) ++ [vy c1]) ++ [vx c2]) ++ [vy c2])
             ++ [vx e]) ++ [vy e])
         (p_types p ++ [ty_cubicto]).

  (** vector::operator[] on const data: out of range is undefined *)
  Definition rd (d : list T) (i : nat) : outcome T := of_opt OobRead (nth_error d i).

  Section Traverse.
    Context {S : Type}.
    Local Open Scope out.

    (** path.cpp:48-51, 55-59: null callbacks replaced by empty functions *)
    Definition act_move (fs : funcs T S) : vec2 T -> vec2 T -> S -> outcome S :=
      match f_move fs with Some f => f | None => fun _ _ s => Ok s end.
    Definition act_line (fs : funcs T S) : vec2 T -> vec2 T -> S -> outcome S :=
      match f_line fs with Some f => f | None => fun _ _ s => Ok s end.
    Definition act_cubic (fs : funcs T S)
      : vec2 T -> vec2 T -> vec2 T -> vec2 T -> S -> outcome S :=
      match f_cubic fs with Some f => f | None => fun _ _ _ _ s => Ok s end.

    (** path.cpp:66-109: the loop over element_types, with its locals data_i,
        last_p and cur_p *)
    Fixpoint traverse_loop (fs : funcs T S) (data : list T) (types : list Z)
        (data_i : nat) (last_p cur_p : vec2 T) (s : S) : outcome S :=
      match types with
      | [] => Ok s
      | e :: types =>
        if Z.eqb e ty_moveto then
          do x <- rd data (data_i + 0) ;;
          do y <- rd data (data_i + 1) ;;
          let cur_p := V2 x y in
          do s <- act_move fs last_p cur_p s ;;
          traverse_loop fs data types (data_i + 2) cur_p cur_p s
        else if Z.eqb e ty_lineto then
          do x <- rd data (data_i + 0) ;;
          do y <- rd data (data_i + 1) ;;
          let cur_p := V2 x y in
          do s <- act_line fs last_p cur_p s ;;
          traverse_loop fs data types (data_i + 2) cur_p cur_p s
        else if Z.eqb e ty_arcto then
          traverse_loop fs data types data_i cur_p cur_p s
        else if Z.eqb e ty_cubicto then
          do c1x <- rd data (data_i + 0) ;;
          do c1y <- rd data (data_i + 1) ;;
          do c2x <- rd data (data_i + 2) ;;
          do c2y <- rd data (data_i + 3) ;;
          do x <- rd data (data_i + 4) ;;
          do y <- rd data (data_i + 5) ;;
          let cur_p := V2 x y in
          do s <- act_cubic fs last_p (V2 c1x c1y) (V2 c2x c2y) cur_p s ;;
          traverse_loop fs data types (data_i + 6) cur_p cur_p s
        else traverse_loop fs data types data_i cur_p cur_p s
      end.

    (** path.cpp:53-110 [path::traverse] *)
    Definition traverse (p : path T) (fs : funcs T S) (s : S) : outcome S :=
      traverse_loop fs (p_data p) (p_types p) 0
        (V2 (n_ofZ 0) (n_ofZ 0)) (V2 (n_ofZ 0) (n_ofZ 0)) s.
  End Traverse.
End Path.
