(** Model of src/src/scan_line.h. *)
From Coq Require Import ZArith Bool List Arith.
From Verif Require Import Num Rmath.
Import ListNotations.

Section ScanLine.
  Context {T : Type} {N : Num T}.

  (** scan_line.h:50-56 [scan_point].  An [inner_seg] pointer (43-48) is the
      index of the segment in [segments] (83). *)
  Record scan_point := SP { sp_x : T; sp_in : list nat; sp_out : list nat }.

  (** scan_line.h:82-83.  The [std::set] ordered by x is a list in iteration
      order; of a segment only its box matters here. *)
  Record scan_line := SL { sl_points : list scan_point; sl_boxes : list (rect T) }.
  Definition sl_empty : scan_line := SL [] [].

  (** scan_line.h:125-140 [get_point] followed by the [push_back] of the caller
      (94, 96), the latter given as [f].  Found means neither x is smaller, as
      for [std::set::find].  Only meaningful without NaN (with NaN the order is
      not a strict weak order and [std::set] has no specified behaviour). *)
  Fixpoint at_point (x : T) (f : scan_point -> scan_point) (ps : list scan_point) : list scan_point :=
    match ps with
    | [] => [f (SP x [] [])]
    | p :: r => if n_ltb x (sp_x p) then f (SP x [] []) :: p :: r
                else if n_ltb (sp_x p) x then p :: at_point x f r
                else f p :: r
    end.
  Definition push_in (i : nat) (p : scan_point) : scan_point := SP (sp_x p) (sp_in p ++ [i]) (sp_out p).
  Definition push_out (i : nat) (p : scan_point) : scan_point := SP (sp_x p) (sp_in p) (sp_out p ++ [i]).

  (** scan_line.h:86-97 [add_segment]; get_min_x/get_max_x are vatti.cpp:25, 27 *)
  Definition add_segment (s : scan_line) (b : rect T) : scan_line :=
    let i := length (sl_boxes s) in
    let ps := at_point (vx (rmin b)) (push_in i) (sl_points s) in
    let ps := at_point (vx (rmax b)) (push_out i) ps in
    SL ps (sl_boxes s ++ [b]).

  Definition mem (i : nat) (l : list nat) : bool := existsb (Nat.eqb i) l.
  (** [std::set::insert] and [erase] on the set [current] *)
  Definition set_insert (i : nat) (cur : list nat) : list nat := if mem i cur then cur else i :: cur.
  Definition set_erase (i : nat) (cur : list nat) : list nat := filter (fun c => negb (Nat.eqb i c)) cur.

  Variable order : list nat -> list nat.
  Variable boxes : list (rect T).
  Definition box_of (i : nat) : rect T := nth i boxes (Rect (V2 (n_ofZ 0%Z) (n_ofZ 0%Z)) (V2 (n_ofZ 0%Z) (n_ofZ 0%Z))).

  (** scan_line.h:106-116: the pairs handed to the callback for the segments
      starting at one point, and the set [current] afterwards.  The set holds
      addresses, so its iteration order is arbitrary: [order]. *)
  Fixpoint do_in (ins : list nat) (cur : list nat) : list (nat * nat) * list nat :=
    match ins with
    | [] => ([], cur)
    | i :: r =>
      let out := map (fun c => (c, i)) (filter (fun c => rect_intersect (box_of c) (box_of i)) (order cur)) in
      let '(out', cur') := do_in r (set_insert i cur) in (out ++ out', cur')
    end.
  (** scan_line.h:118-120 *)
  Definition do_out (outs : list nat) (cur : list nat) : list nat := fold_left (fun c o => set_erase o c) outs cur.

  (** scan_line.h:104-121 *)
  Fixpoint do_points (ps : list scan_point) (cur : list nat) : list (nat * nat) :=
    match ps with
    | [] => []
    | p :: r => let '(out, cur) := do_in (sp_in p) cur in
                out ++ do_points r (do_out (sp_out p) cur)
    end.
End ScanLine.
Arguments scan_point : clear implicits.
Arguments scan_line : clear implicits.

(** scan_line.h:99-122 [process]: the pairs for which the callback is called *)
Definition scan_process {T} {N : Num T} (order : list nat -> list nat) (s : scan_line T) : list (nat * nat) :=
  do_points order (sl_boxes s) (sl_points s) [].
(** [add_segment] for each box in turn *)
Definition scan_of {T} {N : Num T} (bs : list (rect T)) : scan_line T := fold_left add_segment bs sl_empty.
