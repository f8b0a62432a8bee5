(** State of the clipper: src/src/vatti.h.

    Pointers to pool objects are indices into append-only lists (the
    [boost::object_pool]s, vatti.h:202-208, free nothing before the clipper is
    destroyed); a nullable pointer is an [option nat].  Dereferencing null is
    [UB NullDeref].  Segments are values: every segment object is referenced from
    one place only. *)
From Coq Require Import ZArith Bool List.
From Verif Require Import Outcome Num Rmath Segment.
Import ListNotations.
Local Open Scope out.

(** river.h:8-14 *)
Inductive path_type := subject | clip.
Inductive fill_rule := even_odd | non_zero | positive | negative.
Inductive clip_type := op_none | op_intersection | op_union | op_difference | op_xor.

Definition ptype_eqb (a b : path_type) : bool :=
  match a, b with subject, subject => true | clip, clip => true | _, _ => false end.
(** enum order: subject < clip *)
Definition ptype_ltb (a b : path_type) : bool :=
  match a, b with subject, clip => true | _, _ => false end.

Section Records.
  Variable T : Type.

  (** vatti.h:38-47.  Of the flags (15-21) only local_max and local_min are ever
      set. *)
  Record vertex := Vertex {
    v_pt : vec2 T; v_seg : option (seg T);
    v_next : option nat; v_prev : option nat;
    v_max : bool; v_min : bool }.

  (** vatti.h:49-57; [is_open] is stored and never read *)
  Record lmin := Lmin { lm_vert : nat; lm_type : path_type }.

  (** vatti.h:59-70 *)
  Record break_info := Break { br_vert : nat; br_pt : vec2 T; br_t : T }.

  (** vatti.h:95-108.  [idx] is the position in [output_list]; [owner] and
      [is_open] are never read. *)
  Record poly := Poly {
    o_origin : vec2 T; o_up_bound : option nat; o_down_bound : option nat;
    o_up : list (seg T); o_down : list (seg T); o_complete : bool }.

  (** vatti.h:110-123 *)
  Record bound := Bound {
    ob_prev : option nat; ob_next : option nat; ob_owner : option nat;
    ob_edge : option nat; ob_stop_x : T; ob_dx : Z }.

  (** vatti.h:125-144.  [dx] is never written nor read (set_direction, vatti.cpp:97,
      is not called).  The winding counts are [int]; here integers without
      overflow. *)
  Record edge := Edge {
    e_bot : vec2 T; e_top : vec2 T; e_x : T;
    e_dx : Z; e_cnt : Z; e_cnt2 : Z;
    e_prev : option nat; e_next : option nat; e_bound : option nat;
    e_vtop : nat; e_lmin : nat }.

  (** vatti.h:197-223.  [scans] is the priority queue [scanline_list] as a list
      in increasing order; [cur] stands for the iterator [cur_locmin_it].
      [succeeded_] is never set to false.  [polys] is [output_list]: every
      polygon is pushed there when created (vatti.cpp:1360-1362). *)
  Record clipper := Clipper {
    verts : list vertex; lmins : list lmin; minima : list nat; cur : nat;
    starts : list nat; breaks : list break_info; scans : list T;
    edges : list edge; ael : option nat; bounds : list bound; obl : option nat;
    changes : list T; polys : list poly; cop : clip_type; cfill : fill_rule }.
End Records.
Arguments Vertex {T}. Arguments v_pt {T}. Arguments v_seg {T}. Arguments v_next {T}.
Arguments v_prev {T}. Arguments v_max {T}. Arguments v_min {T}.
Arguments Break {T}. Arguments br_vert {T}. Arguments br_pt {T}. Arguments br_t {T}.
Arguments Poly {T}. Arguments o_origin {T}. Arguments o_up_bound {T}. Arguments o_down_bound {T}.
Arguments o_up {T}. Arguments o_down {T}. Arguments o_complete {T}.
Arguments Bound {T}. Arguments ob_prev {T}. Arguments ob_next {T}. Arguments ob_owner {T}.
Arguments ob_edge {T}. Arguments ob_stop_x {T}. Arguments ob_dx {T}.
Arguments Edge {T}. Arguments e_bot {T}. Arguments e_top {T}. Arguments e_x {T}. Arguments e_dx {T}.
Arguments e_cnt {T}. Arguments e_cnt2 {T}. Arguments e_prev {T}. Arguments e_next {T}.
Arguments e_bound {T}. Arguments e_vtop {T}. Arguments e_lmin {T}.
Arguments Clipper {T}. Arguments verts {T}. Arguments lmins {T}. Arguments minima {T}.
Arguments cur {T}. Arguments starts {T}. Arguments breaks {T}. Arguments scans {T}.
Arguments edges {T}. Arguments ael {T}. Arguments bounds {T}. Arguments obl {T}.
Arguments changes {T}. Arguments polys {T}. Arguments cop {T}. Arguments cfill {T}.

(** Writing through a pointer. *)
Fixpoint upd {A} (l : list A) (i : nat) (f : A -> A) : list A :=
  match l, i with
  | [], _ => []
  | a :: r, O => f a :: r
  | a :: r, S i => a :: upd r i f
  end.
(** Reading through a pointer. *)
Definition at_ {A} (l : list A) (i : nat) : outcome A := of_opt NullDeref (nth_error l i).
Definition deref (p : option nat) : outcome nat := of_opt NullDeref p.

Section Setters.
  Context {T : Type}.
  Implicit Types s : clipper T.

  (** A default-constructed clipper (vatti.h:197-223).  [obl_first] has no
      initialiser but is written by [reset] before it is read. *)
  Definition clipper0 : clipper T :=
    Clipper [] [] [] 0 [] [] [] [] None [] None [] [] op_intersection positive.

  Definition w_verts s x := Clipper x (lmins s) (minima s) (cur s) (starts s) (breaks s) (scans s)
    (edges s) (ael s) (bounds s) (obl s) (changes s) (polys s) (cop s) (cfill s).
  Definition w_lmins s x m := Clipper (verts s) x m (cur s) (starts s) (breaks s) (scans s)
    (edges s) (ael s) (bounds s) (obl s) (changes s) (polys s) (cop s) (cfill s).
  Definition w_minima s m c := Clipper (verts s) (lmins s) m c (starts s) (breaks s) (scans s)
    (edges s) (ael s) (bounds s) (obl s) (changes s) (polys s) (cop s) (cfill s).
  Definition w_starts s x := Clipper (verts s) (lmins s) (minima s) (cur s) x (breaks s) (scans s)
    (edges s) (ael s) (bounds s) (obl s) (changes s) (polys s) (cop s) (cfill s).
  Definition w_breaks s x := Clipper (verts s) (lmins s) (minima s) (cur s) (starts s) x (scans s)
    (edges s) (ael s) (bounds s) (obl s) (changes s) (polys s) (cop s) (cfill s).
  Definition w_scans s x := Clipper (verts s) (lmins s) (minima s) (cur s) (starts s) (breaks s) x
    (edges s) (ael s) (bounds s) (obl s) (changes s) (polys s) (cop s) (cfill s).
  Definition w_edges s x := Clipper (verts s) (lmins s) (minima s) (cur s) (starts s) (breaks s) (scans s)
    x (ael s) (bounds s) (obl s) (changes s) (polys s) (cop s) (cfill s).
  Definition w_ael s x := Clipper (verts s) (lmins s) (minima s) (cur s) (starts s) (breaks s) (scans s)
    (edges s) x (bounds s) (obl s) (changes s) (polys s) (cop s) (cfill s).
  Definition w_bounds s x := Clipper (verts s) (lmins s) (minima s) (cur s) (starts s) (breaks s) (scans s)
    (edges s) (ael s) x (obl s) (changes s) (polys s) (cop s) (cfill s).
  Definition w_obl s x := Clipper (verts s) (lmins s) (minima s) (cur s) (starts s) (breaks s) (scans s)
    (edges s) (ael s) (bounds s) x (changes s) (polys s) (cop s) (cfill s).
  Definition w_changes s x := Clipper (verts s) (lmins s) (minima s) (cur s) (starts s) (breaks s) (scans s)
    (edges s) (ael s) (bounds s) (obl s) x (polys s) (cop s) (cfill s).
  Definition w_polys s x := Clipper (verts s) (lmins s) (minima s) (cur s) (starts s) (breaks s) (scans s)
    (edges s) (ael s) (bounds s) (obl s) (changes s) x (cop s) (cfill s).
  Definition w_op s o f := Clipper (verts s) (lmins s) (minima s) (cur s) (starts s) (breaks s) (scans s)
    (edges s) (ael s) (bounds s) (obl s) (changes s) (polys s) o f.

  (** Member assignments. *)
  Definition set_vnext (n : option nat) (v : vertex T) := Vertex (v_pt v) (v_seg v) n (v_prev v) (v_max v) (v_min v).
  Definition set_vseg (g : option (seg T)) (v : vertex T) := Vertex (v_pt v) g (v_next v) (v_prev v) (v_max v) (v_min v).
  Definition set_vmax (b : bool) (v : vertex T) := Vertex (v_pt v) (v_seg v) (v_next v) (v_prev v) b (v_min v).
  Definition set_vmin (b : bool) (v : vertex T) := Vertex (v_pt v) (v_seg v) (v_next v) (v_prev v) (v_max v) b.
  Definition set_vpt (p : vec2 T) (v : vertex T) := Vertex p (v_seg v) (v_next v) (v_prev v) (v_max v) (v_min v).

  Definition set_eprev p (e : edge T) := Edge (e_bot e) (e_top e) (e_x e) (e_dx e) (e_cnt e) (e_cnt2 e)
    p (e_next e) (e_bound e) (e_vtop e) (e_lmin e).
  Definition set_enext p (e : edge T) := Edge (e_bot e) (e_top e) (e_x e) (e_dx e) (e_cnt e) (e_cnt2 e)
    (e_prev e) p (e_bound e) (e_vtop e) (e_lmin e).
  Definition set_ebound p (e : edge T) := Edge (e_bot e) (e_top e) (e_x e) (e_dx e) (e_cnt e) (e_cnt2 e)
    (e_prev e) (e_next e) p (e_vtop e) (e_lmin e).
  Definition set_ex (x : T) (e : edge T) := Edge (e_bot e) (e_top e) x (e_dx e) (e_cnt e) (e_cnt2 e)
    (e_prev e) (e_next e) (e_bound e) (e_vtop e) (e_lmin e).
  Definition set_ecnt c c2 (e : edge T) := Edge (e_bot e) (e_top e) (e_x e) (e_dx e) c c2
    (e_prev e) (e_next e) (e_bound e) (e_vtop e) (e_lmin e).

  Definition set_bprev p (b : bound T) := Bound p (ob_next b) (ob_owner b) (ob_edge b) (ob_stop_x b) (ob_dx b).
  Definition set_bnext p (b : bound T) := Bound (ob_prev b) p (ob_owner b) (ob_edge b) (ob_stop_x b) (ob_dx b).
  Definition set_bowner p (b : bound T) := Bound (ob_prev b) (ob_next b) p (ob_edge b) (ob_stop_x b) (ob_dx b).
  Definition set_bedge p (b : bound T) := Bound (ob_prev b) (ob_next b) (ob_owner b) p (ob_stop_x b) (ob_dx b).
  Definition set_bstop (x : T) (b : bound T) := Bound (ob_prev b) (ob_next b) (ob_owner b) (ob_edge b) x (ob_dx b).

  Definition push_up (g : seg T) (o : poly T) := Poly (o_origin o) (o_up_bound o) (o_down_bound o)
    (o_up o ++ [g]) (o_down o) (o_complete o).
  Definition push_down (g : seg T) (o : poly T) := Poly (o_origin o) (o_up_bound o) (o_down_bound o)
    (o_up o) (o_down o ++ [g]) (o_complete o).
  Definition set_complete (o : poly T) := Poly (o_origin o) (o_up_bound o) (o_down_bound o)
    (o_up o) (o_down o) true.

  Definition vmod s i f : outcome (clipper T) := do _ <- at_ (verts s) i ;; Ok (w_verts s (upd (verts s) i f)).
  Definition emod s i f : outcome (clipper T) := do _ <- at_ (edges s) i ;; Ok (w_edges s (upd (edges s) i f)).
  Definition bmod s i f : outcome (clipper T) := do _ <- at_ (bounds s) i ;; Ok (w_bounds s (upd (bounds s) i f)).
  Definition pmod s i f : outcome (clipper T) := do _ <- at_ (polys s) i ;; Ok (w_polys s (upd (polys s) i f)).
  (** [if (p) p->member = ...] *)
  Definition emod_opt s p f : outcome (clipper T) := match p with Some i => emod s i f | None => Ok s end.
  Definition bmod_opt s p f : outcome (clipper T) := match p with Some i => bmod s i f | None => Ok s end.
End Setters.

(** Comparison of pointers *)
Definition ptr_eqb (a b : option nat) : bool :=
  match a, b with Some i, Some j => Nat.eqb i j | None, None => true | _, _ => false end.

(** std::sort / std::list::sort with comparison [lt].  std::sort leaves the order
    of equivalent elements open; here it is stable. *)
Fixpoint insert_by {A} (lt : A -> A -> bool) (x : A) (l : list A) : list A :=
  match l with
  | [] => [x]
  | y :: r => if lt x y then x :: l else y :: insert_by lt x r
  end.
Definition sort_by {A} (lt : A -> A -> bool) (l : list A) : list A :=
  fold_left (fun acc x => insert_by lt x acc) l [].
(** std::unique + erase: of consecutive equal elements the first is kept *)
Fixpoint unique_from {A} (eq : A -> A -> bool) (prev : A) (l : list A) : list A :=
  match l with
  | [] => []
  | x :: r => if eq prev x then unique_from eq prev r else x :: unique_from eq x r
  end.
Definition unique_by {A} (eq : A -> A -> bool) (l : list A) : list A :=
  match l with [] => [] | x :: r => x :: unique_from eq x r end.
