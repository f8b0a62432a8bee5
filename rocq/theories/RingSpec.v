(** What the vertex rings built by add_path should be. *)
From Coq Require Import ZArith Bool List.
From Verif Require Import Outcome Num Order Rmath Segment Path PathSpec VState VPath AelSpec.
Import ListNotations.

(** *** Linked vertices *)
Section Ring.
  Context {T : Type}.
  Implicit Types vs : list (vertex T).

  (** Vertex [a] is followed by [b], and the segment [g] between them ends at [b]. *)
  Definition link vs (a b : nat) (g : seg T) : Prop :=
    exists va vb, nth_error vs a = Some va /\ nth_error vs b = Some vb /\
      v_next va = Some b /\ v_prev vb = Some a /\ v_seg va = Some g /\ v_pt vb = seg_target g.
  (** The vertices [l] follow [a], connected by the segments [gs]. *)
  Fixpoint strand vs (a : nat) (l : list nat) (gs : list (seg T)) : Prop :=
    match l, gs with
    | [], [] => True
    | b :: l, g :: gs => link vs a b g /\ strand vs b l gs
    | _, _ => False
    end.
  (** A closed contour: the distinct vertices [l] in order, and back to the first. *)
  Definition ring vs (l : list nat) (gs : list (seg T)) : Prop :=
    match l with
    | [] => False
    | i :: r => NoDup l /\ strand vs i (r ++ [i]) gs
    end.
End Ring.

(** *** The segments of a contour *)
Section Contour.
  Context {T : Type} {N : Num T}.
  Notation vec := (vec2 T).

  Definition as_cubic (z : bezier T) : seg T := SCubic (b1 z) (b2 z) (b3 z).
  Definition line_piece (from to : vec) : list (seg T) := if vneqb from to then [SLine to] else [].
  Definition level4 (a b c d : vec) : bool :=
    n_eqb (vy a) (vy b) && n_eqb (vy b) (vy c) && n_eqb (vy c) (vy d).
  (** The segments of one drawing call: no line of length zero, a horizontal
      cubic is a line, any other is cut at the inner parameters found by split_y. *)
  Definition pieces (from : vec) (c : pcall T) : list (seg T) :=
    match c with
    | PMove _ => []
    | PLine p => line_piece from p
    | PCubic a b p =>
      if level4 from a b p then line_piece from p
      else
        match filter in_open (split_y (Bez from a b p)) with
        | [] => [SCubic a b p]
        | ts => map as_cubic (bsplit_many (Bez from a b p) ts)
        end
    end.
  Fixpoint all_pieces (from : vec) (cs : list (pcall T)) : list (seg T) :=
    match cs with
    | [] => []
    | c :: r => pieces from c ++ all_pieces (endpoint c) r
    end.
  Definition end_of (p : vec) (gs : list (seg T)) : vec := last (map seg_target gs) p.
  (** The contour that starts at [p], closed by a line if needed. *)
  Definition closing (p : vec) (gs : list (seg T)) : list (seg T) :=
    if vneqb p (end_of p gs) then gs ++ [SLine p] else gs.
  (** All vertices at the same height *)
  Fixpoint levels (p : vec) (l : list vec) : bool :=
    match l with
    | [] => true
    | q :: r => n_eqb (vy q) (vy p) && levels q r
    end.
  Definition level (gs : list (seg T)) : bool :=
    match map seg_target gs with
    | [] => true
    | q :: r => levels (last r q) (q :: r)
    end.
  (** At least two segments, not all at one height *)
  Definition accepted (gs : list (seg T)) : bool := Nat.leb 2 (length gs) && negb (level gs).
  (** A contour as the client draws it: a start and drawing calls. *)
  Definition drawing (c : pcall T) : Prop := match c with PMove _ => False | _ => True end.
  Definition outline := (vec * list (pcall T))%type.
  Definition outline_calls (o : outline) : list (pcall T) := PMove (fst o) :: snd o.
  Definition outline_segs (o : outline) : list (seg T) :=
    match all_pieces (fst o) (snd o) with [] => [] | gs => closing (fst o) gs end.
End Contour.

(** *** Local extrema *)
Section Extrema.
  Context {T : Type} {N : Num T}.
  Definition height (vs : list (vertex T)) (i : nat) : T :=
    match nth_error vs i with Some v => vy (v_pt v) | None => n_ofZ 0 end.
  Variable Y : nat -> T.
  (** The ring [l] seen from [v]: the others are [rest], in order. *)
  Definition turned (l : list nat) (v : nat) (rest : list nat) : Prop :=
    exists a b, l = a ++ v :: b /\ rest = b ++ a.
  (** The ring comes down to [v] ([g]) or up to it: the last vertex before [v] at
      another height ([pre]: nearest first) is above or below. *)
  Definition arrives (g : bool) (v : nat) (pre : list nat) : Prop :=
    exists e p q, pre = e ++ p :: q /\ Forall (fun i => n_eqb (Y i) (Y v) = true) e /\
      (if g then n_ltb (Y v) (Y p) else n_ltb (Y p) (Y v)) = true.
  (** The ring comes down to [v] and goes up from there; of a horizontal run this
      is the last vertex. *)
  Definition lowest (l : list nat) (v : nat) : Prop :=
    exists n r, turned l v (n :: r) /\ n_ltb (Y v) (Y n) = true /\ arrives true v (rev (n :: r)).
  Definition highest (l : list nat) (v : nat) : Prop :=
    exists n r, turned l v (n :: r) /\ n_ltb (Y n) (Y v) = true /\ arrives false v (rev (n :: r)).
End Extrema.
(** [b], not [b], [b], ... *)
Fixpoint alternate (b : bool) (l : list bool) : Prop :=
  match l with
  | [] => True
  | x :: r => x = b /\ alternate (negb b) r
  end.
(** The extrema of the ring [l] in order: [(v, true)] a minimum, [(v, false)] a maximum *)
Definition extrema {T} {N : Num T} (Y : nat -> T) (l : list nat) (ex : list (nat * bool)) : Prop :=
  subseq (map fst ex) l /\
  (forall v, In (v, true) ex <-> lowest Y l v) /\ (forall v, In (v, false) ex <-> highest Y l v) /\
  (exists b, alternate b (map snd ex)) /\
  length (filter snd ex) = length (filter (fun x => negb (snd x)) ex) /\ ex <> [].
