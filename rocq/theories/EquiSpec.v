(** Axis-parallel edges and where they meet, told by comparisons of coordinates
    only. *)
From Coq Require Import ZArith Bool List Reals Sorted.
From Verif Require Import Outcome Num Rmath Segment Path VState VPath VBreak LineSpec BreakSpec.
Import ListNotations.

Section Meet.
  Context {T : Type} {N : Num T}.
  (** [c] strictly between [a] and [b], in either order; the same with the ends *)
  Definition sbetween (c a b : T) : bool := (n_ltb a c && n_ltb c b) || (n_ltb b c && n_ltb c a).
  Definition wbetween (c a b : T) : bool := (negb (n_ltb c a) && negb (n_ltb b c)) || (negb (n_ltb c b) && negb (n_ltb a c)).
  (** The edge from [p] to [q] has [P] strictly inside, where the edge from [u] to
      [r] crosses it or ends on it at a right angle. *)
  Definition meet (p q u r P : vec2 T) : Prop :=
    (n_eqb (vx p) (vx q) = true /\ n_eqb (vy u) (vy r) = true /\ P = V2 (vx p) (vy u) /\
       sbetween (vy u) (vy p) (vy q) = true /\ wbetween (vx p) (vx u) (vx r) = true) \/
    (n_eqb (vy p) (vy q) = true /\ n_eqb (vx u) (vx r) = true /\ P = V2 (vx u) (vy p) /\
       sbetween (vx u) (vx p) (vx q) = true /\ wbetween (vy p) (vy u) (vy r) = true).
  (** On the way from [p] to [q], [P] comes before [Q]. *)
  Definition along (p q P Q : vec2 T) : bool :=
    if n_eqb (vx p) (vx q) then if n_ltb (vy p) (vy q) then n_ltb (vy P) (vy Q) else n_ltb (vy Q) (vy P)
    else if n_ltb (vx p) (vx q) then n_ltb (vx P) (vx Q) else n_ltb (vx Q) (vx P).

  (** A straight edge from [p] to [q] starts at vertex [i]. *)
  Definition edge_at (vs : list (vertex T)) (i : nat) (p q : vec2 T) : Prop :=
    exists v, nth_error vs i = Some v /\ v_pt v = p /\ v_seg v = Some (SLine q).
  (** Among the edges that start at [ids], the one of [i] has to be broken at [P]. *)
  Definition broken (vs : list (vertex T)) (ids : list nat) (i : nat) (P : vec2 T) : Prop :=
    exists p q j u r, In i ids /\ In j ids /\ i <> j /\ edge_at vs i p q /\ edge_at vs j u r /\ meet p q u r P.
  Definition before (addr : nat -> Z) (vs : list (vertex T)) (b c : nat * vec2 T) : Prop :=
    (addr (fst b) < addr (fst c))%Z \/
    (fst b = fst c /\ exists p q, edge_at vs (fst b) p q /\ along p q (snd b) (snd c) = true).
  (** [l] tells all the breaks in order. *)
  Definition listing (addr : nat -> Z) (vs : list (vertex T)) (ids : list nat) (l : list (nat * vec2 T)) : Prop :=
    StronglySorted (before addr vs) l /\ forall i P, In (i, P) l <-> broken vs ids i P.
  Definition place (b : break_info T) : nat * vec2 T := (br_vert b, br_pt b).
End Meet.

(** *** Over the reals *)
Definition axial (vs : list (vertex R)) (ids : list nat) : Prop :=
  forall i p q, In i ids -> edge_at vs i p q -> vx p = vx q \/ vy p = vy q.
(** No two edges on one line *)
Definition unaligned (vs : list (vertex R)) (ids : list nat) : Prop :=
  forall i j p q u r, In i ids -> In j ids -> i <> j -> edge_at vs i p q -> edge_at vs j u r ->
    ~ (vx p = vx q /\ vx u = vx r /\ vx p = vx u) /\ ~ (vy p = vy q /\ vy u = vy r /\ vy p = vy u).
(** No break so close to an end that the code ignores it *)
Definition spread (vs : list (vertex R)) (ids : list nat) : Prop :=
  forall i P p q t, broken vs ids i P -> edge_at vs i p q -> P = pt p q t -> well_inside t.
