(** The sweep over integers as a stand-in for any coordinates in the same order. *)
From Coq Require Import ZArith Bool List Lia Sorted Permutation.
From Verif Require Import Outcome Num Rmath Segment Path PathSpec ScanLine VState VPath VBreak VAel VOut VMain
  RingSpec ClipSpec BreakSpec EquiSpec EquiMap EquiLoad BoxSpec.
Import ListNotations.
Local Open Scope Z_scope.

(** Only comparisons, and differences and products in [ClipSpec.crosses], matter;
    the division makes [chord_x] constant. *)
Definition Z_num : Num Z := {| n_ofZ := fun z => z; n_add := Z.add; n_sub := Z.sub; n_mul := Z.mul; n_div := fun _ _ => 0; n_neg := Z.opp; n_abs := Z.abs;
  n_ltb := Z.ltb; n_leb := Z.leb; n_eqb := Z.eqb; n_isfinite := fun _ => true; n_signbit := fun z => Z.ltb z 0; n_huge := 100; n_sqrt := fun z => z;
  n_cbrt := fun z => z; n_pow := fun z _ => z; n_remainder := fun z _ => z; n_cos := fun z => z; n_sin := fun z => z; n_atan := fun z => z; n_atan2 := fun z _ => z |}.
#[export] Existing Instance Z_num.

(** *** Breaks *)
Definition edge_of (vs : list (vertex Z)) (i : nat) : option (vec2 Z * vec2 Z) :=
  match nth_error vs i with Some v => match v_seg v with Some (SLine q) => Some (v_pt v, q) | _ => None end | None => None end.
Definition meets_at (p q u r : vec2 Z) : list (vec2 Z) :=
  (if (vx p =? vx q) && (vy u =? vy r) && sbetween (vy u) (vy p) (vy q) && wbetween (vx p) (vx u) (vx r) then [V2 (vx p) (vy u)] else []) ++
  (if (vy p =? vy q) && (vx u =? vx r) && sbetween (vx u) (vx p) (vx q) && wbetween (vy p) (vy u) (vy r) then [V2 (vx u) (vy p)] else []).
Definition hits (vs : list (vertex Z)) (ids : list nat) (i : nat) : list (vec2 Z) :=
  match edge_of vs i with
  | Some (p, q) =>
    sort_by (along p q) (flat_map (fun j => if Nat.eqb i j then [] else match edge_of vs j with Some (u, r) => meets_at p q u r | None => [] end) ids)
  | None => []
  end.
Fixpoint rising {A} (lt : A -> A -> bool) (l : list A) : bool := match l with [] => true | a :: r => forallb (lt a) r && rising lt r end.
Definition cut_at (vs : list (vertex Z)) (ids ks : list nat) : list (break_info Z) := flat_map (fun k => map (fun P => Break k P 0) (hits vs ids k)) ks.
Definition some {A} (l : list A) : bool := match l with [] => false | _ => true end.

(** *** Conditions on the loaded contours *)
Definition plainb (v : vertex Z) : bool :=
  match v_seg v with None => true | Some (SLine t) => (vx (v_pt v) =? vx t) || (vy (v_pt v) =? vy t) | _ => false end.
Definition alignedb (a b : option (vec2 Z * vec2 Z)) : bool :=
  match a, b with
  | Some (p, q), Some (u, r) => ((vx p =? vx q) && (vx u =? vx r) && (vx p =? vx u)) || ((vy p =? vy q) && (vy u =? vy r) && (vy p =? vy u))
  | _, _ => false
  end.
(** [(u, v)] is the side of one box and [w] one of the other *)
Definition side (a c a' c' u v w : Z) : bool :=
  (((u =? a) && (v =? c)) || ((u =? c) && (v =? a))) && ((w =? a') || (w =? c')).
Definition sides (a c a' c' u v w : Z) : bool := side a c a' c' u v w || side a' c' a c u v w.
Definition hit_ok (S C : rect Z) (vs : list (vertex Z)) (ids : list nat) (i : nat) : bool :=
  match edge_of vs i with
  | Some (p, q) => rising (along p q) (hits vs ids i) &&
      forallb (fun P => if vx p =? vx q then sides (y0 S) (y1 S) (y0 C) (y1 C) (vy p) (vy q) (vy P) && negb (vy p =? vy q)
                        else sides (x0 S) (x1 S) (x0 C) (x1 C) (vx p) (vx q) (vx P)) (hits vs ids i)
  | None => true
  end.

(** *** Conditions on the answer *)
Definition grid : list Z := [0; 1; 2; 3; 4; 5; 6; 7; 8].
Definition right_at (op : clip_type) (fill : fill_rule) (S C : rect Z) (l : list (call (T := Z))) (x y : Z) : bool :=
  Bool.eqb (inside (V2 x y) l) (bool_op op (covers fill S (V2 x y)) (covers fill C (V2 x y))).
Definition level (c : call (T := Z)) : bool := match c with LineTo a b => (vx a =? vx b) || (vy a =? vy b) | MoveTo _ _ => true | CubicTo _ _ _ _ => false end.
Fixpoint split_moves (l : list (call (T := Z))) : list (list (call (T := Z))) :=
  match l with
  | [] => []
  | c :: r => match split_moves r with
              | [] => [[c]]
              | h :: t => match h with d :: _ => if is_move d then [c] :: h :: t else (c :: h) :: t | [] => (c :: h) :: t end
              end
  end.
Definition zeqb (p q : vec2 Z) : bool := (vx p =? vx q) && (vy p =? vy q).
Definition closedb (l : list (call (T := Z))) : bool :=
  match l with MoveTo _ p :: r => some r && zeqb (call_to (last r (MoveTo p p))) p | _ => false end.
Fixpoint connectedb (p : vec2 Z) (l : list (call (T := Z))) : bool :=
  match l with [] => true | c :: r => zeqb (call_from c) p && negb (is_move c) && connectedb (call_to c) r end.
Definition contourb (l : list (call (T := Z))) : bool := match l with MoveTo _ p :: r => some r && connectedb p r | _ => false end.
Definition answer_ok (op : clip_type) (fill : fill_rule) (S C : rect Z) (o : outcome (list (call (T := Z)))) : bool :=
  match o with
  | Ok l =>
    forallb contourb (split_moves l) &&
    if right_on op fill S C
    then forallb level l && forallb closedb (split_moves l) && forallb (fun x => forallb (right_at op fill S C l x) grid) grid
    else negb (forallb level l && forallb closedb (split_moves l))
  | UB _ => negb (right_on op fill S C)
  | _ => false
  end.

(** *** All conditions *)
Definition ops := [op_none; op_intersection; op_union; op_difference; op_xor].
Definition fills := [even_odd; non_zero; positive; negative].
Definition fuel0 : nat := 60.
Definition run_ok (S C : rect Z) (s1 : clipper Z) : bool :=
  forallb (fun op => forallb (fun fill => answer_ok op fill S C (omap snd (finish fuel0 (w_op s1 op fill)))) fills) ops.
(** The vertices are broken in the order of their numbers. *)
Definition pair_ok (subject_first : bool) (k k' : nat) (S C : rect Z) : bool :=
  match add_all clipper0 (box_paths subject_first k k' S C) with
  | Ok s =>
    match all_rings (verts s) (starts s) with
    | Ok ids =>
      forallb plainb (verts s) &&
      forallb (fun i => forallb (fun j => Nat.eqb i j || negb (alignedb (edge_of (verts s) i) (edge_of (verts s) j))) ids) ids &&
      forallb (hit_ok S C (verts s) ids) ids &&
      (let ks := filter (fun i => some (hits (verts s) ids i)) ids in
       let bs := cut_at (verts s) ids ks in
       rising Nat.ltb ks &&
       match break_all (length bs) (w_breaks s bs) bs with
       | Ok s1 => forallb plainb (verts s1) && negb (some (edges s1)) && run_ok S C s1
       | _ => false
       end)
    | _ => false
    end
  | _ => false
  end.

(** The six ways two intervals can lie, at odd coordinates; the points of [grid]
    are these and those between. *)
Definition places : list (Z * Z * Z * Z) := [(1,3,5,7); (1,5,3,7); (1,7,3,5); (3,5,1,7); (3,7,1,5); (5,7,1,3)].
Definition pairs_ok (subject_first : bool) (k k' : nat) : bool :=
  forallb (fun X => let '(a, c, a', c') := X in forallb (fun Y => let '(b, e, b', e') := Y in
    pair_ok subject_first k k' (Rect (V2 a b) (V2 c e)) (Rect (V2 a' b') (V2 c' e'))) places) places.
