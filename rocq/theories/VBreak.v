(** Breaking the segments at their intersections: vatti.cpp. *)
From Coq Require Import ZArith Bool List.
From Verif Require Import Outcome Num Rmath Segment ScanLine VState VPath.
Import ListNotations.
Local Open Scope out.

(** What the language leaves open: the iteration order of a set of pointers, the
    addresses of the vertices, and (not from the language) the bound on the
    subdivision loop of the cubic/cubic intersection. *)
Record env := Env { en_order : list nat -> list nat; en_addr : nat -> Z; en_fuel : nat }.

Section VBreak.
  Context {T : Type} {N : Num T}.
  Implicit Types s : clipper T.
  Variable en : env.

  (** vatti.cpp:577-583: the vertices of one ring in order *)
  Fixpoint ring_from (fuel : nat) (vs : list (vertex T)) (start c : nat) : outcome (list nat) :=
    match fuel with
    | O => NoFuel
    | S fuel =>
      do v <- at_ vs c ;;
      do n <- deref (v_next v) ;;
      if Nat.eqb n start then Ok [c]
      else do r <- ring_from fuel vs start n ;; Ok (c :: r)
    end.
  Fixpoint all_rings (vs : list (vertex T)) (sts : list nat) : outcome (list nat) :=
    match sts with
    | [] => Ok []
    | st :: r =>
      do a <- ring_from (length vs) vs st st ;;
      do b <- all_rings vs r ;;
      Ok (a ++ b)
    end.

  (** vatti.cpp:30-33 [get_rect] *)
  Definition vert_box (vs : list (vertex T)) (i : nat) : outcome (rect T) :=
    do v <- at_ vs i ;;
    do g <- of_opt NullDeref (v_seg v) ;;
    Ok (seg_boundary g (v_pt v)).
  Fixpoint vert_boxes (vs : list (vertex T)) (l : list nat) : outcome (list (rect T)) :=
    match l with
    | [] => Ok []
    | i :: r => do b <- vert_box vs i ;; do bs <- vert_boxes vs r ;; Ok (b :: bs)
    end.

  (** vatti.cpp:1562-1566, 1579-1583, 1592-1596 *)
  Definition break_pair (a b : nat) (l : list (isect T)) : list (break_info T) :=
    flat_map (fun i =>
      (if in_open (it0 i) then [Break a (ip i) (it0 i)] else []) ++
      (if in_open (it1 i) then [Break b (ip i) (it1 i)] else [])) l.

  (** vatti.cpp:1546-1603 [intersect(l, r)].  The bit masks of two different
      kinds are disjoint, so any mixed pair is handled as line and cubic. *)
  Definition seg_intersect (vs : list (vertex T)) (l r : nat) : outcome (list (break_info T)) :=
    do vl <- at_ vs l ;;
    do vr <- at_ vs r ;;
    do gr <- of_opt NullDeref (v_seg vr) ;;
    do gl <- of_opt NullDeref (v_seg vl) ;;
    match gl, gr with
    | SLine tl, SLine tr =>
      do res <- intersect_lines (v_pt vl) tl (v_pt vr) tr ;; Ok (break_pair l r res)
    | SLine tl, SCubic c1 c2 t =>
      do res <- intersect_line_cubic (v_pt vl) tl (cubic_from (v_pt vr) c1 c2 t) ;; Ok (break_pair l r res)
    | SCubic c1 c2 t, SLine tr =>
      do res <- intersect_line_cubic (v_pt vr) tr (cubic_from (v_pt vl) c1 c2 t) ;; Ok (break_pair r l res)
    | SCubic a1 a2 ta, SCubic c1 c2 t =>
      do res <- intersect_cubics (en_fuel en) (cubic_from (v_pt vl) a1 a2 ta) (cubic_from (v_pt vr) c1 c2 t) 40 ;;
      Ok (break_pair l r res)
    | SMove _, SMove _ | SArc _ _ _, SArc _ _ _ => Ok []
    | _, _ => UB BadCast
    end.

  (** The callbacks of vatti.cpp:584, in order *)
  Fixpoint run_pairs (vs : list (vertex T)) (vids : list nat) (l : list (nat * nat)) : outcome (list (break_info T)) :=
    match l with
    | [] => Ok []
    | (a, b) :: r =>
      do a <- at_ vids a ;;
      do b <- at_ vids b ;;
      do x <- seg_intersect vs a b ;;
      do y <- run_pairs vs vids r ;;
      Ok (x ++ y)
    end.

  (** vatti.cpp:573-584 *)
  Definition find_breaks (vs : list (vertex T)) (sts : list nat) : outcome (list (break_info T)) :=
    do vids <- all_rings vs sts ;;
    do boxes <- vert_boxes vs vids ;;
    run_pairs vs vids (scan_process (en_order en) (scan_of boxes)).

  (** vatti.cpp:597-600 *)
  Definition break_ltb (l r : break_info T) : bool :=
    if Nat.eqb (br_vert l) (br_vert r) then n_ltb (br_t l) (br_t r)
    else Z.ltb (en_addr en (br_vert l)) (en_addr en (br_vert r)).
  (** vatti.h:65-69 *)
  Definition break_eqb (l r : break_info T) : bool :=
    Nat.eqb (br_vert l) (br_vert r) && veqb (br_pt l) (br_pt r) && n_eqb (br_t l) (br_t r).
  (** vatti.cpp:596-601 *)
  Definition tidy_breaks (l : list (break_info T)) : list (break_info T) :=
    unique_by break_eqb (sort_by break_ltb l).

  (** vatti.cpp:629-632, 657-661: new vertices for the remaining pieces *)
  Fixpoint chain s (c : nat) (gs : list (seg T)) : outcome (clipper T * nat) :=
    match gs with
    | [] => Ok (s, c)
    | g :: r =>
      let '(n, s) := new_vertex s in
      do s <- set_segment s (Some c) n g ;;
      chain s n r
    end.

  (** vatti.cpp:626-635, 654-664 with the pieces [gs] and the closing piece
      [last]: the vertex [st] keeps its place, the old next vertex its flags *)
  Definition relink s (st : nat) (gs : list (seg T)) (last : vec2 T -> seg T) : outcome (clipper T) :=
    do v <- at_ (verts s) st ;;
    do end_v <- deref (v_next v) ;;
    do cs <- chain s st gs ;;
    let '(s, c) := cs in
    do ve <- at_ (verts s) end_v ;;
    do s <- set_segment s (Some c) end_v (last (v_pt ve)) ;;
    vmod s end_v (fun v => set_vmax (v_max ve) (set_vmin (v_min ve) v)).

  (** std::vector indexing split_c[i], split_c.back() for the interior pieces *)
  Fixpoint cubic_pieces (zs : list (bezier T)) (bs : list (break_info T)) : outcome (list (seg T) * bezier T) :=
    match bs with
    | [] => match zs with [z] => Ok ([], z) | _ => UB OobRead end
    | b :: r =>
      match zs with
      | z :: zs =>
        do gl <- cubic_pieces zs r ;;
        let '(gs, l) := gl in Ok (SCubic (b1 z) (b2 z) (br_pt b) :: gs, l)
      | [] => UB OobRead
      end
    end.

  (** vatti.cpp:607-670: the breaks of one vertex *)
  Definition break_vertex s (st : nat) (bs : list (break_info T)) : outcome (clipper T) :=
    do v <- at_ (verts s) st ;;
    do g <- of_opt NullDeref (v_seg v) ;;
    match g with
    | SLine _ => relink s st (map (fun b => SLine (br_pt b)) bs) (fun p => SLine p)
    | SCubic c1 c2 t =>
      let bs := sort_by (fun l r => n_ltb (br_t l) (br_t r)) bs in
      do gl <- cubic_pieces (bsplit_many (cubic_from (v_pt v) c1 c2 t) (map br_t bs)) bs ;;
      let '(gs, l) := gl in relink s st gs (fun p => SCubic (b1 l) (b2 l) p)
    | _ => Ok s
    end.

  (** vatti.cpp:611-613: the run of records of one vertex *)
  Fixpoint take_run (v : nat) (l : list (break_info T)) : list (break_info T) * list (break_info T) :=
    match l with
    | b :: r => if Nat.eqb (br_vert b) v then let '(x, y) := take_run v r in (b :: x, y) else ([], l)
    | [] => ([], [])
    end.
  (** vatti.cpp:606-673; one step per record is enough *)
  Fixpoint break_all (fuel : nat) s (l : list (break_info T)) : outcome (clipper T) :=
    match l with
    | [] => Ok s
    | b :: _ =>
      match fuel with
      | O => NoFuel
      | S fuel =>
        let '(run, rest) := take_run (br_vert b) l in
        do s <- break_vertex s (br_vert b) run ;;
        break_all fuel s rest
      end
    end.

  (** vatti.cpp:571-703 [process_intersect] *)
  Definition process_intersect s : outcome (clipper T) :=
    do bs <- find_breaks (verts s) (starts s) ;;
    let bs := tidy_breaks bs in
    let s := w_breaks s bs in
    break_all (length bs) s bs.
End VBreak.
