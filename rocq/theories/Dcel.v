(** Model of src/src/dcel.h and src/src/decl.cpp (half-edge structure).

    Objects made with [new] are entries of append-only lists and pointers are
    indices.  [delete] replaces a half edge by [None]; any later access to it is
    [UB Dangling].  Only [line_half_edge] exists; [add_arc] and [add_cubic] are
    declared but have no definition in the sources. *)
From Coq Require Import ZArith Bool List.
From Verif Require Import Outcome Num Rmath ScanLine VState.
Import ListNotations.
Local Open Scope out.

(** What the language leaves open: addresses of the half edges (a
    [std::set<half_edge*>] is iterated by address and [point::sort] compares
    addresses) and the iteration order of the scan line's set of active segments. *)
Record denv := Denv { de_addr : nat -> Z; de_order : list nat -> list nat }.

Section Records.
  Context {T : Type}.
  (** dcel.h:29-58 [point]; the entries of [edges] (41-44, 57) are pairs of
      pointer and [is_emit]. *)
  Record point := Point { p_at : vec2 T; p_edges : list (nat * bool) }.
  (** dcel.h:85-116 [half_edge]; [h_breaks] is the set [break_points] (115) in
      iteration order. *)
  Record half := Half {
    h_start : nat; h_end : nat; h_twin : option nat; h_face : option nat;
    h_next : option nat; h_prev : option nat; h_type : path_type;
    h_breaks : list (vec2 T)
  }.
  (** dcel.h:170-174; a [face] (137-140) is its [start].  [d_pset] is [point_set]
      in iteration order, [d_edges] the set [edges] in order of insertion. *)
  Record dcel := Dcel {
    d_points : list point; d_pset : list nat;
    d_halves : list (option half); d_edges : list nat;
    d_fpool : list nat; d_faces : list nat; d_type : path_type
  }.
End Records.
Arguments point : clear implicits. Arguments half : clear implicits. Arguments dcel : clear implicits.

Section Dcel.
  Context {T : Type} {N : Num T}.
  Implicit Types d : dcel T.
  Notation vec := (vec2 T).

  (** A default-constructed [dcel]. *)
  Definition dcel0 : dcel T := Dcel [] [] [] [] [] [] subject.
  Definition wd_points d (x : list (point T)) := Dcel x (d_pset d) (d_halves d) (d_edges d) (d_fpool d) (d_faces d) (d_type d).
  Definition wd_pset d x := Dcel (d_points d) x (d_halves d) (d_edges d) (d_fpool d) (d_faces d) (d_type d).
  Definition wd_halves d (x : list (option (half T))) := Dcel (d_points d) (d_pset d) x (d_edges d) (d_fpool d) (d_faces d) (d_type d).
  Definition wd_edges d x := Dcel (d_points d) (d_pset d) (d_halves d) x (d_fpool d) (d_faces d) (d_type d).
  Definition wd_fpool d x := Dcel (d_points d) (d_pset d) (d_halves d) (d_edges d) x (d_faces d) (d_type d).
  Definition wd_faces d x := Dcel (d_points d) (d_pset d) (d_halves d) (d_edges d) (d_fpool d) x (d_type d).
  Definition wd_type d x := Dcel (d_points d) (d_pset d) (d_halves d) (d_edges d) (d_fpool d) (d_faces d) x.

  (** Reading and writing through pointers. *)
  Definition half_at d (e : nat) : outcome (half T) :=
    match nth_error (d_halves d) e with
    | Some (Some h) => Ok h
    | Some None => UB Dangling
    | None => UB NullDeref
    end.
  Definition hmod d e (f : half T -> half T) : outcome (dcel T) :=
    do _ <- half_at d e ;; Ok (wd_halves d (upd (d_halves d) e (option_map f))).
  Definition point_at_ d (i : nat) : outcome (point T) := at_ (d_points d) i.
  Definition dpmod d i (f : point T -> point T) : outcome (dcel T) :=
    do _ <- point_at_ d i ;; Ok (wd_points d (upd (d_points d) i f)).
  Definition set_twin t (h : half T) := Half (h_start h) (h_end h) t (h_face h) (h_next h) (h_prev h) (h_type h) (h_breaks h).
  Definition set_face t (h : half T) := Half (h_start h) (h_end h) (h_twin h) t (h_next h) (h_prev h) (h_type h) (h_breaks h).
  Definition set_next t (h : half T) := Half (h_start h) (h_end h) (h_twin h) (h_face h) t (h_prev h) (h_type h) (h_breaks h).
  Definition set_prev t (h : half T) := Half (h_start h) (h_end h) (h_twin h) (h_face h) (h_next h) t (h_type h) (h_breaks h).
  Definition set_breaks (t : list (vec2 T)) (h : half T) := Half (h_start h) (h_end h) (h_twin h) (h_face h) (h_next h) (h_prev h) (h_type h) t.

  (** decl.cpp:87-92 [vec2_compare_func] *)
  Definition vec_ltb (r l : vec) : bool :=
    if n_ltb (vx r) (vx l) then true
    else if n_eqb (vx r) (vx l) then n_ltb (vy r) (vy l) else false.

  (** Insertion into a [std::set] with comparison [lt]; nothing happens if an
      equivalent element is there.  As elsewhere, meaningful when [lt] is a
      strict weak order on the elements, i.e. without NaN. *)
  Fixpoint oset_insert {A} (lt : A -> A -> bool) (x : A) (l : list A) : list A :=
    match l with
    | [] => [x]
    | y :: r => if lt x y then x :: l else if lt y x then y :: oset_insert lt x r else l
    end.

  (** Coordinates of a point; every index in [point_set] is that of a point. *)
  Definition coord d (i : nat) : vec :=
    match nth_error (d_points d) i with Some p => p_at p | None => V2 (n_ofZ 0%Z) (n_ofZ 0%Z) end.
  (** [std::set::find] with the transparent comparison (dcel.h:62-76) *)
  Fixpoint pset_find d (x : vec) (l : list nat) : option nat :=
    match l with
    | [] => None
    | i :: r => if vec_ltb (coord d i) x then pset_find d x r
                else if vec_ltb x (coord d i) then None else Some i
    end.
  (** decl.cpp:483-497 [find_or_add_point] *)
  Definition find_or_add_point d (x y : T) : dcel T * nat :=
    match pset_find d (V2 x y) (d_pset d) with
    | Some i => (d, i)
    | None =>
      let i := length (d_points d) in
      let d := wd_points d (d_points d ++ [Point (V2 x y) []]) in
      (wd_pset d (oset_insert (fun a b => vec_ltb (coord d a) (coord d b)) i (d_pset d)), i)
    end.

  (** decl.cpp:121-124 [point::add_edge] *)
  Definition add_edge (e : nat) (emit : bool) (p : point T) : point T := Point (p_at p) (p_edges p ++ [(e, emit)]).
  (** decl.cpp:126-129 [point::remove] *)
  Definition remove_edge (e : nat) (p : point T) : point T :=
    Point (p_at p) (filter (fun x => negb (Nat.eqb (fst x) e)) (p_edges p)).

  (** decl.cpp:469-481 [new_line_edge] *)
  Definition new_line_edge d (a b : nat) : outcome (dcel T * nat) :=
    let e := length (d_halves d) in
    let d := wd_halves d (d_halves d ++ [Some (Half a b None None None None (d_type d) [])]) in
    let d := wd_edges d (d_edges d ++ [e]) in
    do d <- dpmod d a (add_edge e true) ;;
    do d <- dpmod d b (add_edge e false) ;;
    Ok (d, e).

  (** decl.cpp:278-281 [set_current_path_type] *)
  Definition set_current_path_type d (t : path_type) : dcel T := wd_type d t.
  (** decl.cpp:288-298 [add_line] *)
  Definition add_line d (x1 y1 x2 y2 : T) : outcome (dcel T) :=
    if n_eqb x1 x2 && n_eqb y1 y2 then Ok d
    else
      let '(d, a) := find_or_add_point d x1 y1 in
      let '(d, b) := find_or_add_point d x2 y2 in
      do (d, _) <- new_line_edge d a b ;; Ok d.

  (** dcel.h:102-104 [add_break_point] *)
  Definition add_break_point d (e : nat) (p : vec) : outcome (dcel T) :=
    hmod d e (fun h => set_breaks (oset_insert vec_ltb p (h_breaks h)) h).
  Definition add_break_if (c : bool) d e p : outcome (dcel T) :=
    if c then add_break_point d e p else Ok d.
  Definition in_01 (t : T) : bool := n_ltb (n_ofZ 0%Z) t && n_ltb t (n_ofZ 1%Z).
  (** decl.cpp:100-119 [intersect] *)
  Definition half_intersect d (l r : nat) : outcome (dcel T) :=
    do hl <- half_at d l ;;
    do hr <- half_at d r ;;
    do p0 <- point_at_ d (h_start hl) ;;
    do p1 <- point_at_ d (h_end hl) ;;
    do p2 <- point_at_ d (h_start hr) ;;
    do p3 <- point_at_ d (h_end hr) ;;
    do res <- intersect_lines (p_at p0) (p_at p1) (p_at p2) (p_at p3) ;;
    match res with
    | [i] => do d <- add_break_point d r (ip i) ;; add_break_point d l (ip i)
    | [i; j] =>
      do d <- add_break_if (in_01 (it0 i)) d l (ip i) ;;
      do d <- add_break_if (in_01 (it1 i)) d r (ip i) ;;
      do d <- add_break_if (in_01 (it0 j)) d l (ip j) ;;
      add_break_if (in_01 (it1 j)) d r (ip j)
    | _ => Ok d
    end.
  (** the callback of the scan line (decl.cpp:36-50) for each pair in turn *)
  Fixpoint intersect_all d (ids : list nat) (pairs : list (nat * nat)) : outcome (dcel T) :=
    match pairs with
    | [] => Ok d
    | (i, j) :: r =>
      do a <- at_ ids i ;;
      do b <- at_ ids j ;;
      do d <- half_intersect d a b ;;
      intersect_all d ids r
    end.

  (** dcel.h:121-123 [get_boundary] *)
  Definition half_box d (e : nat) : outcome (rect T) :=
    do h <- half_at d e ;;
    do p <- point_at_ d (h_start h) ;;
    do q <- point_at_ d (h_end h) ;;
    Ok (rect_from [p_at p; p_at q]).
  Fixpoint half_boxes d (l : list nat) : outcome (list (rect T)) :=
    match l with
    | [] => Ok []
    | e :: r => do b <- half_box d e ;; do bs <- half_boxes d r ;; Ok (b :: bs)
    end.

  Variable en : denv.
  (** Iteration over [std::set<half_edge*>]. *)
  Definition by_addr (l : list nat) : list nat := sort_by (fun a b => Z.ltb (de_addr en a) (de_addr en b)) l.

  (** decl.cpp:219-231 [compare].  Not a strict weak order in general; on points
      of the segment in exact arithmetic it is. *)
  Definition along_ltb (s e : vec) (r l : vec) : bool :=
    let dx := n_leb (vx s) (vx e) in
    let dy := n_leb (vy s) (vy e) in
    if dx && n_ltb (vx r) (vx l) then true
    else if negb dx && n_ltb (vx l) (vx r) then true
    else if dy && n_ltb (vy r) (vy l) then true
    else negb dy && n_ltb (vy l) (vy r).
  (** decl.cpp:241-252: the pieces, from [cur] *)
  Fixpoint add_pieces d (cur : nat) (bp : list vec) (fin : nat) : outcome (dcel T) :=
    match bp with
    | [] => do (d, _) <- new_line_edge d cur fin ;; Ok d
    | p :: r =>
      let '(d, c) := find_or_add_point d (vx p) (vy p) in
      do (d, _) <- new_line_edge d cur c ;;
      add_pieces d c r fin
    end.
  (** decl.cpp:319-330, with 212-255 [process_break_point] *)
  Definition break_half d (e : nat) : outcome (dcel T) :=
    do h <- half_at d e ;;
    match h_breaks h with
    | [] => Ok d
    | bs =>
      do p <- point_at_ d (h_start h) ;;
      do q <- point_at_ d (h_end h) ;;
      do d <- add_pieces d (h_start h) (sort_by (along_ltb (p_at p) (p_at q)) bs) (h_end h) ;;
      let d := wd_edges d (filter (fun i => negb (Nat.eqb i e)) (d_edges d)) in
      do d <- dpmod d (h_start h) (remove_edge e) ;;
      do d <- dpmod d (h_end h) (remove_edge e) ;;
      Ok (wd_halves d (upd (d_halves d) e (fun _ => None)))
    end.
  Fixpoint break_halves d (l : list nat) : outcome (dcel T) :=
    match l with
    | [] => Ok d
    | e :: r => do d <- break_half d e ;; break_halves d r
    end.
  (** decl.cpp:307-332 [process_break] *)
  Definition process_break d : outcome (dcel T) :=
    let ids := by_addr (d_edges d) in
    do bs <- half_boxes d ids ;;
    do d <- intersect_all d ids (scan_process (de_order en) (scan_of bs)) ;;
    break_halves d (by_addr (d_edges d)).

  (** decl.cpp:257-263 [line_half_edge::build_twin] *)
  Definition build_twin d (e : nat) : outcome (dcel T) :=
    do h <- half_at d e ;;
    do (d, t) <- new_line_edge d (h_end h) (h_start h) ;;
    do d <- hmod d t (set_twin (Some e)) ;;
    hmod d e (set_twin (Some t)).
  Fixpoint build_twins_of d (l : list nat) : outcome (dcel T) :=
    match l with
    | [] => Ok d
    | e :: r => do d <- build_twin d e ;; build_twins_of d r
    end.
  (** decl.cpp:334-342 [dcel::build_twin] *)
  Definition build_twins d : outcome (dcel T) := build_twins_of d (by_addr (d_edges d)).

  (** decl.cpp:265-276 [get_sort_data] *)
  Definition sort_angle d (e : nat) : outcome T :=
    do h <- half_at d e ;;
    do p <- point_at_ d (h_start h) ;;
    do q <- point_at_ d (h_end h) ;;
    let l := vsub (p_at q) (p_at p) in
    let a := n_atan2 (vy l) (vx l) in
    Ok (if n_eqb a (n_neg n_pi) then n_neg a else a).
  (** decl.cpp:139-147 *)
  Fixpoint sort_vector d (l : list (nat * bool)) : outcome (list ((nat * bool) * T)) :=
    match l with
    | [] => Ok []
    | (e, emit) :: r =>
      do a <- (if emit : bool then sort_angle d e
               else do h <- half_at d e ;; do t <- deref (h_twin h) ;; sort_angle d t) ;;
      do v <- sort_vector d r ;;
      Ok (((e, emit), a) :: v)
    end.
  (** decl.cpp:149-166; only lines exist, so nothing is thrown *)
  Definition emit_ltb (l r : (nat * bool) * T) : bool :=
    let '((le, lm), la) := l in
    let '((re, rm), ra) := r in
    if n_ltb la ra then true
    else if n_ltb ra la then false
    else if lm && negb rm then true
    else if negb lm && rm then false
    else Z.ltb (de_addr en re) (de_addr en le).
  (** decl.cpp:131-173 [point::sort] *)
  Definition sort_point d (i : nat) : outcome (dcel T) :=
    do p <- point_at_ d i ;;
    do v <- sort_vector d (p_edges p) ;;
    dpmod d i (fun p => Point (p_at p) (map fst (sort_by emit_ltb v))).
  Fixpoint sort_points d (l : list nat) : outcome (dcel T) :=
    match l with
    | [] => Ok d
    | i :: r => do d <- sort_point d i ;; sort_points d r
    end.

  (** Index of the first entry of [e]: decl.cpp:177 *)
  Fixpoint entry_of (e : nat) (l : list (nat * bool)) : option nat :=
    match l with
    | [] => None
    | x :: r => if Nat.eqb (fst x) e then Some 0 else option_map S (entry_of e r)
    end.
  (** decl.cpp:191-193; the entries are those met going round once.  If none
      fits the loop goes on for ever, since nothing changes: [NoFuel]. *)
  Fixpoint first_free d (l : list (nat * bool)) : outcome nat :=
    match l with
    | [] => NoFuel
    | (e, emit) :: r =>
      if emit : bool then
        do h <- half_at d e ;;
        match h_prev h with None => Ok e | Some _ => first_free d r end
      else first_free d r
    end.
  (** decl.cpp:175-196 [point::get_next] *)
  Definition get_next d (p : point T) (e : nat) : outcome (option nat) :=
    match entry_of e (p_edges p) with
    | None => Ok None
    | Some k => do n <- first_free d (skipn (S k) (p_edges p) ++ firstn (S k) (p_edges p)) ;; Ok (Some n)
    end.

  (** decl.cpp:364-386 *)
  Fixpoint walk_face (fuel : nat) d (f e loop_start c : nat) : outcome (dcel T) :=
    match fuel with
    | O => NoFuel
    | S fuel =>
      do h <- half_at d c ;;
      match h_next h with
      | Some _ => Ok d
      | None =>
        do d <- hmod d c (set_face (Some f)) ;;
        do p <- point_at_ d (h_end h) ;;
        do o <- get_next d p c ;;
        do d <- hmod d c (set_next o) ;;
        do n <- deref o ;;
        do d <- hmod d n (set_prev (Some c)) ;;
        do hn <- half_at d n ;;
        if Nat.eqb (h_end hn) loop_start then
          do d <- hmod d n (set_next (Some e)) ;;
          hmod d e (set_prev (Some n))
        else walk_face fuel d f e loop_start n
      end
    end.
  (** decl.cpp:354-363 *)
  Definition start_face d (e : nat) : outcome (dcel T) :=
    do h <- half_at d e ;;
    match h_next h with
    | Some _ => Ok d
    | None =>
      let f := length (d_fpool d) in
      let d := wd_fpool d (d_fpool d ++ [e]) in
      let d := wd_faces d (d_faces d ++ [f]) in
      walk_face (S (length (d_halves d))) d f e (h_start h) e
    end.
  Fixpoint link_faces d (l : list nat) : outcome (dcel T) :=
    match l with
    | [] => Ok d
    | e :: r => do d <- start_face d e ;; link_faces d r
    end.

  (** [std::map<point*, half_edge*>::find] *)
  Fixpoint idx_find (k : nat) (l : list (nat * nat)) : option nat :=
    match l with
    | [] => None
    | (i, e) :: r => if Nat.eqb i k then Some e else idx_find k r
    end.
  (** decl.cpp:442-465: the loop of [split_face] *)
  Fixpoint split_walk (fuel : nat) d (start c : nat) (idx : list (nat * nat)) : outcome (dcel T * option nat) :=
    match fuel with
    | O => NoFuel
    | S fuel =>
      do h <- half_at d c ;;
      match idx_find (h_end h) idx with
      | None =>
        do n <- deref (h_next h) ;;
        if Nat.eqb n start then Ok (d, None) else split_walk fuel d start n ((h_end h, c) :: idx)
      | Some e1 =>
        let left := length (d_fpool d) in
        do h1 <- half_at d e1 ;;
        do e2 <- deref (h_next h1) ;;
        do e4 <- deref (h_next h) ;;
        do d <- hmod d e1 (set_next (Some e4)) ;;
        do d <- hmod d e4 (set_prev (Some e1)) ;;
        let d := wd_fpool d (d_fpool d ++ [e2]) in
        do d <- hmod d e2 (set_prev (Some c)) ;;
        do d <- hmod d c (set_next (Some e2)) ;;
        Ok (d, Some left)
      end
    end.
  (** decl.cpp:436-467 [split_face] *)
  Definition split_face d (f : nat) : outcome (dcel T * option nat) :=
    do start <- at_ (d_fpool d) f ;;
    split_walk (S (length (d_halves d))) d start start [].
  (** decl.cpp:392-405; [old] has its [back] first *)
  Fixpoint split_faces (fuel : nat) d (old : list nat) : outcome (dcel T) :=
    match fuel with
    | O => NoFuel
    | S fuel =>
      match old with
      | [] => Ok d
      | f :: r =>
        do (d, o) <- split_face d f ;;
        match o with
        | Some g => split_faces fuel d (g :: old)
        | None => split_faces fuel (wd_faces d (d_faces d ++ [f])) r
        end
      end
    end.
  (** decl.cpp:344-405 [build_face] (the rest is debugging output) *)
  Definition build_face d : outcome (dcel T) :=
    do d <- sort_points d (d_pset d) ;;
    do d <- link_faces d (by_addr (d_edges d)) ;;
    let old := d_faces d in
    split_faces (S (3 * length (d_halves d))) (wd_faces d []) (rev old).

  (** decl.cpp:300-305 [process] *)
  Definition dcel_process d : outcome (dcel T) :=
    do d <- process_break d ;;
    do d <- build_twins d ;;
    build_face d.

  (** A user of the class before [process]. *)
  Inductive dcall := DType (t : path_type) | DLine (x1 y1 x2 y2 : T).
  Definition dcall_run d (c : dcall) : outcome (dcel T) :=
    match c with
    | DType t => Ok (set_current_path_type d t)
    | DLine x1 y1 x2 y2 => add_line d x1 y1 x2 y2
    end.
  Fixpoint dcalls_run d (l : list dcall) : outcome (dcel T) :=
    match l with
    | [] => Ok d
    | c :: r => do d <- dcall_run d c ;; dcalls_run d r
    end.
End Dcel.
Arguments dcall : clear implicits.
