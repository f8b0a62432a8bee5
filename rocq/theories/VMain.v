(** The clipper: vatti.cpp, and the thin wrapper processor.cpp. *)
From Coq Require Import ZArith Bool List.
From Verif Require Import Outcome Num Rmath Segment Path ScanLine VState VPath VBreak VAel VOut.
Import ListNotations.
Local Open Scope out.

Section VMain.
  Context {T : Type} {N : Num T}.
  Implicit Types s : clipper T.

  (** vatti.cpp:711-718: dropping equal values from the front of the queue *)
  Fixpoint drop_eq (y : T) (l : list T) : list T :=
    match l with
    | [] => []
    | x :: r => if n_eqb x y then drop_eq y r else l
    end.
  (** vatti.cpp:705-720 [pop_scanline]: the new y, if any *)
  Definition pop_scanline s (old_y : T) : option T * clipper T :=
    match drop_eq old_y (scans s) with
    | [] => (None, w_scans s [])
    | y :: r => (Some y, w_scans s (drop_eq y r))
    end.

  (** vatti.cpp:343-346 *)
  Definition min_ltb s (l r : nat) : bool :=
    match nth_error (lmins s) l, nth_error (lmins s) r with
    | Some l, Some r =>
      match nth_error (verts s) (lm_vert l), nth_error (verts s) (lm_vert r) with
      | Some a, Some b =>
        if n_eqb (vy (v_pt a)) (vy (v_pt b)) then n_ltb (vx (v_pt a)) (vx (v_pt b))
        else n_ltb (vy (v_pt a)) (vy (v_pt b))
      | _, _ => false
      end
    | _, _ => false
    end.
  (** vatti.cpp:348-350 *)
  Fixpoint push_minima s (l : list nat) : outcome (clipper T) :=
    match l with
    | [] => Ok s
    | m :: r =>
      do lm <- at_ (lmins s) m ;;
      do v <- at_ (verts s) (lm_vert lm) ;;
      push_minima (insert_scanline s (vy (v_pt v))) r
    end.
  (** vatti.cpp:339-355 [reset] *)
  Definition reset s : outcome (clipper T) :=
    let l := sort_by (min_ltb s) (minima s) in
    do s <- push_minima (w_minima s l 0) (rev l) ;;
    Ok (w_obl (w_ael s None) None).

  (** vatti.cpp:410-413: from one scan line to the next *)
  Definition beam (n : nat) s (y : T) : outcome (clipper T) :=
    do s <- do_top_of_scanbeam s y ;;
    do s <- close_output n s y ;;
    resort_ael s.
  (** vatti.cpp:407-409 *)
  Definition scan_at (n : nat) s (y : T) : outcome (clipper T) :=
    do s <- insert_local_minima_to_ael s y ;;
    do s <- recalc_windcnt s ;;
    update_output_bound n s y.
  (** vatti.cpp:405-414; [fuel] bounds the number of scan lines, [n] the walks along
      the output bounds *)
  Fixpoint sweep (n fuel : nat) s (y : T) : outcome (clipper T) :=
    match fuel with
    | O => NoFuel
    | S fuel =>
      do s <- scan_at n s y ;;
      match pop_scanline s y with
      | (None, s) => Ok s
      | (Some y', s) => do s <- beam n s y' ;; sweep n fuel s y'
      end
    end.

  (** vatti.cpp:394-428 [process]: the clipper afterwards and the calls made to
      the write functions.  [fuel] bounds the loops that are not bounded by the
      size of the store; [NoFuel] is never an answer of the program. *)
  Definition process (en : env) (fuel : nat) s (op : clip_type) (fill : fill_rule)
      : outcome (clipper T * list (call (T := T))) :=
    do s <- process_intersect en (w_op s op fill) ;;
    do s <- reset s ;;
    match pop_scanline s (n_neg n_huge) with
    | (None, s) => Ok (s, [])
    | (Some y, s) =>
      do s <- sweep fuel fuel s y ;;
      Ok (s, build_output s)
    end.

  (** vatti.cpp:310-327: the write functions of the overload with [paths&] *)
  Definition write_call (out : list (path T)) (c : call) : outcome (list (path T)) :=
    match c with
    | MoveTo _ to => Ok (out ++ [moveto path_empty (vx to) (vy to)])
    | LineTo _ to =>
      match rev out with
      | [] => UB BackOfEmpty
      | p :: r => Ok (rev r ++ [lineto p (vx to) (vy to)])
      end
    | CubicTo _ c1 c2 to =>
      match rev out with
      | [] => UB BackOfEmpty
      | p :: r => Ok (rev r ++ [cubicto p c1 c2 to])
      end
    end.
  Fixpoint write_calls (out : list (path T)) (l : list call) : outcome (list (path T)) :=
    match l with
    | [] => Ok out
    | c :: r => do out <- write_call out c ;; write_calls out r
    end.
  (** vatti.cpp:384-392 [process(operation, fill, paths&)] *)
  Definition process_paths (en : env) (fuel : nat) s (op : clip_type) (fill : fill_rule) (out : list (path T))
      : outcome (clipper T * list (path T)) :=
    do r <- process en fuel s op fill ;;
    let '(s, l) := r in
    do out <- write_calls out l ;;
    Ok (s, out).
End VMain.
