(** The clipper with any function in place of std::sort.  The model sorts by insertion, which
    keeps equivalent elements in order; std::sort need not.  list::sort (vatti.cpp:921) does. *)
From Coq Require Import ZArith Bool List.
From Verif Require Import Outcome Num Rmath Segment Path ScanLine VState VPath VBreak VAel VOut VMain.
Import ListNotations.
Local Open Scope out.

Section VSort.
  Context {T : Type} {N : Num T}.
  Implicit Types s : clipper T.
  Variable srt : forall A : Type, (A -> A -> bool) -> list A -> list A.

  (** vatti.cpp:596-601 *)
  Definition tidy_breaks_by (en : env) (l : list (break_info T)) : list (break_info T) :=
    unique_by break_eqb (srt _ (break_ltb en) l).
  (** vatti.cpp:607-670 *)
  Definition break_vertex_by s (st : nat) (bs : list (break_info T)) : outcome (clipper T) :=
    do v <- at_ (verts s) st ;;
    do g <- of_opt NullDeref (v_seg v) ;;
    match g with
    | SLine _ => relink s st (map (fun b => SLine (br_pt b)) bs) (fun p => SLine p)
    | SCubic c1 c2 t =>
      let bs := srt _ (fun l r => n_ltb (br_t l) (br_t r)) bs in
      do gl <- cubic_pieces (bsplit_many (cubic_from (v_pt v) c1 c2 t) (map br_t bs)) bs ;;
      let '(gs, l) := gl in relink s st gs (fun p => SCubic (b1 l) (b2 l) p)
    | _ => Ok s
    end.
  (** vatti.cpp:606-673 *)
  Fixpoint break_all_by (fuel : nat) s (l : list (break_info T)) : outcome (clipper T) :=
    match l with
    | [] => Ok s
    | b :: _ =>
      match fuel with
      | O => NoFuel
      | S fuel =>
        let '(run, rest) := take_run (br_vert b) l in
        do s <- break_vertex_by s (br_vert b) run ;;
        break_all_by fuel s rest
      end
    end.
  (** vatti.cpp:571-703 [process_intersect]; the sort inside the intersection of two cubics
      (rmath.cpp:897) is left as it is *)
  Definition process_intersect_by (en : env) s : outcome (clipper T) :=
    do bs <- find_breaks en (verts s) (starts s) ;;
    let bs := tidy_breaks_by en bs in
    let s := w_breaks s bs in
    break_all_by (length bs) s bs.

  (** vatti.cpp:769-770, 1221-1222 *)
  Definition tidy_changes_by (l : list T) : list T := unique_by n_eqb (srt _ n_ltb l).
  (** vatti.cpp:767-791 [recalc_windcnt] *)
  Definition recalc_windcnt_by s : outcome (clipper T) :=
    let s := w_changes s (tidy_changes_by (changes s)) in
    recalc_all s (changes s) (ael s).
  (** vatti.cpp:1218-1244 [resort_ael] *)
  Definition resort_ael_by s : outcome (clipper T) :=
    let s := w_changes s (tidy_changes_by (changes s)) in
    do r <- take_changed (length (changes s) + length (edges s)) s (changes s) (ael s) [] ;;
    let '(s, l) := r in insert_all s l.

  (** vatti.cpp:339-355 [reset] *)
  Definition reset_by s : outcome (clipper T) :=
    let l := srt _ (min_ltb s) (minima s) in
    do s <- push_minima (w_minima s l 0) (rev l) ;;
    Ok (w_obl (w_ael s None) None).
  (** vatti.cpp:410-413 *)
  Definition beam_by (n : nat) s (y : T) : outcome (clipper T) :=
    do s <- do_top_of_scanbeam s y ;;
    do s <- close_output n s y ;;
    resort_ael_by s.
  (** vatti.cpp:407-409 *)
  Definition scan_at_by (n : nat) s (y : T) : outcome (clipper T) :=
    do s <- insert_local_minima_to_ael s y ;;
    do s <- recalc_windcnt_by s ;;
    update_output_bound n s y.
  (** vatti.cpp:405-414 *)
  Fixpoint sweep_by (n fuel : nat) s (y : T) : outcome (clipper T) :=
    match fuel with
    | O => NoFuel
    | S fuel =>
      do s <- scan_at_by n s y ;;
      match pop_scanline s y with
      | (None, s) => Ok s
      | (Some y', s) => do s <- beam_by n s y' ;; sweep_by n fuel s y'
      end
    end.
  (** vatti.cpp:394-428 [process] *)
  Definition process_by (en : env) (fuel : nat) s (op : clip_type) (fill : fill_rule)
      : outcome (clipper T * list (call (T := T))) :=
    do s <- process_intersect_by en (w_op s op fill) ;;
    do s <- reset_by s ;;
    match pop_scanline s (n_neg n_huge) with
    | (None, s) => Ok (s, [])
    | (Some y, s) =>
      do s <- sweep_by fuel fuel s y ;;
      Ok (s, build_output s)
    end.
End VSort.
