(** What a user of the clipper expects, stated without its internals. *)
From Coq Require Import ZArith Bool List.
From Verif Require Import Outcome Num Rmath Segment Path PathSpec VState VPath VBreak VAel VOut VMain.
Import ListNotations.

Section Loaded.
  Context {T : Type} {N : Num T}.

  (** A processor on which only add_path has been called. *)
  Inductive loaded : clipper T -> Prop :=
  | loaded_new : loaded clipper0
  | loaded_add s ps pt s' : loaded s -> add_paths s ps pt = Ok s' -> loaded s'.

  (** [history s s']: calls of add_path and process lead from [s] to [s']. *)
  Inductive history : clipper T -> clipper T -> Prop :=
  | history_none s : history s s
  | history_add s s1 ps pt s2 : history s s1 -> add_paths s1 ps pt = Ok s2 -> history s s2
  | history_run s s1 en fuel op fill s2 l : history s s1 -> process en fuel s1 op fill = Ok (s2, l) -> history s s2.
  (** The same without process. *)
  Inductive additions : clipper T -> clipper T -> Prop :=
  | additions_none s : additions s s
  | additions_add s s1 ps pt s2 : additions s s1 -> add_paths s1 ps pt = Ok s2 -> additions s s2.

  (** *** The stream of callbacks *)
  Notation call := (call (T := T)).
  Definition call_from (c : call) := match c with MoveTo a _ => a | LineTo a _ => a | CubicTo a _ _ _ => a end.
  Definition call_to (c : call) := match c with MoveTo _ b => b | LineTo _ b => b | CubicTo _ _ _ b => b end.
  Definition is_move (c : call) := match c with MoveTo _ _ => true | _ => false end.

  (** Every call starts where the previous one ended. *)
  Fixpoint connected (p : vec2 T) (l : list call) : Prop :=
    match l with
    | [] => True
    | c :: r => call_from c = p /\ is_move c = false /\ connected (call_to c) r
    end.
  (** One moveto and at least one drawing call. *)
  Definition contour (l : list call) : Prop :=
    match l with
    | MoveTo _ p :: r => r <> [] /\ connected p r
    | _ => False
    end.
  (** The stream is a sequence of contours [cs]. *)
  Definition contours (l : list call) (cs : list (list call)) : Prop :=
    l = concat cs /\ Forall contour cs.

  (** A contour is closed if its last call ends at the moveto point. *)
  Definition closed (l : list call) : Prop :=
    match l with
    | MoveTo _ p :: r => r <> [] /\ call_to (last r (MoveTo p p)) = p
    | _ => False
    end.

  (** The path a client would build from the same calls. *)
  Definition as_pcall (c : call) : pcall T :=
    match c with MoveTo _ p => PMove p | LineTo _ p => PLine p | CubicTo _ a b p => PCubic a b p end.
  Definition as_path (l : list call) : path T := run_calls (map as_pcall l).
End Loaded.

(** *** Regions *)
Section Region.
  Context {T : Type} {N : Num T}.

  (** The ray from [p] to the left crosses the segment from [a] to [b]: one end at
      or below, the other above [p], and [p] on the right of the segment. *)
  Definition crosses (p a b : vec2 T) : bool :=
    let up := n_leb (vy a) (vy p) && n_ltb (vy p) (vy b) in
    let down := n_leb (vy b) (vy p) && n_ltb (vy p) (vy a) in
    let det := n_sub (n_mul (n_sub (vx b) (vx a)) (n_sub (vy p) (vy a)))
                     (n_mul (n_sub (vx p) (vx a)) (n_sub (vy b) (vy a))) in
    (up && n_ltb det (n_ofZ 0)) || (down && n_ltb (n_ofZ 0) det).
  (** Even-odd rule for a stream of straight contours. *)
  Definition inside (p : vec2 T) (l : list (call (T := T))) : bool :=
    Nat.odd (length (filter (fun c => match c with
      | LineTo a b => crosses p a b | _ => false end) l)).

  (** What the operations mean. *)
  Definition bool_op (op : clip_type) (s c : bool) : bool :=
    match op with
    | op_none => false
    | op_intersection => s && c
    | op_union => s || c
    | op_difference => s && negb c
    | op_xor => xorb s c
    end.
End Region.

(** *** The states of a run *)
Section Run.
  Context {T : Type} {N : Num T}.
  Local Open Scope out.
  (** The states at the start of each turn of the main loop (vatti.cpp:405), with
      the y of the scan line.  [n] bounds the walks along the output bounds. *)
  Inductive seen (en : env) (n : nat) (s0 : clipper T) (op : clip_type) (fill : fill_rule) : clipper T -> T -> Prop :=
  | seen_first s1 s2 s3 y :
      process_intersect en (w_op s0 op fill) = Ok s1 -> reset s1 = Ok s2 ->
      pop_scanline s2 (n_neg n_huge) = (Some y, s3) -> seen en n s0 op fill s3 y
  | seen_next s y s1 s2 s3 y' :
      seen en n s0 op fill s y -> scan_at n s y = Ok s1 ->
      pop_scanline s1 y = (Some y', s2) -> beam n s2 y' = Ok s3 -> seen en n s0 op fill s3 y'.
End Run.
