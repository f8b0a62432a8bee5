(** Reading contours into vertex rings: vatti.cpp. *)
From Coq Require Import ZArith Bool List.
From Verif Require Import Outcome Num Rmath Segment Path VState.
Import ListNotations.
Local Open Scope out.

Section VPath.
  Context {T : Type} {N : Num T}.
  Notation vec := (vec2 T).
  Implicit Types s : clipper T.

  (** vatti.cpp:50-52 *)
  Definition v_err : T := n_div (n_ofZ 1) (n_ofZ 1000000).
  Definition v_zero : T := n_add (n_ofZ 0) v_err.
  Definition v_one : T := n_sub (n_ofZ 1) v_err.
  Definition in_open (t : T) : bool := n_ltb v_zero t && n_ltb t v_one.

  (** vatti.cpp:430-435 [new_vertex]: value-initialised *)
  Definition vertex0 : vertex T := Vertex (V2 (n_ofZ 0) (n_ofZ 0)) None None None false false.
  Definition new_vertex s : nat * clipper T := (length (verts s), w_verts s (verts s ++ [vertex0])).

  (** vatti.cpp:74-81 [add_local_min] *)
  Definition add_local_min s (v : nat) (pt : path_type) : outcome (clipper T) :=
    do x <- at_ (verts s) v ;;
    if v_min x then Ok s
    else
      do s <- vmod s v (set_vmin true) ;;
      Ok (w_lmins s (lmins s ++ [Lmin v pt]) (minima s ++ [length (lmins s)])).

  (** vatti.cpp:140-148 [set_segment] *)
  Definition set_segment s (prev : option nat) (mem : nat) (g : seg T) : outcome (clipper T) :=
    do prev <- deref prev ;;
    do s <- vmod s prev (fun v => set_vseg (Some g) (set_vnext (Some mem) v)) ;;
    vmod s mem (fun v => Vertex (seg_target g) (v_seg v) (v_next v) (Some prev) false false).

  (** vatti.cpp:506-515: walking back over the horizontal run that ends at
      [first]; [None] if all is horizontal *)
  Fixpoint start_dir (fuel : nat) (vs : list (vertex T)) (first e : nat) : outcome (option bool) :=
    match fuel with
    | O => NoFuel
    | S fuel =>
      do ve <- at_ vs e ;;
      do p <- deref (v_prev ve) ;;
      do vp <- at_ vs p ;;
      if n_eqb (vy (v_pt ve)) (vy (v_pt vp)) then
        if Nat.eqb p first then Ok None else start_dir fuel vs first p
      else Ok (Some (n_ltb (vy (v_pt ve)) (vy (v_pt vp))))
    end.

  (** vatti.cpp:523-538: marking extrema; returns the last [prev] and
      [going_down] *)
  Fixpoint mark_extrema (fuel : nat) s (pt : path_type) (first prev c : nat) (going_down : bool)
      : outcome (clipper T * (nat * bool)) :=
    if Nat.eqb c first then Ok (s, (prev, going_down)) else
    match fuel with
    | O => NoFuel
    | S fuel =>
      do vc <- at_ (verts s) c ;;
      do vp <- at_ (verts s) prev ;;
      do sg <- (if n_ltb (vy (v_pt vp)) (vy (v_pt vc)) && going_down then
                  do s <- add_local_min s prev pt ;; Ok (s, false)
                else if n_ltb (vy (v_pt vc)) (vy (v_pt vp)) && negb going_down then
                  do s <- vmod s prev (set_vmax true) ;; Ok (s, true)
                else Ok (s, going_down)) ;;
      let '(s, going_down) := sg in
      do vc <- at_ (verts s) c ;;
      do n <- deref (v_next vc) ;;
      mark_extrema fuel s pt first c n going_down
    end.

  (** vatti.cpp:459-569 [insert_vertex_list].  Loop bounds: one step per vertex. *)
  Definition insert_vertex_list s (first end_ : option nat) (pt : path_type) : outcome (clipper T) :=
    match first, end_ with
    | Some first, Some end_ =>
      do vf <- at_ (verts s) first ;;
      match v_next vf with
      | None => Ok s
      | Some n =>
        if Nat.eqb n first then Ok s else
        do ve <- at_ (verts s) end_ ;;
        do s <- (if vneqb (v_pt vf) (v_pt ve) then
                   set_segment s (Some end_) first (SLine (v_pt vf))
                 else
                   do p <- deref (v_prev ve) ;;
                   do vp <- at_ (verts s) p ;;
                   do g <- of_opt NullDeref (v_seg vp) ;;
                   set_segment s (Some p) first g) ;;
        do vf <- at_ (verts s) first ;;
        do n <- deref (v_next vf) ;;
        if Nat.eqb n first then Ok s else
        do d <- start_dir (length (verts s)) (verts s) first first ;;
        match d with
        | None => Ok s
        | Some d0 =>
          do r <- mark_extrema (length (verts s)) s pt first first n d0 ;;
          let '(s, (prev, d)) := r in
          do s <- (if Bool.eqb d d0 then Ok s
                   else if d0 then vmod s prev (set_vmax true)
                   else add_local_min s prev pt) ;;
          Ok (w_starts s (starts s ++ [first]))
        end
      end
    | _, _ => Ok s
    end.

  (** vatti.cpp:198-212 [process_path_data] together with the clipper it points to *)
  Record rd_state := Rd { rd_clip : clipper T; rd_type : path_type; rd_prev : option nat; rd_first : option nat }.

  (** vatti.cpp:237, 276 ...: new_cur_vertex, set_segment, next_loop *)
  Definition append_seg (r : rd_state) (g : seg T) : outcome rd_state :=
    let '(c, s) := new_vertex (rd_clip r) in
    do s <- set_segment s (rd_prev r) c g ;;
    Ok (Rd s (rd_type r) (Some c) (rd_first r)).

  (** vatti.cpp:214-230 [read_moveto] *)
  Definition read_moveto (from to : vec) (r : rd_state) : outcome rd_state :=
    do s <- (match rd_first r with
             | Some _ => insert_vertex_list (rd_clip r) (rd_first r) (rd_prev r) (rd_type r)
             | None => Ok (rd_clip r)
             end) ;;
    let '(c, s) := new_vertex s in
    do s <- vmod s c (set_vpt to) ;;
    Ok (Rd s (rd_type r) (Some c) (Some c)).

  (** vatti.cpp:232-240 [read_lineto] *)
  Definition read_lineto (from to : vec) (r : rd_state) : outcome rd_state :=
    if vneqb from to then append_seg r (SLine to) else Ok r.

  (** vatti.cpp:248-302 [read_cubicto] *)
  Definition read_cubicto (from c1 c2 to : vec) (r : rd_state) : outcome rd_state :=
    if n_eqb (vy from) (vy c1) && n_eqb (vy c1) (vy c2) && n_eqb (vy c2) (vy to) then
      read_lineto from to r
    else
      let b := Bez from c1 c2 to in
      let cubic z := SCubic (b1 z) (b2 z) (b3 z) in
      match bsplit_many b (filter in_open (split_y b)) with
      | [z0; z1; z2] =>
        do r <- append_seg r (cubic z0) ;;
        do r <- append_seg r (cubic z1) ;;
        append_seg r (cubic z2)
      | [z0; z1] =>
        do r <- append_seg r (cubic z0) ;;
        append_seg r (cubic z1)
      | _ => append_seg r (SCubic c1 c2 to)
      end.

  (** vatti.cpp:304-308, 367-382 [add_path(read_path, &path, pt, false)] *)
  Definition add_one_path s (p : path T) (pt : path_type) : outcome (clipper T) :=
    do r <- traverse p (Funcs (Some read_moveto) (Some read_lineto) (Some read_cubicto)) (Rd s pt None None) ;;
    insert_vertex_list (rd_clip r) (rd_first r) (rd_prev r) pt.

  (** vatti.cpp:55-57, 357-365 [add_path(paths, pt, is_open)] *)
  Fixpoint add_paths s (ps : list (path T)) (pt : path_type) : outcome (clipper T) :=
    match ps with
    | [] => Ok s
    | p :: r =>
      do s <- (if Nat.ltb 1 (length (p_data p)) then add_one_path s p pt else Ok s) ;;
      add_paths s r pt
    end.
End VPath.
Arguments rd_state : clear implicits.
