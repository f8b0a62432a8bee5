(** Edges, the active edge list and the winding counts: vatti.cpp. *)
From Coq Require Import ZArith Bool List.
From Verif Require Import Outcome Num Rmath Segment VState.
Import ListNotations.
Local Open Scope out.

Section VAel.
  Context {T : Type} {N : Num T}.
  Notation vec := (vec2 T).
  Implicit Types s : clipper T.

  (** vatti.cpp:59-61 *)
  Definition get_polytype s (e : edge T) : outcome path_type :=
    do m <- at_ (lmins s) (e_lmin e) ;; Ok (lm_type m).
  (** vatti.h:143 *)
  Definition edge_up (e : edge T) : bool := Z.ltb (e_dx e) 0.
  (** vatti.cpp:63 *)
  Definition is_horz (e : edge T) : bool := n_eqb (vy (e_bot e)) (vy (e_top e)).
  (** vatti.cpp:67-70 *)
  Definition is_maxima s (e : edge T) : outcome bool :=
    do v <- at_ (verts s) (e_vtop e) ;; Ok (v_max v).
  (** vatti.cpp:72 *)
  Definition is_hot (e : edge T) : bool := match e_bound e with Some _ => true | None => false end.

  (** vatti.cpp:101-114 [get_seg]: the segment and its start point *)
  Definition get_seg s (e : edge T) : outcome (option (seg T) * vec) :=
    do v <- at_ (verts s) (e_vtop e) ;;
    if edge_up e then
      do p <- deref (v_prev v) ;;
      do vp <- at_ (verts s) p ;;
      Ok (v_seg vp, v_pt vp)
    else Ok (v_seg v, e_top e).
  (** seg->curr_x(from, y) *)
  Definition edge_x_at s (e : edge T) (y : T) : outcome T :=
    do gf <- get_seg s e ;;
    do g <- of_opt NullDeref (fst gf) ;;
    seg_curr_x g (snd gf) y.
  (** vatti.cpp:122-138 [copy_seg] *)
  Definition copy_seg s (e : edge T) (reverse : bool) : outcome (seg T) :=
    do gf <- get_seg s e ;;
    do g <- of_opt NullDeref (fst gf) ;;
    match g with
    | SLine _ | SCubic _ _ _ => Ok (if reverse then seg_reverse g (snd gf) else g)
    | _ => Throw
    end.
  (** vatti.cpp:150-155 *)
  Definition update_x s (i : nat) (y : T) : outcome (clipper T) :=
    do e <- at_ (edges s) i ;;
    do x <- edge_x_at s e y ;;
    emod s i (set_ex x).

  (** vatti.cpp:157-167 [next] *)
  Definition next_edge s (i : nat) : outcome (clipper T) :=
    do e <- at_ (edges s) i ;;
    do v <- at_ (verts s) (e_vtop e) ;;
    do n <- deref (if edge_up e then v_next v else v_prev v) ;;
    do vn <- at_ (verts s) n ;;
    emod s i (fun e => Edge (e_top e) (v_pt vn) (vx (e_top e)) (e_dx e) (e_cnt e) (e_cnt2 e)
                (e_prev e) (e_next e) (e_bound e) n (e_lmin e)).

  (** vatti.cpp:169-196 [is_same] *)
  Definition is_same s (a b : edge T) : outcome bool :=
    do ga <- get_seg s a ;;
    do gb <- get_seg s b ;;
    if veqb (e_bot a) (e_bot b) && veqb (e_top a) (e_top b) then
      do ga <- of_opt NullDeref (fst ga) ;;
      do gb <- of_opt NullDeref (fst gb) ;;
      match ga, gb with
      | SLine _, SLine _ => Ok true
      | SCubic a1 a2 _, SCubic c1 c2 _ =>
        Ok ((veqb a1 c1 && veqb a2 c2) || (veqb a2 c1 && veqb a1 c2))
      | _, _ => Ok false
      end
    else Ok false.

  (** vatti.cpp:1113-1132 [is_valid_ael_order(resident, newcomer)] *)
  Definition valid_order s (r n : edge T) : outcome bool :=
    if negb (n_eqb (e_x n) (e_x r)) then Ok (n_ltb (e_x r) (e_x n))
    else
      let mn := n_min (vy (e_bot r)) (vy (e_bot n)) in
      let mx := n_min (vy (e_top r)) (vy (e_top n)) in
      let mid := n_div (n_add mn mx) (n_ofZ 2) in
      do rx <- edge_x_at s r mid ;;
      do nx <- edge_x_at s n mid ;;
      if negb (n_eqb rx nx) then Ok (n_ltb rx nx)
      else
        do pr <- get_polytype s r ;;
        do pn <- get_polytype s n ;;
        Ok (ptype_ltb pr pn).

  (** vatti.cpp:1087-1093: the last resident after which the newcomer goes *)
  Fixpoint find_place (fuel : nat) s (resident : nat) (newc : edge T) : outcome nat :=
    match fuel with
    | O => NoFuel
    | S fuel =>
      do r <- at_ (edges s) resident ;;
      match e_next r with
      | None => Ok resident
      | Some n =>
        do en <- at_ (edges s) n ;;
        do ok <- valid_order s en newc ;;
        if ok then find_place fuel s n newc else Ok resident
      end
    end.

  (** vatti.cpp:1087-1097: the search starts at [left], which is not null *)
  Definition insert_after s (left newcomer : nat) : outcome (clipper T) :=
    do nc <- at_ (edges s) newcomer ;;
    do resident <- find_place (length (edges s)) s left nc ;;
    do r <- at_ (edges s) resident ;;
    let next := e_next r in
    do s <- emod s newcomer (set_enext next) ;;
    do s <- emod_opt s next (set_eprev (Some newcomer)) ;;
    do s <- emod s newcomer (set_eprev (Some resident)) ;;
    emod s resident (set_enext (Some newcomer)).

  (** vatti.cpp:1061-1081 [insert_into_ael(newcomer)] *)
  Definition insert_into_ael s (newcomer : nat) : outcome (clipper T) :=
    match ael s with
    | None =>
      do s <- emod s newcomer (fun e => set_enext None (set_eprev None e)) ;;
      Ok (w_ael s (Some newcomer))
    | Some first =>
      do f <- at_ (edges s) first ;;
      do nc <- at_ (edges s) newcomer ;;
      do ok <- valid_order s f nc ;;
      if ok then insert_after s first newcomer
      else
        do s <- emod s newcomer (fun e => set_enext (Some first) (set_eprev None e)) ;;
        do s <- emod s first (set_eprev (Some newcomer)) ;;
        Ok (w_ael s (Some newcomer))
    end.
  (** vatti.cpp:1083-1098 [insert_into_ael(left, newcomer)] *)
  Definition insert_into_ael_left s (left : option nat) (newcomer : nat) : outcome (clipper T) :=
    match left with
    | None => insert_into_ael s newcomer
    | Some l => insert_after s l newcomer
    end.

  (** vatti.cpp:1100-1111 [take_from_ael] *)
  Definition take_from_ael s (i : nat) : outcome (clipper T) :=
    do e <- at_ (edges s) i ;;
    do s <- (match e_prev e with
             | Some p => emod s p (set_enext (e_next e))
             | None => Ok (w_ael s (e_next e))
             end) ;;
    do s <- emod_opt s (e_next e) (set_eprev (e_prev e)) ;;
    emod s i (fun e => set_enext None (set_eprev None e)).

  (** vatti.cpp:1452-1462 [delete_active_edge]: the removed edge keeps its links *)
  Definition delete_active_edge s (i : nat) : outcome (option nat * clipper T) :=
    do e <- at_ (edges s) i ;;
    do s <- emod_opt s (e_next e) (set_eprev (e_prev e)) ;;
    do s <- (match e_prev e with
             | Some p => emod s p (set_enext (e_next e))
             | None => Ok (w_ael s (e_next e))
             end) ;;
    Ok (e_next e, s).

  (** vatti.cpp:797: the nearest edge of the same type to the left *)
  Fixpoint find_left (fuel : nat) s (pt : path_type) (p : option nat) : outcome (option nat) :=
    match p with
    | None => Ok None
    | Some i =>
      match fuel with
      | O => NoFuel
      | S fuel =>
        do e <- at_ (edges s) i ;;
        do t <- get_polytype s e ;;
        if ptype_eqb t pt then Ok (Some i) else find_left fuel s pt (e_prev e)
      end
    end.

  (** vatti.cpp:846-859: adding the edges of the other type from [left] up to the
      edge itself *)
  Fixpoint sum_other (fuel : nat) s (pt : path_type) (left : option nat) (i : nat) (c2 : Z) : outcome Z :=
    if ptr_eqb left (Some i) then Ok c2 else
    match fuel with
    | O => NoFuel
    | S fuel =>
      do l <- deref left ;;
      do e <- at_ (edges s) l ;;
      do t <- get_polytype s e ;;
      let c2 := if ptype_eqb t pt then c2
                else match cfill s with
                     | even_odd => if Z.eqb c2 0 then 1%Z else 0%Z
                     | _ => (c2 + e_dx e)%Z
                     end in
      sum_other fuel s pt (e_next e) i c2
    end.

  (** vatti.cpp:804-840: wind_cnt from the nearest left edge of the same type *)
  Definition own_cnt (fill : fill_rule) (lcnt ldx dx : Z) : Z :=
    match fill with
    | even_odd => dx
    | _ =>
      if Z.ltb (lcnt * ldx) 0 then
        if Z.ltb 1 (Z.abs lcnt) then
          if Z.ltb (ldx * dx) 0 then lcnt else (lcnt + dx)%Z
        else dx
      else
        if Z.ltb (ldx * dx) 0 then lcnt else (lcnt + dx)%Z
    end.

  (** vatti.cpp:793-860 [calc_windcnt] *)
  Definition calc_windcnt s (i : nat) : outcome (clipper T) :=
    do e <- at_ (edges s) i ;;
    do pt <- get_polytype s e ;;
    do lft <- find_left (length (edges s)) s pt (e_prev e) ;;
    do r <- (match lft with
             | None => Ok (e_dx e, (0%Z, ael s))
             | Some l =>
               do el <- at_ (edges s) l ;;
               Ok (own_cnt (cfill s) (e_cnt el) (e_dx el) (e_dx e), (e_cnt2 el, e_next el))
             end) ;;
    let '(c, (c2, from)) := r in
    do c2 <- sum_other (length (edges s)) s pt from i c2 ;;
    emod s i (set_ecnt c c2).

  (** vatti.cpp:775-789: the inner loop of [recalc_windcnt]; returns the edge at
      which the next x continues *)
  Fixpoint recalc_at (fuel : nat) s (x : T) (c : option nat) : outcome (option nat * clipper T) :=
    match c with
    | None => Ok (None, s)
    | Some i =>
      match fuel with
      | O => NoFuel
      | S fuel =>
        do e <- at_ (edges s) i ;;
        if n_ltb (e_x e) x then recalc_at fuel s x (e_next e)
        else if n_ltb x (e_x e) then Ok (Some i, s)
        else
          do s <- (match e_bound e with
                   | Some b => bmod s b (set_bedge None)
                   | None => Ok s
                   end) ;;
          do s <- emod s i (set_ebound None) ;;
          do s <- calc_windcnt s i ;;
          do e <- at_ (edges s) i ;;
          recalc_at fuel s x (e_next e)
      end
    end.
  Fixpoint recalc_all s (xs : list T) (c : option nat) : outcome (clipper T) :=
    match xs with
    | [] => Ok s
    | x :: r =>
      do cs <- recalc_at (length (edges s)) s x c ;;
      let '(c, s) := cs in recalc_all s r c
    end.
  (** vatti.cpp:769-770, 1221-1222 *)
  Definition tidy_changes (l : list T) : list T := unique_by n_eqb (sort_by n_ltb l).
  (** vatti.cpp:767-791 [recalc_windcnt] *)
  Definition recalc_windcnt s : outcome (clipper T) :=
    let s := w_changes s (tidy_changes (changes s)) in
    recalc_all s (changes s) (ael s).

  (** vatti.cpp:862-865 *)
  Definition push_change s (x : T) : clipper T := w_changes s (changes s ++ [x]).
  (** vatti.cpp:1134-1138: [priority_queue::push] *)
  Definition insert_scanline s (y : T) : clipper T := w_scans s (insert_by n_ltb y (scans s)).

  (** vatti.cpp:739-742, 754-757: skipping horizontals at the start of an edge;
      one step per vertex of the ring *)
  Fixpoint skip_horz (fuel : nat) s (i : nat) : outcome (clipper T) :=
    do e <- at_ (edges s) i ;;
    if is_horz e then
      match fuel with
      | O => NoFuel
      | S fuel =>
        do s <- next_edge s i ;;
        do e <- at_ (edges s) i ;;
        skip_horz fuel (push_change s (vx (e_bot e))) i
      end
    else Ok s.

  (** vatti.cpp:729-743, 746-758: an edge leaving the minimum [m] towards [top] *)
  Definition start_edge s (m : nat) (bot : vec) (top : nat) (dx : Z) : outcome (clipper T) :=
    do vt <- at_ (verts s) top ;;
    let i := length (edges s) in
    let s := w_edges s (edges s ++ [Edge bot (v_pt vt) (n_ofZ 0) dx 0 0 None None None top m]) in
    do s <- skip_horz (length (verts s)) (push_change s (vx bot)) i ;;
    do e <- at_ (edges s) i ;;
    emod s i (set_ex (vx (e_bot e))).

  (** vatti.cpp:729-763: body of the loop *)
  Definition insert_minimum s (m : nat) : outcome (clipper T) :=
    do lm <- at_ (lmins s) m ;;
    do v <- at_ (verts s) (lm_vert lm) ;;
    do p <- deref (v_prev v) ;;
    do n <- deref (v_next v) ;;
    let a := length (edges s) in
    do s <- start_edge s m (v_pt v) p 1 ;;
    let b := length (edges s) in
    do s <- start_edge s m (v_pt v) n (-1) ;;
    do s <- insert_into_ael s a ;;
    do ea <- at_ (edges s) a ;;
    do s <- insert_into_ael_left s (e_prev ea) b ;;
    do ea <- at_ (edges s) a ;;
    do eb <- at_ (edges s) b ;;
    Ok (insert_scanline (insert_scanline s (vy (e_top ea))) (vy (e_top eb))).

  (** vatti.cpp:722-765 [insert_local_minima_to_ael] with
      [pop_local_minima] (1053-1059); [rest] are the minima from the iterator on *)
  Fixpoint insert_minima s (y : T) (rest : list nat) : outcome (clipper T) :=
    match rest with
    | [] => Ok s
    | m :: r =>
      do lm <- at_ (lmins s) m ;;
      do v <- at_ (verts s) (lm_vert lm) ;;
      if n_eqb (vy (v_pt v)) y then
        do s <- insert_minimum (w_minima s (minima s) (S (cur s))) m ;;
        insert_minima s y r
      else Ok s
    end.
  Definition insert_local_minima_to_ael s (y : T) : outcome (clipper T) :=
    insert_minima s y (skipn (cur s) (minima s)).

  (** vatti.cpp:1228-1241: taking out the edges whose x changed *)
  Fixpoint take_changed (fuel : nat) s (xs : list T) (c : option nat) (acc : list nat)
      : outcome (clipper T * list nat) :=
    match xs, c with
    | x :: xr, Some i =>
      match fuel with
      | O => NoFuel
      | S fuel =>
        do e <- at_ (edges s) i ;;
        if n_eqb (e_x e) x then
          do s <- (match e_bound e with
                   | Some b => bmod s b (set_bedge None)
                   | None => Ok s
                   end) ;;
          do s <- emod s i (set_ebound None) ;;
          do s <- take_from_ael s i ;;
          take_changed fuel s xs (e_next e) (acc ++ [i])
        else if n_ltb x (e_x e) then take_changed fuel s xr c acc
        else take_changed fuel s xs (e_next e) acc
      end
    | _, _ => Ok (s, acc)
    end.
  Fixpoint insert_all s (l : list nat) : outcome (clipper T) :=
    match l with
    | [] => Ok s
    | i :: r => do s <- insert_into_ael s i ;; insert_all s r
    end.
  (** vatti.cpp:1218-1244 [resort_ael] *)
  Definition resort_ael s : outcome (clipper T) :=
    let s := w_changes s (tidy_changes (changes s)) in
    do r <- take_changed (length (changes s) + length (edges s)) s (changes s) (ael s) [] ;;
    let '(s, l) := r in insert_all s l.
End VAel.
