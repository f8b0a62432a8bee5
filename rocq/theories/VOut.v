(** Building the output contours: vatti.cpp. *)
From Coq Require Import ZArith Bool List.
From Verif Require Import Outcome Num Rmath Segment Path VState VAel.
Import ListNotations.
Local Open Scope out.

Section VOut.
  Context {T : Type} {N : Num T}.
  Notation vec := (vec2 T).
  Implicit Types s : clipper T.

  (** vatti.h:120-122 *)
  Definition bound_up (b : bound T) : bool := Z.ltb (ob_dx b) 0.

  (** vatti.cpp:983-1051 [is_contributing], from the edge's counts and type *)
  Definition contributing (op : clip_type) (fill : fill_rule) (cnt cnt2 : Z) (pt : path_type) : bool :=
    (match fill with
     | even_odd => true
     | non_zero => Z.eqb (Z.abs cnt) 1
     | positive => Z.eqb cnt 1
     | negative => Z.eqb cnt (-1)
     end) &&
    (match op with
     | op_none => false
     | op_intersection =>
       match fill with
       | positive => Z.ltb 0 cnt2 | negative => Z.ltb cnt2 0 | _ => negb (Z.eqb cnt2 0)
       end
     | op_union =>
       match fill with
       | positive => Z.leb cnt2 0 | negative => Z.leb 0 cnt2 | _ => Z.eqb cnt2 0
       end
     | op_difference =>
       let r := match fill with
                | positive => Z.leb cnt2 0 | negative => Z.leb 0 cnt2 | _ => Z.eqb cnt2 0
                end in
       match pt with subject => r | clip => negb r end
     | op_xor => true
     end).
  Definition is_contributing s (e : edge T) : outcome bool :=
    do pt <- get_polytype s e ;;
    Ok (contributing (cop s) (cfill s) (e_cnt e) (e_cnt2 e) pt).

  (** vatti.cpp:1431-1440 [delete_obl_bound] *)
  Definition delete_obl_bound s (b : nat) : outcome (clipper T) :=
    do x <- at_ (bounds s) b ;;
    do s <- (match ob_prev x with
             | Some p => bmod s p (set_bnext (ob_next x))
             | None => Ok (w_obl s (ob_next x))
             end) ;;
    bmod_opt s (ob_next x) (set_bprev (ob_prev x)).

  (** vatti.cpp:1326-1351: appending the paths of polygon [src] to [dst]; [up]
      says whether the joined end of [dst] is its up end *)
  Definition absorb s (dst src : nat) (up : bool) : outcome (clipper T) :=
    do d <- at_ (polys s) dst ;;
    do r <- at_ (polys s) src ;;
    do s <- (if up then
               do s <- pmod s dst (fun o => Poly (o_origin o) (o_up_bound r) (o_down_bound o)
                         ((o_up o ++ rev (o_down r)) ++ o_up r) (o_down o) (o_complete o)) ;;
               do b <- deref (o_up_bound r) ;;
               bmod s b (set_bowner (Some dst))
             else
               do s <- pmod s dst (fun o => Poly (o_origin o) (o_up_bound o) (o_down_bound r)
                         (o_up o) ((o_down o ++ rev (o_up r)) ++ o_down r) (o_complete o)) ;;
               do b <- deref (o_down_bound r) ;;
               bmod s b (set_bowner (Some dst))) ;;
    pmod s src (fun o => Poly (o_origin o) None None [] [] true).

  (** vatti.cpp:1292-1355 [join_output(a, b, y)] *)
  Definition join_output s (a b : nat) (y : T) : outcome (clipper T) :=
    do ba <- at_ (bounds s) a ;;
    do bb <- at_ (bounds s) b ;;
    do s <- emod_opt s (ob_edge ba) (set_ebound None) ;;
    do s <- emod_opt s (ob_edge bb) (set_ebound None) ;;
    do s <- bmod s a (set_bedge None) ;;
    do s <- bmod s b (set_bedge None) ;;
    do aout <- deref (ob_owner ba) ;;
    do bout <- deref (ob_owner bb) ;;
    do s <- (if n_eqb (ob_stop_x ba) (ob_stop_x bb) then Ok s
             else if bound_up ba then pmod s aout (push_up (SLine (V2 (ob_stop_x bb) y)))
             else pmod s aout (push_down (SLine (V2 (ob_stop_x ba) y)))) ;;
    do s <- (if Nat.eqb aout bout then pmod s aout set_complete
             else if Nat.ltb bout aout then absorb s bout aout (bound_up bb)
             else absorb s aout bout (bound_up ba)) ;;
    do s <- delete_obl_bound s a ;;
    delete_obl_bound s b.

  (** vatti.cpp:1358-1390 [new_output(a, b)] *)
  Definition new_output s (a b : nat) : outcome (clipper T) :=
    do ea <- at_ (edges s) a ;;
    do eb <- at_ (edges s) b ;;
    let o := length (polys s) in
    let ia := length (bounds s) in
    let ib := S ia in
    let s := w_bounds s (bounds s ++ [Bound None None (Some o) (Some a) (e_x ea) (e_dx ea);
                                      Bound None None (Some o) (Some b) (e_x eb) (e_dx eb)]) in
    do s <- emod s a (set_ebound (Some ia)) ;;
    do s <- emod s b (set_ebound (Some ib)) ;;
    let '(up, down, eu, ed) := if edge_up ea then (ia, ib, ea, eb) else (ib, ia, eb, ea) in
    Ok (w_polys s (polys s ++ [Poly (e_bot ed) (Some up) (Some down)
          (if vneqb (e_bot eu) (e_bot ed) then [SLine (e_bot eu)] else []) [] false])).

  (** vatti.cpp:1393-1408 [update_bound(bound, new_edge)] *)
  Definition update_bound s (b e : nat) : outcome (clipper T) :=
    do bd <- at_ (bounds s) b ;;
    do ed <- at_ (edges s) e ;;
    do s <- (if n_eqb (e_x ed) (ob_stop_x bd) then Ok s
             else
               do o <- deref (ob_owner bd) ;;
               if bound_up bd then pmod s o (push_up (SLine (e_bot ed)))
               else pmod s o (push_down (SLine (V2 (ob_stop_x bd) (vy (e_bot ed)))))) ;;
    do s <- bmod s b (set_bedge (Some e)) ;;
    emod s e (set_ebound (Some b)).

  (** vatti.cpp:878-888: the contributing edges, last first; coinciding
      neighbours cancel *)
  Fixpoint collect (fuel : nat) s (c : option nat) (acc : list nat) : outcome (list nat) :=
    match c with
    | None => Ok acc
    | Some i =>
      match fuel with
      | O => NoFuel
      | S fuel =>
        do e <- at_ (edges s) i ;;
        do k <- is_contributing s e ;;
        do acc <- (if k then
                     match acc with
                     | j :: r =>
                       do ej <- at_ (edges s) j ;;
                       do same <- is_same s e ej ;;
                       Ok (if same then r else i :: acc)
                     | [] => Ok [i]
                     end
                   else Ok acc) ;;
        collect fuel s (e_next e) acc
      end
    end.

  (** vatti.cpp:891-900: pairs (0,1), (2,3) ... that start at the same x; returns
      the edges left over in order *)
  Fixpoint open_pairs s (l : list nat) : outcome (clipper T * list nat) :=
    match l with
    | a :: b :: r =>
      do ea <- at_ (edges s) a ;;
      do eb <- at_ (edges s) b ;;
      if n_eqb (e_x ea) (e_x eb) then
        do s <- new_output s a b ;; open_pairs s r
      else
        do sl <- open_pairs s r ;;
        let '(s, l) := sl in Ok (s, a :: b :: l)
    | _ => Ok (s, l)
    end.

  (** vatti.cpp:902-907 [bound_data]; [inl] an edge, [inr] an output bound *)
  Record bd := Bd { bd_what : nat + nat; bd_x : T; bd_idx : nat }.
  Definition is_edge (b : bd) : bool := match bd_what b with inl _ => true | inr _ => false end.

  (** vatti.cpp:912-915 *)
  Fixpoint sbl_edges s (l : list nat) (k : nat) : outcome (list bd) :=
    match l with
    | [] => Ok []
    | i :: r =>
      do e <- at_ (edges s) i ;;
      do t <- sbl_edges s r (S k) ;;
      Ok (Bd (inl i) (e_x e) k :: t)
    end.
  (** vatti.cpp:916-920 *)
  Fixpoint sbl_bounds (fuel : nat) s (c : option nat) (k : nat) : outcome (list bd) :=
    match c with
    | None => Ok []
    | Some i =>
      match fuel with
      | O => NoFuel
      | S fuel =>
        do b <- at_ (bounds s) i ;;
        do t <- sbl_bounds fuel s (ob_next b) (S k) ;;
        Ok (Bd (inr i) (ob_stop_x b) k :: t)
      end
    end.
  (** vatti.cpp:921-925 *)
  Definition bd_ltb (l r : bd) : bool :=
    if n_eqb (bd_x l) (bd_x r) then Nat.ltb (bd_idx l) (bd_idx r) else n_ltb (bd_x l) (bd_x r).

  (** vatti.cpp:935-941: the first entry of the other kind after entries of the
      same kind, all at x; also the list without it *)
  Fixpoint find_other (x : T) (k : bool) (l : list bd) : option (bd * list bd) :=
    match l with
    | [] => None
    | h :: r =>
      if n_eqb (bd_x h) x then
        if Bool.eqb (is_edge h) k then
          match find_other x k r with Some (o, r') => Some (o, h :: r') | None => None end
        else Some (h, r)
      else None
    end.

  (** vatti.cpp:943-944, 952-955 *)
  Definition connect s (a b : bd) (y : T) : outcome (clipper T) :=
    match bd_what a, bd_what b with
    | inl e, inl f => new_output s e f
    | inr b1, inr b2 => join_output s b1 b2 y
    | inl e, inr b => update_bound s b e
    | inr b, inl e => update_bound s b e
    end.
  (** vatti.cpp:932-958; each step removes at least one entry.  A last single
      entry is paired with [end()]. *)
  Fixpoint match_up (fuel : nat) s (y : T) (l : list bd) : outcome (clipper T) :=
    match l with
    | [] => Ok s
    | it :: r =>
      match fuel with
      | O => NoFuel
      | S fuel =>
        match find_other (bd_x it) (is_edge it) r with
        | Some (o, r') => do s <- connect s it o y ;; match_up fuel s y r'
        | None =>
          match r with
          | [] => UB EndDeref
          | n :: r' => do s <- connect s it n y ;; match_up fuel s y r'
          end
        end
      end
    end.

  (** vatti.cpp:972-979: linking the bounds of the contributing edges *)
  Fixpoint link_obl s (last : nat) (l : list nat) : outcome (clipper T) :=
    match l with
    | [] => Ok s
    | i :: r =>
      do e <- at_ (edges s) i ;;
      do s <- bmod s last (set_bnext (e_bound e)) ;;
      do nb <- deref (e_bound e) ;;
      do s <- bmod s nb (set_bprev (Some last)) ;;
      link_obl s nb r
    end.
  (** vatti.cpp:963-980 *)
  Definition rebuild_obl s (l : list nat) : outcome (clipper T) :=
    match l with
    | [] => Ok (w_obl s None)
    | i :: r =>
      do e <- at_ (edges s) i ;;
      do b <- deref (e_bound e) ;;
      do s <- bmod (w_obl s (Some b)) b (fun x => set_bnext None (set_bprev None x)) ;;
      link_obl s b r
    end.

  (** vatti.cpp:867-981 [update_ouput_bound]; [n] bounds the walk along the output
      bounds, whose links may form a cycle *)
  Definition update_output_bound (n : nat) s (y : T) : outcome (clipper T) :=
    match changes s with
    | [] => Ok s
    | _ =>
      let s := w_changes s [] in
      do be <- collect (length (edges s)) s (ael s) [] ;;
      let be := rev be in
      do sl <- open_pairs s be ;;
      let '(s, lft) := sl in
      do se <- sbl_edges s lft 0 ;;
      do sb <- sbl_bounds n s (obl s) (length se) ;;
      let sbl := sort_by bd_ltb (se ++ sb) in
      do s <- match_up (length sbl) s y sbl ;;
      rebuild_obl s be
    end.

  (** vatti.cpp:1443-1450 [do_maxima] *)
  Definition do_maxima s (i : nat) : outcome (option nat * clipper T) :=
    do e <- at_ (edges s) i ;;
    do s <- (match e_bound e with
             | Some b => do s <- bmod s b (set_bedge None) ;; emod s i (set_ebound None)
             | None => Ok s
             end) ;;
    delete_active_edge s i.

  (** vatti.cpp:1150-1162: the finished segment goes to the output *)
  Definition extend_bound s (i : nat) : outcome (clipper T) :=
    do e <- at_ (edges s) i ;;
    match e_bound e with
    | None => Ok s
    | Some b =>
      do bd <- at_ (bounds s) b ;;
      do g <- copy_seg s e (xorb (edge_up e) (bound_up bd)) ;;
      do o <- deref (ob_owner bd) ;;
      do s <- pmod s o (if bound_up bd then push_up g else push_down g) ;;
      bmod s b (set_bstop (e_x e))
    end.

  (** vatti.cpp:1172-1187: after [next(e)], skipping horizontals; returns the next
      edge to visit.  One step per vertex of the ring. *)
  Fixpoint climb (fuel : nat) s (i : nat) : outcome (option nat * clipper T) :=
    match fuel with
    | O => NoFuel
    | S fuel =>
      do e <- at_ (edges s) i ;;
      if is_horz e then
        let s := push_change s (vx (e_top e)) in
        do m <- is_maxima s e ;;
        if m then do_maxima s i
        else do s <- next_edge s i ;; climb fuel s i
      else Ok (e_next e, insert_scanline s (vy (e_top e)))
    end.

  (** vatti.cpp:1145-1196: one pass over the active edges *)
  Fixpoint top_loop (fuel : nat) s (y : T) (last_x : T) (c : option nat) : outcome (clipper T) :=
    match c with
    | None => Ok s
    | Some i =>
      match fuel with
      | O => NoFuel
      | S fuel =>
        do e <- at_ (edges s) i ;;
        if n_eqb (vy (e_top e)) y then
          let x := vx (e_top e) in
          do s <- emod s i (set_ex x) ;;
          let s := if n_eqb x last_x then push_change s last_x else s in
          do s <- extend_bound s i ;;
          do m <- is_maxima s e ;;
          if m then
            do ns <- do_maxima s i ;;
            let '(n, s) := ns in top_loop fuel s y x n
          else
            do s <- next_edge s i ;;
            do ns <- climb (S (length (verts s))) s i ;;
            let '(n, s) := ns in top_loop fuel s y x n
        else
          do s <- update_x s i y ;;
          do e <- at_ (edges s) i ;;
          do s <- (match e_bound e with
                   | Some b => bmod s b (set_bstop (e_x e))
                   | None => Ok s
                   end) ;;
          let s := if n_eqb (e_x e) last_x then push_change s last_x else s in
          top_loop fuel s y (e_x e) (e_next e)
      end
    end.
  (** vatti.cpp:1140-1197 [do_top_of_scanbeam] *)
  Definition do_top_of_scanbeam s (y : T) : outcome (clipper T) :=
    let s := w_changes s [] in
    top_loop (length (edges s)) s y (n_neg n_huge) (ael s).

  (** vatti.cpp:1204-1215 *)
  Fixpoint close_loop (fuel : nat) s (y : T) (c : nat) (n : option nat) : outcome (clipper T) :=
    match n with
    | None => Ok s
    | Some nx =>
      match fuel with
      | O => NoFuel
      | S fuel =>
        do bn <- at_ (bounds s) nx ;;
        do bc <- at_ (bounds s) c ;;
        do s <- (if n_eqb (ob_stop_x bc) (ob_stop_x bn) then join_output s c nx y else Ok s) ;;
        match ob_next bn with
        | None => Ok s
        | Some c' =>
          do b <- at_ (bounds s) c' ;;
          close_loop fuel s y c' (ob_next b)
        end
      end
    end.
  (** vatti.cpp:1199-1216 [close_output]; [n] as in [update_output_bound] *)
  Definition close_output (n : nat) s (y : T) : outcome (clipper T) :=
    match obl s with
    | None => Ok s
    | Some c =>
      do b <- at_ (bounds s) c ;;
      close_loop n s y c (ob_next b)
    end.

  (** Calls of the write callbacks *)
  Inductive call := MoveTo (from to : vec) | LineTo (from to : vec) | CubicTo (from c1 c2 to : vec).

  (** vatti.cpp:1246-1270 [write_path] *)
  Fixpoint write_path (last : vec) (l : list (seg T)) : list call * vec :=
    match l with
    | [] => ([], last)
    | g :: r =>
      let c := match g with
               | SCubic c1 c2 t => CubicTo last c1 c2 t
               | _ => LineTo last (seg_target g)
               end in
      let '(cs, p) := write_path (seg_target g) r in (c :: cs, p)
    end.
  (** vatti.cpp:1274-1287: one polygon *)
  Definition write_poly (o : poly T) : list call :=
    if o_complete o then
      match o_up o, o_down o with
      | [], [] => []
      | up, down =>
        let '(c1, p) := write_path (o_origin o) up in
        let '(c2, _) := write_path p (rev down) in
        MoveTo (V2 (n_ofZ 0) (n_ofZ 0)) (o_origin o) :: c1 ++ c2
      end
    else [].
  (** vatti.cpp:1272-1289 [build_output]: the callbacks in order *)
  Definition build_output s : list call := flat_map write_poly (polys s).
End VOut.
