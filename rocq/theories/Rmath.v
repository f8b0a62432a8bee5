(** Model of src/include/rmath.h and src/src/rmath.cpp, over any arithmetic. *)
From Coq Require Import ZArith Bool List.
From Verif Require Import Outcome Num.
Import ListNotations.
Local Open Scope num_scope.
Local Open Scope Z_scope.
Local Open Scope list_scope.
Local Open Scope num_scope.

(** rmath.h:16-55 [struct vec2] *)
Record vec2 (T : Type) := V2 { vx : T; vy : T }.
Arguments V2 {T} _ _.
Arguments vx {T} _.
Arguments vy {T} _.

(** rmath.h:59-94 [struct rect] *)
Record rect (T : Type) := Rect { rmin : vec2 T; rmax : vec2 T }.
Arguments Rect {T} _ _.
Arguments rmin {T} _.
Arguments rmax {T} _.

(** rmath.h:163-178 [struct bezier_cubic] *)
Record bezier (T : Type) := Bez { b0 : vec2 T; b1 : vec2 T; b2 : vec2 T; b3 : vec2 T }.
Arguments Bez {T} _ _ _ _.
Arguments b0 {T} _.
Arguments b1 {T} _.
Arguments b2 {T} _.
Arguments b3 {T} _.

(** rmath.h:195-200 [struct intersect_info] *)
Record isect (T : Type) := Isect { ip : vec2 T; it0 : T; it1 : T }.
Arguments Isect {T} _ _ _.
Arguments ip {T} _.
Arguments it0 {T} _.
Arguments it1 {T} _.

Section Rmath.
  Context {T : Type} {N : Num T}.

  Notation vec := (vec2 T).

  (** rmath.h:27-33: the operators of vec2 *)
  Definition vadd (a b : vec) : vec := V2 (vx a + vx b) (vy a + vy b).
  Definition vadds (a : vec) (n : T) : vec := V2 (vx a + n) (vy a + n).
  Definition vneg (a : vec) : vec := V2 (- vx a) (- vy a).
  Definition vsub (a b : vec) : vec := V2 (vx a - vx b) (vy a - vy b).
  Definition vsubs (a : vec) (n : T) : vec := V2 (vx a - n) (vy a - n).
  Definition vmul (a : vec) (s : T) : vec := V2 (vx a * s) (vy a * s).
  Definition vdiv (a : vec) (s : T) : vec := V2 (vx a / s) (vy a / s).
  (** rmath.cpp:55 [operator*(double, vec2)] *)
  Definition smul (s : T) (a : vec) : vec := vmul a s.
  (** rmath.h:35-36 *)
  Definition veqb (a b : vec) : bool := (vx a =? vx b) && (vy a =? vy b).
  Definition vneqb (a b : vec) : bool := negb (veqb a b).
  (** rmath.h:39-43 *)
  Definition vdot (a b : vec) : T := vx a * vx b + vy a * vy b.
  Definition vcross (a b : vec) : T := vx a * vy b - vx b * vy a.
  Definition vdist2 (a : vec) : T := vx a * vx a + vy a * vy a.
  Definition vdist (a : vec) : T := n_sqrt (vdist2 a).
  (** rmath.h:46-48 *)
  Definition vrotated (a : vec) (rad : T) : vec :=
    V2 (n_cos rad * vx a - n_sin rad * vy a) (n_sin rad * vx a + n_cos rad * vy a).
  (** rmath.h:52 *)
  Definition vnormalization (a : vec) : vec := vdiv a (vdist a).

  (** rmath.cpp:5-8 [is_zero]; 1e-8 is the correctly rounded 1/10^8 *)
  Definition err8 : T := #1 / #100000000.
  Definition is_zero (v : T) : bool := (- err8 <? v) && (v <? err8).

  (** rmath.h:11: pi *)
  Definition n_pi : T := #3141592653589793 / #1000000000000000.

  (** rmath.cpp:10-13 [clamp_0_2pi] *)
  Definition clamp_0_2pi (rad : T) : T :=
    let rad := n_remainder rad (n_pi * #2) in
    if n_signbit rad then rad + n_pi * #2 else rad.

  (** rmath.cpp:15-19 [rect::intersect] *)
  Definition rect_intersect (a r : rect T) : bool :=
    negb ((vx (rmax a) <? vx (rmin r)) || (vx (rmin a) >? vx (rmax r))
          || (vy (rmax a) <? vy (rmin r)) || (vy (rmin a) >? vy (rmax r))).

  (** rmath.h:70-71, 73-75, 77 *)
  Definition rect_around (p : vec) (off : T) : rect T := Rect (vsubs p off) (vadds p off).
  Definition rect_width (r : rect T) : T := vx (rmax r) - vx (rmin r).
  Definition rect_height (r : rect T) : T := vy (rmax r) - vy (rmin r).
  Definition rect_center (r : rect T) : vec := vdiv (vadd (rmax r) (rmin r)) (#2).
  Definition rect_inflated (r : rect T) (n : T) : rect T :=
    Rect (vsubs (rmin r) n) (vadds (rmin r) n).

  (** rmath.h:79-93 [rect::from] *)
  Definition rect_from_step (out : rect T) (e : vec) : rect T :=
    Rect (V2 (n_min (vx (rmin out)) (vx e)) (n_min (vy (rmin out)) (vy e)))
         (V2 (n_max (vx (rmax out)) (vx e)) (n_max (vy (rmax out)) (vy e))).
  Definition rect_from (l : list vec) : rect T :=
    fold_left rect_from_step l (Rect (V2 n_huge n_huge) (V2 (- n_huge) (- n_huge))).

  (** rmath.cpp:56-74 [dist2_point_line] *)
  Definition dist2_point_line (p l0 l1 : vec) : T :=
    let AC := vsub p l0 in
    let AB := vsub l1 l0 in
    let d := vdist2 AB in
    let f := vdot AB AC in
    if f <? #0 then vdist2 AC
    else if f >? d then vdist2 (vsub p l1)
    else
      let f := f / d in
      let D := vadd l0 (vmul AB f) in
      vdist2 (vsub p D).

  (** rmath.cpp:77-88 [point_project_in_segment] *)
  Definition point_project_in_segment (p p0 p1 : vec) : bool :=
    if veqb p1 p0 then veqb p p0
    else
      let v := vsub p1 p0 in
      let u := vsub p p0 in
      let sc := vdot v u / vdot v v in
      sc <=? #1.

  (** rmath.cpp:90-96 [point_between_two_point] *)
  Definition point_between_two_point (p p0 p1 : vec) : bool :=
    let r := rect_from [p0; p1] in
    if vx p0 =? vx p1 then (vy (rmin r) <=? vy p) && (vy p <=? vy (rmax r))
    else (vx (rmin r) <=? vx p) && (vx p <=? vx (rmax r)).

  (** Writing [res.data[res.count]] and incrementing the count, for a result
      array of [cap] elements (rmath.h:200-222). *)
  Definition push_res {A} (cap : nat) (l : list A) (x : A) : outcome (list A) :=
    if Nat.ltb (length l) cap then Ok (l ++ [x]) else UB OobWrite.

  Definition push_if {A} (c : bool) (cap : nat) (l : list A) (x : A) : outcome (list A) :=
    if c then push_res cap l x else Ok l.

  (** rmath.cpp:98-171 [intersect(p0,p1,p2,p3)].  The result is the list of the
      first [count] entries of [data]; the array has two elements. *)
  Definition intersect_lines (p0 p1 p2 p3 : vec) : outcome (list (isect T)) :=
    let a := vsub p1 p0 in
    let b := vsub p2 p3 in
    let c := vsub p0 p2 in
    let denominator := vy a * vx b - vx a * vy b in
    if (denominator =? #0) || negb (n_isfinite denominator) then
      if dist2_point_line p0 p2 p3 =? #0 then
        let par_r (p : vec) := if vy b =? #0 then vx (vsub p p2) / (- vx b)
                               else vy (vsub p p2) / (- vy b) in
        let par_l (p : vec) := if vy a =? #0 then vx (vsub p p0) / vx a
                               else vy (vsub p p0) / vy a in
        (do l <- push_if (vneqb p0 p2 && vneqb p0 p3 && point_between_two_point p0 p2 p3)
                   2 [] (Isect p0 (#0) (par_r p0)) ;;
        do l <- push_if (vneqb p1 p2 && vneqb p1 p3 && point_between_two_point p1 p2 p3)
                   2 l (Isect p1 (#1) (par_r p1)) ;;
        do l <- push_if (vneqb p2 p0 && vneqb p2 p1 && point_between_two_point p2 p0 p1)
                   2 l (Isect p2 (par_l p2) (#0)) ;;
        push_if (vneqb p3 p0 && vneqb p3 p1 && point_between_two_point p3 p0 p1)
                   2 l (Isect p3 (par_l p3) (#1)))%out
      else Ok []
    else
      let reciprocal := #1 / denominator in
      let na := (vy b * vx c - vx b * vy c) * reciprocal in
      let nb := (vx a * vy c - vy a * vx c) * reciprocal in
      if ((#0 <=? na) && (na <=? #1)) && ((#0 <=? nb) && (nb <=? #1))
      then Ok [Isect (vadd p0 (vmul a na)) na nb]
      else Ok [].

  (** rmath.cpp:221-247 [line::general_from]: (A, B, C) *)
  Definition general_from (p0 p1 : vec) : T * T * T :=
    if veqb p0 p1 then (#0, #1, - vy p0)
    else if vx p0 =? vx p1 then (#1, #0, - vx p0)
    else if vy p0 =? vy p1 then (#0, #1, - vy p0)
    else (vy p1 - vy p0, vx p0 - vx p1, (vx p1 * vy p0) - (vx p0 * vy p1)).

  (** rmath.cpp:451-460 [bezier_cubic::point_at] *)
  Definition point_at (b : bezier T) (t : T) : vec :=
    let t2 := t * t in
    let t3 := t2 * t in
    let k := #1 - t in
    let k2 := k * k in
    let k3 := k2 * k in
    vadd (vadd (vadd (vmul (b0 b) k3) (vmul (vmul (vmul (b1 b) (#3)) k2) t))
               (vmul (vmul (vmul (b2 b) (#3)) k) t2))
         (vmul (b3 b) t3).

  (** rmath.cpp:648-677 [resolv_quad_equa]; the list holds data[0..count-1] *)
  Definition resolv_quad_equa (a b c : T) : list T :=
    if is_zero a then
      if is_zero b then [] else [(- c) / b]
    else
      let k := b * b - #4 * a * c in
      if is_zero k then [(- b) / (#2 * a)]
      else if k >? #0 then
        let sqrtK := n_sqrt k in
        [(- b + sqrtK) / (#2 * a); (- b - sqrtK) / (#2 * a)]
      else [].

  (** rmath.cpp:816: the literal 3.1415926535 *)
  Definition pi10 : T := #31415926535 / #10000000000.

  (** rmath.cpp:679-825 [resolv_cubic_equa] *)
  Definition resolv_cubic_equa (a3 a2 a1 a0 : T) : list T :=
    if is_zero a3 then resolv_quad_equa a2 a1 a0
    else
      let a := a2 / a3 in
      let b := a1 / a3 in
      let c := a0 / a3 in
      let aPow2 := a * a in
      let p := b - aPow2 / #3 in
      let q := #2 * aPow2 * a / #27 - a * b / #3 + c in
      let k := n_pow (q / #2) 2 + n_pow (p / #3) 3 in
      if is_zero k then
        let v1 := n_cbrt ((- q) / #2) in
        if is_zero v1 then [#0 - a / #3]
        else [v1 * #2 - a / #3; - v1 - a / #3]
      else if k >? #0 then
        let sqrtk := n_sqrt k in
        let v1 := n_cbrt ((- q) / #2 + sqrtk) in
        let w1 := (- p) / (#3 * v1) in
        [v1 + w1 - a / #3]
      else
        let sqrt_minus_k := n_sqrt (- k) in
        let tanPhi := #(-2) * sqrt_minus_k / q in
        let phi := n_atan tanPhi in
        let minus := if tanPhi <? #0 then #(-1) else #1 in
        let r := n_sqrt (q * q / #4 - k) in
        let AAA := #2 * n_cbrt r in
        [ minus * AAA * n_cos (phi / #3) - a / #3;
          minus * AAA * n_cos ((phi + #2 * pi10) / #3) - a / #3;
          minus * AAA * n_cos ((phi + #4 * pi10) / #3) - a / #3 ].

  (** Power-basis coefficients computed at rmath.cpp:31-34 and 187-190 *)
  Definition coef3 (b : bezier T) : vec :=
    vsub (vadd (vsub (b3 b) (smul (#3) (b2 b))) (smul (#3) (b1 b))) (b0 b).
  Definition coef2 (b : bezier T) : vec :=
    vadd (vsub (smul (#3) (b2 b)) (smul (#6) (b1 b))) (smul (#3) (b0 b)).
  Definition coef1 (b : bezier T) : vec := vsub (smul (#3) (b1 b)) (smul (#3) (b0 b)).

  (** rmath.cpp:21-53 [point_at_y]: the t's, at most three *)
  Definition point_at_y (b : bezier T) (y : T) : outcome (list T) :=
    let C := - y in
    let a3 := vy (coef3 b) in
    let a2 := vy (coef2 b) in
    let a1 := vy (coef1 b) in
    let a0 := vy (b0 b) + C in
    fold_left (fun acc t =>
      (do l <- acc ;; push_if ((#0 <=? t) && (t <=? #1)) 3 l t)%out)
      (resolv_cubic_equa a3 a2 a1 a0) (Ok []).

  (** rmath.cpp:173-219 [intersect(line, bezier_cubic)] *)
  Definition intersect_line_cubic (s0 s1 : vec) (curve : bezier T)
    : outcome (list (isect T)) :=
    let '(A, B, C) := general_from s0 s1 in
    let a3 := A * vx (coef3 curve) + B * vy (coef3 curve) in
    let a2 := A * vx (coef2 curve) + B * vy (coef2 curve) in
    let a1 := A * vx (coef1 curve) + B * vy (coef1 curve) in
    let a0 := A * vx (b0 curve) + B * vy (b0 curve) + C in
    let l := vsub s1 s0 in
    fold_left (fun acc t =>
      (do res <- acc ;;
       if (#0 <=? t) && (t <=? #1) then
         let p := point_at curve t in
         push_if (point_between_two_point p s0 s1) 3 res
           (Isect p (if vy l =? #0 then vx (vsub p s0) / vx l
                     else vy (vsub p s0) / vy l) t)
       else Ok res)%out)
      (resolv_cubic_equa a3 a2 a1 a0) (Ok []).

  (** Derivative coefficients computed at rmath.cpp:404-406 and 477-479 *)
  Definition dcoefA (b : bezier T) : vec :=
    vsub (vadd (vsub (vmul (b3 b) (#3)) (vmul (b2 b) (#9))) (vmul (b1 b) (#9)))
         (vmul (b0 b) (#3)).
  Definition dcoefB (b : bezier T) : vec :=
    vadd (vsub (vmul (b0 b) (#6)) (vmul (b1 b) (#12))) (vmul (b2 b) (#6)).
  Definition dcoefC (b : bezier T) : vec := vmul (vsub (b1 b) (b0 b)) (#3).

  Definition in01 (t : T) : bool := (#0 <? t) && (t <? #1).

  (** rmath.cpp:395-449 [bezier_cubic::split_y]: the parameters written to
      *t1, *t2, in that order *)
  Definition split_y (bz : bezier T) : list T :=
    let a := vy (dcoefA bz) in
    let b := vy (dcoefB bz) in
    let c := vy (dcoefC bz) in
    let k := b * b - #4 * a * c in
    if is_zero a then
      if is_zero b then []
      else
        let t := (- c) / b in
        if in01 t then [t] else []
    else if k >? #0 then
      let k := n_sqrt k in
      let r1 := (- b + k) / (#2 * a) in
      let r2 := (- b - k) / (#2 * a) in
      (if in01 r1 then [r1] else []) ++ (if in01 r2 then [r2] else [])
    else [].

  (** rmath.cpp:481-533 and 535-587: one coordinate of [get_boundary];
      [pick] selects x or y of a point *)
  Definition boundary_axis (pick : vec -> T) (bz : bezier T) : T * T :=
    let a := pick (dcoefA bz) in
    let b := pick (dcoefB bz) in
    let c := pick (dcoefC bz) in
    let k := b * b - #4 * a * c in
    if is_zero a then
      if is_zero b then (pick (b0 bz), pick (b3 bz))
      else
        let t1 := (- c) / b in
        if (t1 >? #0) && (t1 <? #1) then
          let x1 := pick (point_at bz t1) in (x1, x1)
        else (pick (b0 bz), pick (b3 bz))
    else if k <? #0 then (pick (b0 bz), pick (b3 bz))
    else
      let k := n_sqrt k in
      let t1 := (- b + k) / (#2 * a) in
      let t2 := (- b - k) / (#2 * a) in
      ((if (t1 >? #0) && (t1 <? #1) then pick (point_at bz t1) else pick (b0 bz)),
       (if (t2 >? #0) && (t2 <? #1) then pick (point_at bz t2) else pick (b3 bz))).

  (** rmath.cpp:462-593 [bezier_cubic::get_boundary] *)
  Definition get_boundary (bz : bezier T) : rect T :=
    let '(x1, x2) := boundary_axis vx bz in
    let '(y1, y2) := boundary_axis vy bz in
    let tp1 := V2 (n_min x1 x2) (n_min y1 y2) in
    let tp2 := V2 (n_max x1 x2) (n_max y1 y2) in
    rect_from [b0 bz; b3 bz; tp1; tp2].

  (** rmath.cpp:607-620 [split(t, out1, out2)] *)
  Definition bsplit (b : bezier T) (t : T) : bezier T * bezier T :=
    let t1 := #1 - t in
    let p01 := vadd (vmul (b1 b) t) (vmul (b0 b) t1) in
    let p12 := vadd (vmul (b2 b) t) (vmul (b1 b) t1) in
    let p23 := vadd (vmul (b3 b) t) (vmul (b2 b) t1) in
    let p01_12 := vadd (vmul p12 t) (vmul p01 t1) in
    let p12_23 := vadd (vmul p23 t) (vmul p12 t1) in
    let pm := vadd (vmul p12_23 t) (vmul p01_12 t1) in
    (Bez (b0 b) p01 p01_12 pm, Bez pm p12_23 p23 (b3 b)).

  (** rmath.cpp:595-605 [split(t array, out array, size)]: [size] cut
      parameters give out[0..size]; for size = 0 nothing is written, which the
      model shows by returning the empty list. *)
  Fixpoint split_loop (cur : bezier T) (last_t : T) (ts : list T) : list (bezier T) :=
    match ts with
    | [] => [cur]
    | t :: ts' =>
      let cur_t := (t - (#1 - last_t)) / last_t in
      let '(o1, o2) := bsplit cur cur_t in
      o1 :: split_loop o2 (#1 - t) ts'
    end.
  Definition bsplit_many (b : bezier T) (ts : list T) : list (bezier T) :=
    match ts with [] => [] | _ => split_loop b (#1) ts end.

  (** rmath.cpp:622-645 [bezier_cubic::circle] *)
  Definition circle_magic : T := #55228475 / #100000000.
  Definition circle (center : vec) (r : T) : list (bezier T) :=
    let d := r * circle_magic in
    let e := vadd center (V2 r (#0)) in
    let n := vadd center (V2 (#0) r) in
    let w := vsub center (V2 r (#0)) in
    let s := vsub center (V2 (#0) r) in
    [ Bez e (vadd e (V2 (#0) d)) (vadd n (V2 d (#0))) n;
      Bez n (vsub n (V2 d (#0))) (vadd w (V2 (#0) d)) w;
      Bez w (vsub w (V2 (#0) d)) (vsub s (V2 d (#0))) s;
      Bez s (vadd s (V2 d (#0))) (vsub e (V2 (#0) d)) e ].

  (** rmath.cpp:828-830 [rough_rect] *)
  Definition rough_rect (b : bezier T) : rect T := rect_from [b0 b; b1 b; b2 b; b3 b].

  (** rmath.cpp:832-855 [struct data] and [subdive] *)
  Record cell := Cell { c_bez : bezier T; c_box : rect T; c_t0 : T; c_t1 : T; c_rec : Z }.
  Definition subdive (d : cell) : cell * cell :=
    let '(o1, o2) := bsplit (c_bez d) (#1 / #2) in
    let m := (c_t0 d + c_t1 d) / #2 in
    (Cell o1 (rough_rect o1) (c_t0 d) m (c_rec d + 1)%Z,
     Cell o2 (rough_rect o2) m (c_t1 d) (c_rec d + 1)%Z).

  Definition cpair := (cell * cell)%type.

  (** rmath.cpp:881-889 [check_func].  [next] is the vector [pairs] used as a
      stack: its head is [pairs.back()].  [out] is [intersect_pair]. *)
  Definition check_func (precise : Z) (p0 p1 : cell) (st : list cpair * list cpair)
    : list cpair * list cpair :=
    let '(next, out) := st in
    if rect_intersect (c_box p0) (c_box p1) then
      if (c_rec p0 >? precise)%Z then (next, out ++ [(p0, p1)])
      else ((p0, p1) :: next, out)
    else (next, out).

  (** rmath.cpp:877-894: the body of the while loop, [back] already popped *)
  Definition cc_step (precise : Z) (back : cpair) (st : list cpair * list cpair)
    : list cpair * list cpair :=
    let '(p11, p12) := subdive (fst back) in
    let '(p21, p22) := subdive (snd back) in
    check_func precise p12 p22
      (check_func precise p12 p21
        (check_func precise p11 p22
          (check_func precise p11 p21 st))).

  (** rmath.cpp:873-895: the while loop *)
  Fixpoint cc_loop (fuel : nat) (precise : Z) (pairs out : list cpair)
    : outcome (list cpair) :=
    match pairs with
    | [] => Ok out
    | back :: rest =>
      match fuel with
      | O => NoFuel
      | S fuel =>
        let '(pairs', out') := cc_step precise back (rest, out) in
        cc_loop fuel precise pairs' out'
      end
    end.

  (** rmath.cpp:902-905: std::unique with the tolerance predicate: an element
      is dropped when it is within 1e-8 of the last one kept *)
  Fixpoint unique_from (last : cpair) (l : list cpair) : list cpair :=
    match l with
    | [] => []
    | x :: l' =>
      if n_abs (c_t0 (fst last) - c_t0 (fst x)) <? err8 then unique_from last l'
      else x :: unique_from x l'
    end.
  Definition unique_pairs (l : list cpair) : list cpair :=
    match l with [] => [] | x :: l' => x :: unique_from x l' end.

  (** rmath.cpp:897-900: std::sort by t0 of the first cell.  The order of equal
      keys is unspecified in C++; the model uses insertion sort, theorems about
      the result quantify over the candidate set before sorting. *)
  Fixpoint insert_pair (x : cpair) (l : list cpair) : list cpair :=
    match l with
    | [] => [x]
    | y :: l' => if c_t0 (fst x) <? c_t0 (fst y) then x :: l else y :: insert_pair x l'
    end.
  Definition sort_pairs (l : list cpair) : list cpair := fold_left (fun acc x => insert_pair x acc) l [].

  (** rmath.cpp:858-918 [intersect(bezier_cubic, bezier_cubic, int)] *)
  Definition cc_result (b1 : bezier T) (p : cpair) : isect T :=
    let t0 := (c_t0 (fst p) + c_t1 (fst p)) / #2 in
    let t1 := (c_t0 (snd p) + c_t1 (snd p)) / #2 in
    Isect (point_at b1 t0) t0 t1.
  Definition intersect_cubics (fuel : nat) (b1 b2 : bezier T) (precise : Z)
    : outcome (list (isect T)) :=
    let p1 := Cell b1 (rough_rect b1) (#0) (#1) 0 in
    let p2 := Cell b2 (rough_rect b2) (#0) (#1) 0 in
    if negb (rect_intersect (c_box p1) (c_box p2)) then Ok []
    else
      (do out <- cc_loop fuel precise [(p1, p2)] [] ;;
       Ok (firstn 9 (map (cc_result b1) (unique_pairs (sort_pairs out)))))%out.

End Rmath.
Arguments cell T : clear implicits.
