(** C46: what the answer owes to the layout of memory.  [en_order] is the order of a set of
    pointers of the sweep for intersections, [en_addr] the addresses of vertices. *)
From Coq Require Import ZArith Bool List Reals.
From Verif Require Import Outcome Num Rmath Segment Path PathSpec VState VPath VBreak VAel VOut VMain RingSpec BreakSpec BreakDrawn ClipSpec ClipCases BoxSpec BoxCases LayoutSpec LayoutProofs LayoutCases.
Import ListNotations.

(** C46: the addresses of the vertices do not matter, whatever is drawn. *)
Theorem C46_addresses :
  forall en en' n ps (s : clipper R) op fill,
    drawable_paths ps -> add_all clipper0 ps = Ok s -> lawful en -> lawful en' -> en_fuel en = en_fuel en' ->
    en_order en = en_order en' -> same_answer (process en n s op fill) (process en' n s op fill).
Proof. exact addresses_R. Qed.
Print Assumptions C46_addresses.
Theorem C46_addresses_double :
  forall lm : libm, let N := B64 lm in forall en en' n ps (s : clipper b64) op fill,
    drawable_paths ps -> add_all clipper0 ps = Ok s -> lawful en -> lawful en' -> en_fuel en = en_fuel en' ->
    en_order en = en_order en' -> same_answer (process en n s op fill) (process en' n s op fill).
Proof. exact addresses_double. Qed.
Print Assumptions C46_addresses_double.
Example C46_addresses_case :
  lawful env0 /\ lawful env_down /\ (en_order env0 = en_order env_down /\ en_addr env0 3 <> en_addr env_down 3) /\
  forall lm : libm, let N := B64 lm in drawable_paths ps_two /\ exists s bs s' l, add_all clipper0 ps_two = Ok s /\
    find_breaks env0 (verts s) (starts s) = Ok bs /\ told_once bs /\ length bs = 4 /\ process env0 100 s op_union non_zero = Ok (s', l) /\ length l = 9.
Proof. exact (conj env0_lawful (conj env_down_lawful (conj down_differs two_case))). Qed.

(** C46: polygons in exact arithmetic: no layout of memory changes the calls. *)
Theorem C46_polygons :
  forall en en' n ps (s : clipper R) op fill,
    Forall polygon (all_outlines ps) -> add_all clipper0 ps = Ok s -> lawful en -> lawful en' -> en_fuel en = en_fuel en' ->
    same_answer (process en n s op fill) (process en' n s op fill).
Proof. exact polygons_R. Qed.
Print Assumptions C46_polygons.
Example C46_polygons_case :
  lawful env0 /\ lawful env_back /\ en_order env0 [1; 2] <> en_order env_back [1; 2] /\
  Forall polygon (all_outlines ps_squares) /\ exists s s' l, add_all clipper0 ps_squares = Ok s /\ process env0 60 s op_union non_zero = Ok (s', l) /\
    (forall p, moderate (vx p) -> moderate (vy p) -> inside p l = in_box p sqA || in_box p sqB)%bool.
Proof. exact (conj env0_lawful (conj env_back_lawful (conj back_differs squares_case))). Qed.

(** C46: curves, and doubles: the layout does not matter when no segment is recorded at one
    parameter with two different points or partners. *)
Theorem C46_orders_partial :
  forall en en' n ps (s : clipper R) op fill bs,
    drawable_paths ps -> add_all clipper0 ps = Ok s -> lawful en -> lawful en' -> en_fuel en = en_fuel en' ->
    find_breaks en (verts s) (starts s) = Ok bs -> told_once bs ->
    same_answer (process en n s op fill) (process en' n s op fill).
Proof. exact orders_R. Qed.
Print Assumptions C46_orders_partial.
Theorem C46_orders_double_partial :
  forall lm : libm, let N := B64 lm in forall en en' n ps (s : clipper b64) op fill bs,
    drawable_paths ps -> add_all clipper0 ps = Ok s -> lawful en -> lawful en' -> en_fuel en = en_fuel en' ->
    find_breaks en (verts s) (starts s) = Ok bs -> told_once bs ->
    same_answer (process en n s op fill) (process en' n s op fill).
Proof. exact orders_double. Qed.
Print Assumptions C46_orders_double_partial.
Example C46_orders_case : forall lm : libm, let N := B64 lm in
  drawable_paths ps_two /\ exists s bs s' l, add_all clipper0 ps_two = Ok s /\ find_breaks env0 (verts s) (starts s) = Ok bs /\
    told_once bs /\ length bs = 4 /\ process env0 100 s op_union non_zero = Ok (s', l) /\ length l = 9.
Proof. exact two_case. Qed.

(** C46, doubles: three triangles with sides through one point.  When the set runs in the order of
    allocation, process ends with 19 calls; in the other order it follows an end iterator. *)
Theorem C46_orders_refuted :
  forall lm : libm, let N := B64 lm in
  exists en en' s s' l, lawful en /\ lawful en' /\ en_fuel en = en_fuel en' /\ en_addr en = en_addr en' /\
    drawable_paths ps_meet /\ add_all clipper0 ps_meet = Ok s /\
    process en 1000 s op_union non_zero = Ok (s', l) /\ length l = 19 /\ process en' 1000 s op_union non_zero = UB EndDeref.
Proof. exact meet_case. Qed.
Print Assumptions C46_orders_refuted.
