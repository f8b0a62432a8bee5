(** From equal outcomes to the relation of the specification. *)
From Coq Require Import ZArith Bool List Reals Permutation Floats.SpecFloat.
From Verif Require Import Outcome Num Rmath Order Segment Path PathSpec VState VPath VBreak VAel VOut VMain RingSpec BreakSpec BreakDrawn EquiMap Layout LayoutLines LayoutSpec.
Import ListNotations.

Lemma omap_same {A B} (o o' : outcome (A * B)) : omap snd o = omap snd o' -> same_answer o o'.
Proof. destruct o as [[a b]| | |], o' as [[a' b']| | |]; cbn; intros E; try discriminate E; auto; now injection E. Qed.
Lemma open_double (lm : libm) (t : b64) : @in_open b64 (B64 lm) t = true -> @nvalid b64 (B64 lm) (B64_ord lm) t.
Proof. destruct t as [| | |]; try discriminate; intros _; exact I || (intros H; discriminate H) || cbn; auto. Qed.

Lemma addresses_R en en' n ps (s : clipper R) op fill : drawable_paths ps -> add_all clipper0 ps = Ok s -> lawful en -> lawful en' ->
  en_fuel en = en_fuel en' -> en_order en = en_order en' -> same_answer (process en n s op fill) (process en' n s op fill).
Proof.
  intros D E [_ J] [_ J'] F O. apply omap_same. now apply (drawn_layout (T := R) (O := R_ord) (fun t _ => I) en en' n ps).
Qed.
Lemma addresses_double (lm : libm) : let N := B64 lm in forall en en' n ps (s : clipper b64) op fill, drawable_paths ps -> add_all clipper0 ps = Ok s ->
  lawful en -> lawful en' -> en_fuel en = en_fuel en' -> en_order en = en_order en' -> same_answer (process en n s op fill) (process en' n s op fill).
Proof.
  intros N en en' n ps s op fill D E [_ J] [_ J'] F O. apply omap_same. now apply (drawn_layout (T := b64) (O := B64_ord lm) (open_double lm) en en' n ps).
Qed.
Lemma orders_double (lm : libm) : let N := B64 lm in forall en en' n ps (s : clipper b64) op fill bs, drawable_paths ps -> add_all clipper0 ps = Ok s ->
  lawful en -> lawful en' -> en_fuel en = en_fuel en' -> find_breaks en (verts s) (starts s) = Ok bs -> told_once bs ->
  same_answer (process en n s op fill) (process en' n s op fill).
Proof.
  intros N en en' n ps s op fill bs D E [P J] [P' J'] F B O. apply omap_same.
  now apply (drawn_orders (T := b64) (O := B64_ord lm) (open_double lm) en en' n ps s op fill bs).
Qed.
Lemma orders_R en en' n ps (s : clipper R) op fill bs : drawable_paths ps -> add_all clipper0 ps = Ok s ->
  lawful en -> lawful en' -> en_fuel en = en_fuel en' -> find_breaks en (verts s) (starts s) = Ok bs -> told_once bs ->
  same_answer (process en n s op fill) (process en' n s op fill).
Proof.
  intros D E [P J] [P' J'] F B O. apply omap_same.
  now apply (drawn_orders (T := R) (O := R_ord) (fun t _ => I) en en' n ps s op fill bs).
Qed.
Lemma polygons_R en en' n ps (s : clipper R) op fill : Forall polygon (all_outlines ps) -> add_all clipper0 ps = Ok s -> lawful en -> lawful en' ->
  en_fuel en = en_fuel en' -> same_answer (process en n s op fill) (process en' n s op fill).
Proof. intros D E [P J] [P' J'] F. apply omap_same. now apply (drawn_polygons en en' n ps). Qed.
