(** A leaf: a curve up and two lines down. *)
From Coq Require Import ZArith Bool List Floats.SpecFloat.
From Verif Require Import Outcome Num Rmath Segment Path PathSpec VState VPath VBreak VAel VOut VMain RingSpec BreakSpec BreakDrawn ClipSpec ClipCases RunCases PieceSpec.
Import ListNotations.
Local Open Scope out.

(** Whatever the solver of cubics makes of it, the run below does not depend on it. *)
Definition lm_plain : libm := {|
  lm_cbrt := fun x => x; lm_pow := fun x _ => x; lm_cos := fun x => x; lm_sin := fun x => x;
  lm_atan := fun x => x; lm_atan2 := fun x _ => x |}.
Section Leaf.
  Let N := B64 lm_plain.
  Existing Instance N.
  Definition zp (x y : Z) : vec2 b64 := V2 (SFofZ x) (SFofZ y).
  Definition leaf : outline (T := b64) := (zp 0 0, [PCubic (zp 8 3) (zp 8 6) (zp 0 9); PLine (zp (-4) 5)]).
  Definition ps_leaf := [(subject, [[leaf]])].
  Definition leaf_calls : list (call (T := b64)) :=
    [MoveTo (zp 0 0) (zp 0 0); CubicTo (zp 0 0) (zp 8 3) (zp 8 6) (zp 0 9); LineTo (zp 0 9) (zp (-4) 5); LineTo (zp (-4) 5) (zp 0 0)].
  Definition s_leaf := get clipper0 (add_all clipper0 ps_leaf).
  Definition r_leaf := get (clipper0, []) (process env0 100 s_leaf op_union non_zero).
  Definition f_leaf := get (clipper0, n_ofZ 0) (first_line lm_plain env0 s_leaf op_union non_zero).
  Definition w_leaf := get (clipper0, n_ofZ 0) (walk lm_plain 100 1 (fst f_leaf) (snd f_leaf)).
  Definition e_leaf := nth 1 (edges (fst w_leaf)) (Edge (zp 0 0) (zp 0 0) (n_ofZ 0) 0 0 0 None None None 0 0).
  Lemma leaf_drawable : drawable_paths ps_leaf.
  Proof. unfold drawable_paths. cbn. repeat constructor. Qed.
  Lemma leaf_added : add_all clipper0 ps_leaf = Ok s_leaf.
  Proof. vm_compute. reflexivity. Qed.
  Lemma leaf_run : process env0 100 s_leaf op_union non_zero = Ok (fst r_leaf, leaf_calls).
  Proof. vm_compute. reflexivity. Qed.
  Lemma leaf_first : first_line lm_plain env0 s_leaf op_union non_zero = Ok (fst f_leaf, snd f_leaf).
  Proof. vm_compute. reflexivity. Qed.
  Lemma leaf_walk : walk lm_plain 100 1 (fst f_leaf) (snd f_leaf) = Ok (fst w_leaf, snd w_leaf).
  Proof. vm_compute. reflexivity. Qed.
  Lemma leaf_seen : seen env0 100 s_leaf op_union non_zero (fst w_leaf) (snd w_leaf).
  Proof. exact (walk_seen lm_plain _ _ _ _ _ _ _ _ _ _ (first_line_seen lm_plain _ _ _ _ _ _ _ leaf_first) leaf_walk). Qed.
  Lemma leaf_edge : In e_leaf (edges (fst w_leaf)) /\ Z.ltb (e_dx e_leaf) 0 = true /\ e_bot e_leaf = zp 0 0 /\ e_top e_leaf = zp 0 9 /\
    copy_seg (fst w_leaf) e_leaf true = Ok (SCubic (zp 8 6) (zp 8 3) (zp 0 0)).
  Proof. split; [vm_compute; right; left; reflexivity|vm_compute; repeat split; reflexivity]. Qed.
  Lemma leaf_case : drawable_paths ps_leaf /\ exists s s', add_all clipper0 ps_leaf = Ok s /\ process env0 100 s op_union non_zero = Ok (s', leaf_calls).
  Proof. exact (conj leaf_drawable (ex_intro _ _ (ex_intro _ _ (conj leaf_added leaf_run)))). Qed.
  Lemma leaf_copy_case : drawable_paths ps_leaf /\ exists s s' y e, add_all clipper0 ps_leaf = Ok s /\ seen env0 100 s op_union non_zero s' y /\
    In e (edges s') /\ e_bot e = zp 0 0 /\ e_top e = zp 0 9 /\ copy_seg s' e (xorb (Z.ltb (e_dx e) 0) false) = Ok (SCubic (zp 8 6) (zp 8 3) (zp 0 0)).
  Proof.
    split; [exact leaf_drawable|]. exists s_leaf, (fst w_leaf), (snd w_leaf), e_leaf. split; [exact leaf_added|]. split; [exact leaf_seen|].
    destruct leaf_edge as (A & B & C & D & E). rewrite B. exact (conj A (conj C (conj D E))).
  Qed.
End Leaf.
