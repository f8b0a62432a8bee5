(** Polygons for the example and the counterexample beside the theorem on moved and scaled polygons. *)
From Coq Require Import ZArith Bool List Reals Lra Lia Permutation Floats.SpecFloat.
From Verif Require Import Outcome Num Rmath RTac VLemmas Segment Path PathSpec VState VPath VBreak VAel VOut VMain RingSpec ClipSpec ClipCases BreakSpec BreakDrawn LineSpec
  BreakLines BoxSpec StretchSpec LayoutSpec LayoutCases ListSpec ListCases ReuseCases AffineSpec.
Import ListNotations.

(** Two triangles with crossing sides, and an edge that both share with a third one *)
Definition z_move : zrings := [(subject, [(0, 0); (10, 1); (3, 9)]); (clip, [(5, 2); (14, 4); (4, 12)]); (clip, [(10, 1); (3, 9); (12, 12)])]%Z.
Lemma huge_100 : (100 < R_huge)%R.
Proof. unfold R_huge. apply IZR_lt. vm_compute. reflexivity. Qed.
Ltac each := repeat first [apply Forall_nil | apply Forall_cons].
Lemma move_polygons : Forall polygon (all_outlines (ListCases.rings IZR z_move)).
Proof.
  pose proof huge_100. cbn [z_move ListCases.rings ListCases.ring all_outlines flat_map concat app fst snd map]. each;
    (split; cbn [fst snd]; [|each]); unfold fin; cbn [vx vy zpt fst snd]; lra.
Qed.
Lemma move_range : Forall in_range (all_outlines (ListCases.rings IZR z_move)).
Proof.
  pose proof huge_100. cbn [z_move ListCases.rings ListCases.ring all_outlines flat_map concat app fst snd map]. each;
    unfold in_range; cbn [fst snd map endpoint]; each; unfold moderate; cbn [vx vy zpt fst snd]; lra.
Qed.
Lemma moved_range : Forall in_range (all_outlines (moved_paths (affine 2 (-5)) (affine 3 1) (ListCases.rings IZR z_move))).
Proof.
  pose proof huge_100. cbn [z_move ListCases.rings ListCases.ring moved_paths moved_outline moved_pcall all_outlines flat_map concat app fst snd map]. each;
    unfold in_range; cbn [fst snd map endpoint]; each; unfold moderate, moved_outline, moved_pcall, moved, affine; cbn [fst snd endpoint vx vy zpt]; lra.
Qed.
Lemma move_case : lawful env0 /\ Forall polygon (all_outlines (ListCases.rings IZR z_move)) /\ Forall in_range (all_outlines (ListCases.rings IZR z_move)) /\
  Forall in_range (all_outlines (moved_paths (affine 2 (-5)) (affine 3 1) (ListCases.rings IZR z_move))) /\
  exists s s2, add_all clipper0 (ListCases.rings IZR z_move) = Ok s /\ add_all clipper0 (moved_paths (affine 2 (-5)) (affine 3 1) (ListCases.rings IZR z_move)) = Ok s2.
Proof.
  split; [exact env0_lawful|]. split; [exact move_polygons|]. split; [exact move_range|]. split; [exact moved_range|].
  destruct (drawn_rings (ListCases.rings IZR z_move)) as (s & _ & E & _).
  { eapply Forall_impl; [|exact move_polygons]. intros o. apply polygon_drawing. }
  destruct (drawn_rings (moved_paths (affine 2 (-5)) (affine 3 1) (ListCases.rings IZR z_move))) as (s2 & _ & E2 & _).
  { unfold drawable_paths. cbn [z_move ListCases.rings ListCases.ring moved_paths moved_outline moved_pcall all_outlines flat_map concat app fst snd map].
    each; unfold drawing; cbn [fst snd]; each; exact I. }
  eauto.
Qed.

Section Doubles.
  Variable lm : libm.
  Let N := B64 lm.
  Existing Instance N.
  (** The same three triangles, and one unit further in both directions; these are sums without rounding. *)
  Definition z_there (z : Z) : spec_float := (SFofZ z + SFofZ 1)%num.
  Lemma move_doubles : exists en n (s s2 s' s2' : clipper spec_float) l l', lawful en /\
    add_all clipper0 (ListCases.rings SFofZ z_anew) = Ok s /\ add_all clipper0 (ListCases.rings z_there z_anew) = Ok s2 /\
    process en n s op_union non_zero = Ok (s', l) /\ process en n s2 op_union non_zero = Ok (s2', l') /\ length l = 18 /\ length l' = 19.
  Proof.
    set (o := fun f => add_all clipper0 (ListCases.rings f z_anew)).
    set (c := fun f => match o f with Ok s => s | _ => clipper0 end).
    set (r := fun f => match process env0 200 (c f) op_union non_zero with Ok x => x | _ => (clipper0, []) end).
    exists env0, 200, (c SFofZ), (c z_there), (fst (r SFofZ)), (fst (r z_there)), (snd (r SFofZ)), (snd (r z_there)).
    split; [exact env0_lawful|]. do 6 (match goal with |- _ /\ _ => split; [vm_compute; reflexivity|] | _ => idtac end). vm_compute; reflexivity.
  Qed.
  (** An arch on a triangle, and the same 2^40 times smaller; these are products without rounding. *)
  Definition z_small (z : Z) : spec_float := (SFofZ z / SFofZ (2 ^ 40))%num.
  Definition z_arch (f : Z -> spec_float) : list (path_type * list (list (outline (T := spec_float)))) :=
    let p x y := V2 (f x) (f y) in [(subject, [[(p 0 0, [PCubic (p 2 4) (p 4 4) (p 6 0); PLine (p 3 (-6))])]])]%Z.
  Definition is_curve (c : call (T := spec_float)) : bool := match c with CubicTo _ _ _ _ => true | _ => false end.
  Lemma arch_doubles : exists en n (s s2 s' s2' : clipper spec_float) l l', lawful en /\
    add_all clipper0 (z_arch SFofZ) = Ok s /\ add_all clipper0 (z_arch z_small) = Ok s2 /\
    process en n s op_union non_zero = Ok (s', l) /\ process en n s2 op_union non_zero = Ok (s2', l') /\
    length (filter is_curve l) = 2 /\ length l' = 4 /\ filter is_curve l' = [].
  Proof.
    set (c := fun f => match add_all clipper0 (z_arch f) with Ok s => s | _ => clipper0 end).
    set (r := fun f => match process env0 200 (c f) op_union non_zero with Ok x => x | _ => (clipper0, []) end).
    exists env0, 200, (c SFofZ), (c z_small), (fst (r SFofZ)), (fst (r z_small)), (snd (r SFofZ)), (snd (r z_small)).
    split; [exact env0_lawful|]. do 7 (match goal with |- _ /\ _ => split; [vm_compute; reflexivity|] | _ => idtac end). vm_compute; reflexivity.
  Qed.
End Doubles.
