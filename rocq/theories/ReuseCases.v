(** One processor used several times. *)
From Coq Require Import ZArith Bool List Reals Lia Permutation Floats.SpecFloat.
From Verif Require Import Outcome Num Rmath Order Segment Path PathSpec VState VPath VBreak VAel VOut VMain VLemmas RingSpec BreakSpec BreakDrawn ClipSpec ClipCases BoxSpec
  SpanSpec PlaneSpec PlaneCases OutSpec OutRun OutEven LayoutSpec LayoutCases ListSpec ListCases ReuseSpec ReuseRun ReusePoly.
Import ListNotations.
Local Open Scope out.

Lemma reuse_plane : lawful env0 /\ Forall polygon (all_outlines ps_plane) /\ Forall above_end (all_outlines ps_plane) /\ generic (PlaneSpec.all_sides ps_plane) /\
  exists s n s' s'' l l', add_all clipper0 ps_plane = Ok s /\ process env0 n s op_union positive = Ok (s', l) /\ process env0 n s op_intersection non_zero = Ok (s'', l') /\
    ClipSpec.inside (V2 8%R 4%R) l = true /\ ClipSpec.inside (V2 8%R 4%R) l' = false /\ ClipSpec.inside (V2 4%R 3%R) l' = true.
Proof.
  destruct plane_case as (POL & AE & GE & PO & AI & s & ADD). destruct out_case as (C1 & C2 & _ & R1 & _ & R2). split; [split; auto|]. split; auto. split; auto. split; auto.
  destruct (polygons_out env0 ps_plane s PO AI POL AE GE ADD) as (k & K). destruct (K k _ _ _ C1) as (T1 & _). destruct (T1 (le_n _)) as (s' & l & H1).
  destruct (K k _ _ _ C2) as (T2 & _). destruct (T2 (le_n _)) as (s'' & l' & H2). exists s, k, s', s'', l, l'. repeat (split; [assumption|]).
  rewrite !(polygons_even env0 ps_plane s PO AI POL AE GE ADD _ _ _ _ _ _ C1 H1), !(polygons_even env0 ps_plane s PO AI POL AE GE ADD _ _ _ _ _ _ C2 H2). rewrite R1, R2.
  split; auto. destruct ps_winding as (_ & _ & W3 & W4 & _). unfold result. rewrite W3, W4. reflexivity.
Qed.

Section Doubles.
  Variable lm : libm.
  Let N := B64 lm.
  Existing Instance N.
  Definition z_reuse : zrings := [(subject, [(0, 0); (10, 1); (3, 9)]); (clip, [(5, 2); (14, 4); (4, 12)])]%Z.
  Lemma get_ok {A} (d : A) o b : o = Ok b -> b = get d o.
  Proof. intros ->. reflexivity. Qed.
  Definition is_nan64 (x : spec_float) := match x with S754_nan => true | _ => false end.
  Lemma small_minima (s : clipper spec_float) : forallb (fun m => match nth_error (lmins s) m with
      Some x => match nth_error (verts s) (lm_vert x) with Some v => negb (is_nan64 (vx (v_pt v)) || is_nan64 (vy (v_pt v))) | None => false end | None => false end) (minima s) = true -> minima_valid s.
  Proof.
    intros F m Hm. rewrite forallb_forall in F. specialize (F m Hm). cbv beta in F. destruct (nth_error (lmins s) m) as [x|] eqn:X; [|discriminate]. destruct (nth_error (verts s) (lm_vert x)) as [v|] eqn:V; [|discriminate].
    exists x, v. split; auto. split; auto. apply negb_true_iff, orb_false_iff in F as [G1 G2]. split; intros K; rewrite K in *; discriminate.
  Qed.
  Lemma reuse_double : let s := loaded64 lm z_reuse in drawable_paths (ListCases.rings SFofZ z_reuse) /\ add_all clipper0 (ListCases.rings SFofZ z_reuse) = Ok s /\ minima_valid s /\ quiet env0 s /\
    exists s' s'' l l', process env0 200 s op_union non_zero = Ok (s', l) /\ process env0 200 s op_intersection non_zero = Ok (s'', l') /\ length l = 8 /\ length l' = 4.
  Proof.
    intros s. split; [unfold drawable_paths; cbn; repeat constructor|]. split; [vm_compute; reflexivity|]. split; [|split].
    - apply small_minima. vm_compute. reflexivity.
    - intros b PI. apply (get_ok clipper0) in PI. rewrite PI. vm_compute. reflexivity.
    - exists (fst (run64 lm z_reuse op_union)), (fst (run64 lm z_reuse op_intersection)), (snd (run64 lm z_reuse op_union)), (snd (run64 lm z_reuse op_intersection)).
      split; [vm_compute; reflexivity|]. split; [vm_compute; reflexivity|]. split; vm_compute; reflexivity.
  Qed.
  (** Three triangles that are broken anew in the second run *)
  Definition z_anew : zrings := [(subject, [(3, 6); (7, 2); (2, 3)]); (clip, [(5, 9); (2, 1); (9, 8)]); (clip, [(1, 8); (8, 7); (2, 1)])]%Z.
  Lemma reuse_anew : exists en n (s s' : clipper spec_float) l l', lawful en /\ drawable_paths (ListCases.rings SFofZ z_anew) /\ add_all clipper0 (ListCases.rings SFofZ z_anew) = Ok s /\ minima_valid s /\ process en n s op_union non_zero = Ok (s', l) /\ uses en n s [(op_union, non_zero); (op_union, non_zero)] = Ok [l; l'] /\ length l = 18 /\ length l' = 42.
  Proof.
    exists env0, 200, (loaded64 lm z_anew), (fst (run64 lm z_anew op_union)), (snd (run64 lm z_anew op_union)), (nth 1 (get [] (uses env0 200 (loaded64 lm z_anew) [(op_union, non_zero); (op_union, non_zero)])) []).
    split; [exact env0_lawful|]. split; [unfold drawable_paths; cbn; repeat constructor|]. split; [vm_compute; reflexivity|]. split; [apply small_minima; vm_compute; reflexivity|].
    split; [vm_compute; reflexivity|]. split; [vm_compute; reflexivity|]. split; vm_compute; reflexivity.
  Qed.
End Doubles.
