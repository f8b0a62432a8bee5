(** Subject and clip exchanged: concrete polygons. *)
From Coq Require Import ZArith Bool List Reals Permutation Floats.SpecFloat.
From Verif Require Import Outcome Num Rmath Segment Path PathSpec VState VPath VBreak VAel VOut VMain RingSpec LineSpec BreakSpec BreakDrawn ClipSpec SpanSpec PlaneSpec OutSpec OutEven ClipCases PlaneCases LayoutSpec LayoutCases ListCases SwapSpec Swap.
Import ListNotations.

Lemma swap_case : lawful env0 /\ Forall polygon (all_outlines ps_plane) /\ Forall above_end (all_outlines ps_plane) /\ generic (PlaneSpec.all_sides ps_plane) /\
  (exists s, add_all clipper0 ps_plane = Ok s) /\ (exists s, add_all clipper0 (swapped ps_plane) = Ok s) /\
  symmetric op_union /\ symmetric op_intersection /\ consistent 1 ps_plane op_union positive /\ consistent 1 ps_plane op_intersection positive /\ result ps_plane op_intersection non_zero 4 3 = true.
Proof.
  destruct plane_case as (A & B & C & _ & _ & D). destruct out_case as (E & _ & _ & G & _).
  split; [exact env0_lawful|]. split; [exact A|]. split; [exact B|]. split; [exact C|]. split; [exact D|]. split.
  - destruct (drawn_rings (swapped ps_plane)) as (s & _ & S & _); [|eauto]. unfold drawable_paths. rewrite Swap.swapped_outlines. eapply Forall_impl; [|exact A]. intros o. apply polygon_drawing.
  - split; [discriminate|]. split; [discriminate|]. split; [exact E|]. split; [apply (consistent_turn ps_plane op_intersection positive); auto|exact G].
Qed.

Section Doubles.
  Variable lm : libm.
  Let N := B64 lm.
  Existing Instance N.
  (** A triangle, given once as subject and once as clip *)
  Definition z_self : zrings := [(subject, [(1, 1); (0, 3); (3, 2)]); (clip, [(1, 1); (0, 3); (3, 2)])]%Z.
  Definition z_swap (zs : zrings) : zrings := map (fun x => (other (fst x), snd x)) zs.
  Lemma swap_rings zs : ListCases.rings SFofZ (z_swap zs) = swapped (ListCases.rings SFofZ zs).
  Proof. unfold ListCases.rings, z_swap, swapped. now rewrite !map_map. Qed.
  Lemma self_lemma : exists en n (s s2 s' s2' : clipper spec_float) l, lawful en /\
    add_all clipper0 (ListCases.rings SFofZ z_self) = Ok s /\ add_all clipper0 (swapped (ListCases.rings SFofZ z_self)) = Ok s2 /\
    process en n s op_intersection non_zero = Ok (s', []) /\ process en n s2 op_intersection non_zero = Ok (s2', l) /\ length l = 4.
  Proof.
    rewrite <- swap_rings.
    exists env0, 200, (loaded64 lm z_self), (loaded64 lm (z_swap z_self)), (fst (run64 lm z_self op_intersection)), (fst (run64 lm (z_swap z_self) op_intersection)), (snd (run64 lm (z_swap z_self) op_intersection)).
    split; [exact env0_lawful|]. do 4 (split; [vm_compute; reflexivity|]). vm_compute; reflexivity.
  Qed.
End Doubles.
