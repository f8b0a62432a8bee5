(** Cases for the ends of clipping runs. *)
From Coq Require Import ZArith Bool List Reals Floats.SpecFloat Permutation Lia.
From Verif Require Import Outcome Num Order Rmath Segment Path PathSpec RTac ScanLine VState VPath VBreak VLemmas VAel VOut VMain AelSpec RingSpec BezierSpec BreakSpec LineSpec
  BreakDrawn ClipCases BreakCases RingStatements ClimbSpec ClimbNone.
Import ListNotations.

Section Apart.
  Variable lm : libm.
  Let N := B64 lm.
  Existing Instance N.
  (** Two squares side by side *)
  Definition o_far : outline := (pt_ 7 2, [PLine (pt_ 9 2); PLine (pt_ 9 6); PLine (pt_ 7 6)]).
  Definition ps_apart := [(subject, [[o_sq1]]); (clip, [[o_far]])].
  Definition s_apart := get clipper0 (add_all clipper0 ps_apart).
  Lemma apart_ok : add_all clipper0 ps_apart = Ok s_apart.
  Proof. vm_compute. reflexivity. Qed.
  Lemma apart_breaks : find_breaks env0 (verts s_apart) (starts s_apart) = Ok [].
  Proof. vm_compute. reflexivity. Qed.
  Definition finiteb (x : b64) : bool := match x with S754_nan => false | _ => true end.
  Lemma apart_valid : Forall (fun v : vertex b64 => @nvalid b64 (B64 lm) (B64_ord lm) (vy (v_pt v))) (verts s_apart).
  Proof.
    assert (H : forallb (fun v => finiteb (vy (v_pt v))) (verts s_apart) = true) by (vm_compute; reflexivity).
    apply Forall_forall. intros v Hv. rewrite forallb_forall in H. specialize (H v Hv). intros K. simpl in K. rewrite K in H. discriminate H.
  Qed.
  Lemma apart_none : match process env0 20 s_apart op_none even_odd with Ok _ => true | _ => false end = true.
  Proof. vm_compute. reflexivity. Qed.
  Lemma apart_drawable : drawable_paths ps_apart.
  Proof. repeat constructor. Qed.
  Lemma apart_length : length (verts s_apart) = 8.
  Proof. vm_compute. reflexivity. Qed.
End Apart.
Lemma apart_case (lm : libm) : let N := B64 lm in
  exists s, add_all clipper0 ps_apart = Ok s /\ drawable_paths ps_apart /\
    Forall (fun v : vertex b64 => @nvalid b64 (B64 lm) (B64_ord lm) (vy (v_pt v))) (verts s) /\
    find_breaks env0 (verts s) (starts s) = Ok [] /\ length (verts s) = 8.
Proof.
  intros N. exists (s_apart lm).
  exact (conj (apart_ok lm) (conj apart_drawable (conj (apart_valid lm) (conj (apart_breaks lm) (apart_length lm))))).
Qed.
Lemma squares_case : let ps := [(subject, [[sqR 0]]); (clip, [[sqR 2]])] in
  Forall polygon (all_outlines ps) /\ (forall l, Permutation (en_order env0 l) l) /\ exists s, add_all clipper0 ps = Ok s.
Proof.
  intros ps. assert (P : Forall polygon (all_outlines ps)).
  { unfold ps. cbn [all_outlines flat_map concat app snd]. repeat (apply Forall_cons; [apply sqR_polygon; split; discriminate|]). apply Forall_nil. }
  split; [exact P|]. split; [reflexivity|].
  destruct (drawn_rings ps) as (s & _ & E & _); [eapply Forall_impl; [|exact P]; intros o; apply polygon_drawing|]. exists s. exact E.
Qed.
