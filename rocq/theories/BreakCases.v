(** Cases for C23. *)
From Coq Require Import ZArith Bool List Reals Lra Lia Floats.SpecFloat Permutation.
From Verif Require Import Outcome Num Order Rmath Segment Path PathSpec RTac ScanLine VState VPath VBreak VLemmas AelSpec RingSpec BezierSpec BreakSpec LineSpec
  VCut BreakStatements BreakLines BreakDrawn ClipCases RingStatements.
Import ListNotations.

Section Cases.
  Variable lm : libm.
  Let N := B64 lm.
  Existing Instance N.
  (** Two squares that overlap at a corner *)
  Definition o_sq1 : outline := (pt_ 0 0, [PLine (pt_ 4 0); PLine (pt_ 4 4); PLine (pt_ 0 4)]).
  Definition o_sq2 : outline := (pt_ 2 2, [PLine (pt_ 6 2); PLine (pt_ 6 6); PLine (pt_ 2 6)]).
  Definition ps_cut := [(subject, [[o_sq1]]); (clip, [[o_sq2]])].
  Definition s_cut := get clipper0 (add_all clipper0 ps_cut).
  Definition bs_cut := get [] (find_breaks env0 (verts s_cut) (starts s_cut)).
  Definition s_cut' := get clipper0 (process_intersect env0 s_cut).
  Lemma s_cut_ok : add_all clipper0 ps_cut = Ok s_cut.
  Proof. vm_compute. reflexivity. Qed.
  Lemma bs_cut_ok : find_breaks env0 (verts s_cut) (starts s_cut) = Ok bs_cut.
  Proof. vm_compute. reflexivity. Qed.
  Lemma s_cut_ok' : process_intersect env0 s_cut = Ok s_cut'.
  Proof. vm_compute. reflexivity. Qed.
  Lemma cut_facts : map (@br_vert b64) (tidy_breaks env0 bs_cut) = [1; 2; 4; 7] /\ length (verts s_cut) = 8 /\ length (verts s_cut') = 12.
  Proof. csplit; vm_compute; reflexivity. Qed.
  Lemma cut_rings : exists ls, rings (verts s_cut) ls /\ starts s_cut = map (hd 0) ls.
  Proof.
    assert (D : drawable_paths ps_cut) by repeat constructor. exact (rings_of ps_cut s_cut D s_cut_ok).
  Qed.
  (** An arch, its first curve broken once and its base twice *)
  Definition o_bow : outline := (pt_ 0 0, [PCubic (pt_ 0 16) (pt_ 32 16) (pt_ 32 0)]).
  Definition q_ (n : Z) : b64 := n_div (SFofZ n) (SFofZ 4).
  Definition bs_bow : list (break_info b64) :=
    [Break 0 (pt_ 5 9) (q_ 2); Break 2 (pt_ 16 0) (q_ 2); Break 2 (pt_ 8 0) (q_ 3)].
  Definition s_bow := get clipper0 (add_all clipper0 [(subject, [[o_bow]])]).
  Lemma s_bow_ok : add_all clipper0 [(subject, [[o_bow]])] = Ok s_bow.
  Proof. vm_compute. reflexivity. Qed.
  Lemma s_bow_starts : starts s_bow = [0] /\ ring_from (length (verts s_bow)) (verts s_bow) 0 0 = Ok [0; 1; 2].
  Proof. csplit; vm_compute; reflexivity. Qed.
  Lemma bow_rings : exists ls, rings (verts s_bow) ls /\ concat ls = [0; 1; 2].
  Proof.
    assert (D : drawable_paths [(subject, [[o_bow]])]) by repeat constructor.
    exact (ring_of _ s_bow 0 _ D s_bow_ok (proj1 s_bow_starts) (proj2 s_bow_starts)).
  Qed.
  Lemma bow_facts : map (fun i => length (pieces_from (verts s_bow) bs_bow i)) [0; 1; 2] = [2; 1; 3].
  Proof. vm_compute. reflexivity. Qed.
  Lemma bow_in ls : concat ls = [0; 1; 2] -> Forall (fun b => In (br_vert b) (concat ls)) bs_bow.
  Proof. intros ->. unfold bs_bow. apply Forall_forall. intros b [<-|[<-|[<-|[]]]]; simpl; auto. Qed.
End Cases.

(** The squares over the reals *)
Definition ptR (x y : Z) : vec2 R := V2 (IZR x) (IZR y).
Definition sqR (a : Z) : outline (T := R) := (ptR a a, [PLine (ptR (a + 4) a); PLine (ptR (a + 4) (a + 4)); PLine (ptR a (a + 4))]).
Lemma fin_small x y : (- 100 <= x <= 100)%Z -> (- 100 <= y <= 100)%Z -> fin (ptR x y).
Proof.
  intros Hx Hy. unfold fin, ptR, R_huge. cbn [vx vy]. rewrite <- !opp_IZR.
  assert (K : (100 <= (2 ^ 53 - 1) * 2 ^ 971)%Z) by (vm_compute; discriminate).
  set (h := ((2 ^ 53 - 1) * 2 ^ 971)%Z) in *. clearbody h. repeat split; apply IZR_le; lia.
Qed.
Lemma sqR_polygon a : (0 <= a <= 50)%Z -> polygon (sqR a).
Proof. intros H. split; [apply fin_small; lia|]. cbn [snd sqR].
  repeat (apply Forall_cons; [apply fin_small; lia|]). apply Forall_nil. Qed.
(** The curve of [o_bow], broken at the middle *)
Lemma bow_exact : let g := SCubic (ptR 0 16) (ptR 32 16) (ptR 32 0) in
  let bs := [Break 0 (ptR 16 12) (1 / 2)%R] in
  increasing 0 (map br_t bs) 1 /\ Forall (fun b => br_pt b = seg_at (ptR 0 0) g (br_t b)) bs.
Proof. cbn. split; [lra|]. repeat constructor. apply TraceR.vec_eq; cbn; unfold bern; lra. Qed.
(** A line there and back, with unsorted records on the first *)
Definition s_thereback : clipper R := w_verts clipper0
  [Vertex (ptR 0 0) (Some (SLine (ptR 4 0))) (Some 1) (Some 1) false true; Vertex (ptR 4 0) (Some (SLine (ptR 0 0))) (Some 0) (Some 0) true false].
Definition bs_thereback : list (break_info R) := [Break 0 (ptR 3 0) (3 / 4); Break 0 (ptR 1 0) (1 / 4); Break 0 (ptR 3 0) (3 / 4)]%R.
Lemma thereback_ok : (forall i j, en_addr env0 i = en_addr env0 j -> i = j) /\ rings (verts s_thereback) [[0; 1]] /\
  Forall (exact_break (verts s_thereback)) bs_thereback.
Proof.
  split; [intros i j; apply Nat2Z.inj|]. split.
  - split; [|cbn; repeat constructor; simpl; lia].
    apply Forall_cons; [|apply Forall_nil]. exists [SLine (ptR 4 0); SLine (ptR 0 0)]. csplit; [|repeat constructor|auto].
    split; [repeat constructor; simpl; lia|].
    cbn [app strand]. csplit; auto; eexists _, _; (split; [reflexivity|]; split; [reflexivity|]; cbn; auto).
  - repeat (apply Forall_cons; [split; [cbn; lra|]; eexists _, _; split; [reflexivity|]; split; [reflexivity|]; apply TraceR.vec_eq; cbn; lra|]).
    apply Forall_nil.
Qed.
