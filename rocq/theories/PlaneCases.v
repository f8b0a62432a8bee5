(** Two triangles in general position. *)
From Coq Require Import ZArith Bool List Reals Lra Lia Permutation.
From Verif Require Import Outcome Num Order Rmath RTac Segment Path PathSpec VState VPath VLemmas VBreak RingSpec BezierSpec LineSpec BreakSpec BreakCases ClimbSpec SpanSpec LensR LineR RingStatements VAdd VBuild BreakDrawn
  ClipCases SpanCases PlaneSpec.
Import ListNotations.
Local Open Scope R_scope.

Definition triR (a b c d e f : Z) : outline (T := R) := (ptR a b, map PLine [ptR c d; ptR e f]).
Definition ps_plane : list (path_type * list (list (outline (T := R)))) := [(subject, [[triR 0 0 8 1 3 9]]); (clip, [[triR 4 (-2) 10 5 1 6]])].
Lemma ptR_ne a b c d : a <> c \/ b <> d -> ptR a b <> ptR c d.
Proof. intros H E. injection E as E1 E2. apply eq_IZR in E1, E2. destruct H; congruence. Qed.
Lemma tri_segs a b c d e f : (a <> c \/ b <> d)%Z -> (a <> e \/ b <> f)%Z -> (c <> e \/ d <> f)%Z -> outline_segs (triR a b c d e f) = map SLine [ptR c d; ptR e f; ptR a b].
Proof.
  intros A B C. unfold triR. rewrite (lines_segs (ptR a b) (ptR c d) [ptR e f]); [reflexivity|].
  constructor; [|constructor; [|constructor; [|constructor]]]; cbn; intros K; repeat destruct K as [K|K]; try contradiction; symmetry in K; revert K; apply ptR_ne; auto.
Qed.
Lemma ps_sides : all_sides ps_plane = [(ptR 0 0, ptR 8 1); (ptR 8 1, ptR 3 9); (ptR 3 9, ptR 0 0); (ptR 4 (-2), ptR 10 5); (ptR 10 5, ptR 1 6); (ptR 1 6, ptR 4 (-2))].
Proof.
  unfold all_sides, contours, ps_plane. cbn [flat_map concat snd fst app map filter]. rewrite !tri_segs by lia.
  rewrite (lines_accepted _ (ptR 8 1) (ptR 3 9)) by (cbn; auto; lra). rewrite (lines_accepted _ (ptR 10 5) (ptR 1 6)) by (cbn; auto; lra).
  reflexivity.
Qed.
Lemma ps_generic : generic (all_sides ps_plane).
Proof.
  rewrite ps_sides. constructor.
  - intros a b H. cbn in H. repeat destruct H as [H|H]; try contradiction; injection H as <- <-; cbn; lra.
  - intros n m a b c d Hn Hm E. do 6 (destruct n as [|n]; [do 6 (destruct m as [|m]; [cbn in Hn, Hm; injection Hn as <- <-; injection Hm as <- <-; first [reflexivity|exfalso; injection E; lra]|]); destruct m; discriminate Hm|]); destruct n; discriminate Hn.
  - intros n m a b c d p Hn Hm NE (t & Ht & Et) (u & Hu & Eu).
    do 6 (destruct n as [|n]; [do 6 (destruct m as [|m]; [cbn in Hn, Hm; injection Hn as <- <-; injection Hm as <- <-;
      first [now elim NE|
      rewrite Et in Eu; injection Eu as E1 E2; unfold ptR in *; cbn [vx vy] in *;
      first [exfalso; lra
        | left; split; [first [left; rewrite Et; unfold pt; cbn; f_equal; lra|right; rewrite Et; unfold pt; cbn; f_equal; lra]|first [left; rewrite Et; unfold pt; cbn; f_equal; lra|right; rewrite Et; unfold pt; cbn; f_equal; lra]]
        | right; split; [unfold parallel; cbn; lra|exists t, u; unfold well_inside; split; [lra|split; [lra|split; [exact Et|rewrite Et; unfold pt; cbn; f_equal; lra]]]]]]|]); destruct m; discriminate Hm|]); destruct n; discriminate Hn.
Qed.
Lemma plane_case : Forall polygon (all_outlines ps_plane) /\ Forall above_end (all_outlines ps_plane) /\ generic (all_sides ps_plane) /\
  (forall l, Permutation (en_order env0 l) l) /\ (forall i j, en_addr env0 i = en_addr env0 j -> i = j) /\ exists s, add_all clipper0 ps_plane = Ok s.
Proof.
  assert (P : Forall polygon (all_outlines ps_plane)).
  { unfold ps_plane. cbn [all_outlines flat_map concat app snd]. repeat (apply Forall_cons; [split; [apply fin_small; lia|cbn [snd triR map]; repeat (apply Forall_cons; [apply fin_small; lia|]); apply Forall_nil]|]). apply Forall_nil. }
  split; [exact P|]. split; [|split; [exact ps_generic|split; [reflexivity|split; [|]]]].
  - unfold ps_plane. cbn [all_outlines flat_map concat app snd]. repeat (apply Forall_cons; [unfold above_end, triR; cbn [fst snd map endpoint]; repeat (apply Forall_cons; [apply above_small; lia|]); apply Forall_nil|]). apply Forall_nil.
  - intros i j H. cbn in H. lia.
  - assert (D : drawable_paths ps_plane) by (eapply Forall_impl; [|exact P]; intros o; apply polygon_drawing).
    destruct (add_all_built ps_plane clipper0 [] [] D (built_nil _)) as (s & _ & E & _). eauto.
Qed.
Ltac decide_reals := repeat (match goal with
  | |- context [Rleb ?a ?b] => first [rewrite (proj2 (Rleb_true a b)) by lra|rewrite (proj2 (Rleb_false a b)) by lra]
  | |- context [Rltb ?a ?b] => first [rewrite (proj2 (Rltb_true a b)) by lra|rewrite (proj2 (Rltb_false a b)) by lra]
  end; cbn [andb]).
Lemma ps_typed : typed_sides ps_plane subject = [(ptR 0 0, ptR 8 1); (ptR 8 1, ptR 3 9); (ptR 3 9, ptR 0 0)] /\ typed_sides ps_plane clip = [(ptR 4 (-2), ptR 10 5); (ptR 10 5, ptR 1 6); (ptR 1 6, ptR 4 (-2))].
Proof.
  unfold typed_sides, contours, ps_plane. cbn [flat_map concat snd fst app map filter]. rewrite !tri_segs by lia.
  rewrite (lines_accepted _ (ptR 8 1) (ptR 3 9)) by (cbn; auto; lra). rewrite (lines_accepted _ (ptR 10 5) (ptR 1 6)) by (cbn; auto; lra).
  split; reflexivity.
Qed.
(** Both triangles, only the second, and none *)
Lemma ps_winding : (winding (typed_sides ps_plane subject) 4 3 = 1 /\ winding (typed_sides ps_plane clip) 4 3 = 1 /\
  winding (typed_sides ps_plane subject) 8 4 = 0 /\ winding (typed_sides ps_plane clip) 8 4 = 1 /\ winding (typed_sides ps_plane subject) 0 4 = 0 /\ winding (typed_sides ps_plane clip) 0 4 = 0)%Z.
Proof.
  destruct ps_typed as [-> ->]. unfold winding, passes, xat, ptR. cbn [map fst snd vx vy fold_right].
  repeat split; decide_reals; reflexivity.
Qed.
