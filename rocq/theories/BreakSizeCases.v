(** Cases for C63. *)
From Coq Require Import ZArith Bool List Reals Lra Lia Floats.SpecFloat Permutation.
From Verif Require Import Outcome Num Order Rmath RTac Segment Path PathSpec RectSpec ScanLine VState VPath VBreak VLemmas RingSpec BezierSpec BreakSpec BreakSizeSpec
  RingStatements BreakDrawn ClipCases BreakCases DcelCases DcelCaseProofs VSafeRun VBroken LineSpec BreakLines BreakStatements.
Import ListNotations.

(** An arch and a triangle across it *)
Definition o_bar : outline := (pt_ 8 (-4), [PLine (pt_ 12 20); PLine (pt_ 16 (-4))]).
Definition ps_bar : list (path_type * list (list (outline (T := b64)))) := [(subject, [[o_bow]]); (clip, [[o_bar]])].
Definition s_bar := let N := B64 lm_angle in get clipper0 (add_all clipper0 ps_bar).
Definition s_bar' := let N := B64 lm_angle in get clipper0 (process_intersect env0 s_bar).

(** Deciding the two conditions *)
Definition finb (lm : libm) (p : vec2 b64) : bool := let N := B64 lm in
  validb p && (n_leb (n_neg n_huge) (vx p) && n_leb (vx p) n_huge && n_leb (n_neg n_huge) (vy p) && n_leb (vy p) n_huge).
Lemma finb_ok (lm : libm) p : finb lm p = true -> @finite_point b64 (B64 lm) (B64_ord lm) p.
Proof.
  unfold finb. intros H. apply andb_prop in H as [H0 H]. apply andb_prop in H as [H H4]. apply andb_prop in H as [H H3]. apply andb_prop in H as [H1 H2]. split; [now apply validb_ok|]. csplit; assumption.
Qed.
Definition sideb (lm : libm) (vs : list (vertex b64)) (i : nat) : bool :=
  match nth_error vs i with Some v => match v_seg v with Some (SLine q) => finb lm (v_pt v) && finb lm q | _ => false end | None => false end.
Lemma sides_ok (lm : libm) vs l : forallb (sideb lm vs) l = true -> Forall (@finite_side b64 (B64 lm) (B64_ord lm) vs) l.
Proof.
  rewrite forallb_forall, Forall_forall. intros H i I. specialize (H i I). unfold sideb in H. destruct (nth_error vs i) as [v|] eqn:V; [|discriminate]. destruct (v_seg v) as [[| q | |]|] eqn:G; try discriminate.
  apply andb_prop in H as [H1 H2]. exists v, q. csplit; auto; now apply finb_ok.
Qed.
Definition boxb (lm : libm) (vs : list (vertex b64)) (i : nat) : bool := let N := B64 lm in
  match nth_error vs i with
  | Some v =>
    match v_seg v with
    | Some g => let r := seg_boundary g (v_pt v) in validb (rmin r) && validb (rmax r) && (n_leb (vx (rmin r)) (vx (rmax r)) && n_leb (vy (rmin r)) (vy (rmax r)))
    | None => false
    end
  | None => false
  end.
Lemma boxes_ok (lm : libm) vs l : forallb (boxb lm vs) l = true -> Forall (@sound_box b64 (B64 lm) (B64_ord lm) vs) l.
Proof.
  rewrite forallb_forall, Forall_forall. intros H i I. specialize (H i I). unfold boxb in H. destruct (nth_error vs i) as [v|] eqn:V; [|discriminate]. destruct (v_seg v) as [g|] eqn:G; [|discriminate].
  cbv zeta in H. apply andb_prop in H as [H1 H2]. apply andb_prop in H1 as [H0 H1]. apply andb_prop in H2 as [H2 H3]. exists v, g. split; [auto|]. split; [auto|]. split; [split; now apply validb_ok|]. split; assumption.
Qed.
Lemma cut_ids (lm : libm) ls : let N := B64 lm in rings (verts (s_cut lm)) ls -> starts (s_cut lm) = map (hd 0) ls -> concat ls = [0; 1; 2; 3; 4; 5; 6; 7].
Proof.
  intros N (R & _) S. pose proof (all_rings_ok (verts (s_cut lm)) ls) as K. rewrite <- S in K.
  assert (E : all_rings (verts (s_cut lm)) (starts (s_cut lm)) = Ok [0; 1; 2; 3; 4; 5; 6; 7]) by (vm_compute; reflexivity). rewrite E in K.
  assert (Q : Ok [0; 1; 2; 3; 4; 5; 6; 7] = Ok (concat ls)); [|injection Q; auto]. apply K. eapply Forall_impl; [|exact R]. intros l (gs & G & _). eauto.
Qed.
Lemma open_64 (lm : libm) : @open_ends b64 (B64 lm).
Proof. split; vm_compute; reflexivity. Qed.
Lemma open_R : @open_ends R R_num.
Proof. split; unfold in_open, v_zero, v_one; cbn; rewrite andb_false_iff, !Rltb_false; lra. Qed.
Lemma C63_lines_case (lm : libm) : let N := B64 lm in let O := B64_ord lm in
  open_ends /\ exists s ls s', (forall l, Permutation (en_order env0 l) l) /\ rings (verts s) ls /\ starts s = map (hd 0) ls /\ Forall (finite_side (verts s)) (concat ls) /\
    process_intersect env0 s = Ok s' /\ length (concat ls) = 8 /\ length (verts s) = 8 /\ length (verts s') = 12.
Proof.
  intros N O. split; [exact (open_64 lm)|]. destruct (cut_rings lm) as (ls & R & S). exists (s_cut lm), ls, (s_cut' lm). split; [reflexivity|]. split; [exact R|]. split; [exact S|].
  rewrite (cut_ids lm ls R S). split; [|split; [exact (s_cut_ok' lm)|split; [reflexivity|exact (proj2 (cut_facts lm))]]].
  apply sides_ok. vm_compute. reflexivity.
Qed.
Lemma C63_boxes_case : let N := B64 lm_angle in let O := B64_ord lm_angle in
  exists ls s', add_all clipper0 ps_bar = Ok s_bar /\ rings (verts s_bar) ls /\ starts s_bar = map (hd 0) ls /\ Forall (sound_box (verts s_bar)) (concat ls) /\
    process_intersect env0 s_bar = Ok s' /\ length (concat ls) = 6 /\ length (verts s_bar) = 6 /\ length (verts s') = 10.
Proof.
  intros N O. assert (A : add_all clipper0 ps_bar = Ok s_bar) by (vm_compute; reflexivity).
  assert (D : drawable_paths ps_bar) by repeat constructor. destruct (rings_of ps_bar s_bar D A) as (ls & R & S).
  assert (E : concat ls = [0; 1; 2; 3; 4; 5]).
  { pose proof (all_rings_ok (verts s_bar) ls) as K. rewrite <- S in K.
    assert (E : all_rings (verts s_bar) (starts s_bar) = Ok [0; 1; 2; 3; 4; 5]) by (vm_compute; reflexivity). rewrite E in K.
    assert (Q : Ok [0; 1; 2; 3; 4; 5] = Ok (concat ls)); [|injection Q; auto]. apply K. destruct R as (R & _). eapply Forall_impl; [|exact R]. intros l (gs & G & _). eauto. }
  exists ls, s_bar'. split; [exact A|]. split; [exact R|]. split; [exact S|]. rewrite E.
  split; [|split; [vm_compute; reflexivity|csplit; vm_compute; reflexivity]].
  apply boxes_ok. vm_compute. reflexivity.
Qed.
Lemma C63_drawn_case : let ps := [(subject, [[sqR 0]]); (clip, [[sqR 2]])] in
  (forall l, Permutation (en_order env0 l) l) /\ Forall (fun o => Forall drawing (snd o)) (all_outlines ps) /\
  exists s s', add_all clipper0 ps = Ok s /\ process_intersect env0 s = Ok s'.
Proof.
  cbv zeta. assert (PG : Forall polygon (all_outlines [(subject, [[sqR 0]]); (clip, [[sqR 2]])])).
  { cbn [all_outlines flat_map concat app snd]. repeat (apply Forall_cons; [apply sqR_polygon; split; discriminate|]). apply Forall_nil. }
  split; [reflexivity|]. split; [repeat constructor|].
  destruct (C23_polygons_lemma env0 [(subject, [[sqR 0]]); (clip, [[sqR 2]])]) as (s & ls & s' & _ & _ & A & _ & _ & B & _); [reflexivity|intros i j H; now apply Nat2Z.inj in H|exact PG|].
  exists s, s'. auto.
Qed.
Lemma C63_loaded_case : let N := B64 lm_angle in let p := run_calls (flat_map outline_calls [o_bow; o_bar]) in
  exists s', add_paths clipper0 [p] subject = Ok s' /\ length (verts s') = 6 /\ list_sum (map elem_room (p_types p)) = 7.
Proof. cbv zeta. exists (let N := B64 lm_angle in get clipper0 (add_paths clipper0 [run_calls (flat_map outline_calls [o_bow; o_bar])] subject)). csplit; vm_compute; reflexivity. Qed.
