(** The machines and polygons of the examples on memory layout. *)
From Coq Require Import ZArith Bool List Reals Lia Permutation Floats.SpecFloat.
From Verif Require Import Outcome Num Rmath Order Segment Path PathSpec VState VPath VBreak VAel VOut VMain VLemmas SortProofs RingSpec BreakSpec BreakDrawn ClipSpec ClipCases RunCases BoxSpec BoxProofs BoxCases PieceCases LayoutSpec.
Import ListNotations.
Local Open Scope out.

(** Newest first, with addresses counting down *)
Definition env_back : env := Env (@rev nat) (fun i => - Z.of_nat i)%Z 1000.
(** As [env0], with addresses counting down *)
Definition env_down : env := Env (fun l => l) (fun i => - Z.of_nat i)%Z 1000.
(** The objects of the set in the order in which they were made, or the other way round *)
Definition env_low : env := Env (sort_by Nat.ltb) Z.of_nat 1000.
Definition env_high : env := Env (sort_by (fun a b => Nat.ltb b a)) Z.of_nat 1000.
Lemma env_sorted f : lawful (Env (sort_by f) Z.of_nat 1000).
Proof. split; [intros l; symmetry; apply sort_by_perm|]. cbn. intros i j H. lia. Qed.
Lemma env0_lawful : lawful env0.
Proof. split; [reflexivity|]. cbn. intros i j H. lia. Qed.
Lemma env_back_lawful : lawful env_back.
Proof. split; [intros l; symmetry; apply Permutation_rev|]. cbn. intros i j H. lia. Qed.
Lemma env_down_lawful : lawful env_down.
Proof. split; [reflexivity|]. cbn. intros i j H. lia. Qed.

(** Two squares that overlap, over the reals *)
Definition ps_squares := box_paths true 0 0 sqA sqB.
Lemma squares_case : Forall polygon (all_outlines ps_squares) /\ exists s s' l, add_all clipper0 ps_squares = Ok s /\ process env0 60 s op_union non_zero = Ok (s', l) /\
  (forall p, moderate (vx p) -> moderate (vy p) -> inside p l = in_box p sqA || in_box p sqB)%bool.
Proof.
  split; [apply box_polygons; apply general_squares|].
  destruct (boxes_right env0 60 sqA sqB true 0 0 op_union non_zero) as (s & s' & l & cs & A & P & _ & _ & _ & H);
    try apply env0_lawful; [exact general_squares|lia|apply squares_right|].
  exists s, s', l. csplit; auto.
Qed.

Section Doubles.
  Variable lm : libm.
  Let N := B64 lm.
  Existing Instance N.
  Definition ring64 (l : list (Z * Z)) : outline (T := b64) :=
    match l with
    | [] => (pt64 0 0, [])
    | p :: t => (pt64 (fst p) (snd p), map (fun q => PLine (pt64 (fst q) (snd q))) t)
    end.
  (** Two squares that overlap *)
  Definition ps_two := [(subject, [[ring64 [(0, 0); (10, 0); (10, 10); (0, 10)]%Z]]); (clip, [[ring64 [(5, 5); (15, 5); (15, 15); (5, 15)]%Z]])].
  Definition s_two := get clipper0 (add_all clipper0 ps_two).
  Definition b_two := get [] (find_breaks env0 (verts s_two) (starts s_two)).
  Definition same_break (b c : break_info b64) : bool := Nat.eqb (br_vert b) (br_vert c) && n_eqb (br_t b) (br_t c).
  Lemma told_pairs (bs : list (break_info b64)) : (forall b c, same_break b c = true -> In b bs -> In c bs -> b = c) -> told_once bs.
  Proof.
    intros H b c B C V E. apply H; auto. unfold same_break. rewrite V, E, Nat.eqb_refl. reflexivity.
  Qed.
  Lemma two_told : told_once b_two.
  Proof.
    apply told_pairs. intros b c E B C. vm_compute in B, C.
    repeat match goal with H : _ \/ _ |- _ => destruct H as [<-|H] | H : False |- _ => destruct H end; first [reflexivity | vm_compute in E; discriminate E].
  Qed.
  Lemma two_case : drawable_paths ps_two /\ exists s bs s' l, add_all clipper0 ps_two = Ok s /\ find_breaks env0 (verts s) (starts s) = Ok bs /\
    told_once bs /\ length bs = 4%nat /\ process env0 100 s op_union non_zero = Ok (s', l) /\ length l = 9%nat.
  Proof.
    split; [unfold drawable_paths; cbn; repeat constructor|].
    exists s_two, b_two, (fst (get (clipper0, []) (process env0 100 s_two op_union non_zero))), (snd (get (clipper0, []) (process env0 100 s_two op_union non_zero))).
    split; [vm_compute; reflexivity|]. split; [vm_compute; reflexivity|]. split; [exact two_told|]. split; [vm_compute; reflexivity|].
    split; vm_compute; reflexivity.
  Qed.

  (** Three triangles with sides that meet in one point *)
  Definition ps_meet := [(subject, [[ring64 [(19, 8); (-33, 4); (-35, 9)]%Z; ring64 [(-20, -20); (45, 60); (52, 26)]%Z]]);
    (clip, [[ring64 [(-10, -10); (25, 40); (20, -34)]%Z]])].
  Definition s_meet := get clipper0 (add_all clipper0 ps_meet).
  Definition r_meet := get (clipper0, []) (process env_low 1000 s_meet op_union non_zero).
  Lemma meet_case : exists en en' s s' l, lawful en /\ lawful en' /\ en_fuel en = en_fuel en' /\ en_addr en = en_addr en' /\
    drawable_paths ps_meet /\ add_all clipper0 ps_meet = Ok s /\
    process en 1000 s op_union non_zero = Ok (s', l) /\ length l = 19%nat /\ process en' 1000 s op_union non_zero = UB EndDeref.
  Proof.
    exists env_low, env_high, s_meet, (fst r_meet), (snd r_meet).
    split; [apply env_sorted|]. split; [apply env_sorted|]. split; [reflexivity|]. split; [reflexivity|].
    split; [unfold drawable_paths; cbn; repeat constructor|].
    split; [vm_compute; reflexivity|]. split; [vm_compute; reflexivity|]. split; vm_compute; reflexivity.
  Qed.
End Doubles.
Lemma down_differs : en_order env0 = en_order env_down /\ en_addr env0 3%nat <> en_addr env_down 3%nat.
Proof. split; [reflexivity|discriminate]. Qed.
Lemma back_differs : en_order env0 [1; 2]%nat <> en_order env_back [1; 2]%nat.
Proof. discriminate. Qed.
