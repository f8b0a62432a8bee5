(** Two ways of sorting. *)
From Coq Require Import ZArith Bool List Reals Lia Permutation Floats.SpecFloat.
From Verif Require Import Outcome Num Rmath Order Segment Path PathSpec VState VPath VBreak VAel VOut VMain VLemmas SortProofs RingSpec BreakSpec BreakDrawn ClipSpec ClipCases BoxSpec BoxCases
  LayoutSpec LayoutLines LayoutCases ListSpec ListCases SortSpec VSort SortRun.
Import ListNotations.
Local Open Scope out.

(** Equivalent elements in the opposite order *)
Definition sort_back : forall A : Type, (A -> A -> bool) -> list A -> list A := fun A lt l => sort_by lt (rev l).
Lemma back_case : sorts (@sort_by) /\ sorts sort_back /\ sort_back _ (fun a b => Nat.ltb (fst a) (fst b)) [(1, 1); (1, 2)]%nat <> sort_by (fun a b => Nat.ltb (fst a) (fst b)) [(1, 1); (1, 2)]%nat.
Proof. split; [exact sort_by_sorts|]. split; [exact back_sorts|]. vm_compute. discriminate. Qed.
Lemma sorted_squares : Forall polygon (all_outlines ps_squares) /\ distinct_corners (listing ps_squares) /\ lawful env0 /\
  exists s t l, add_all clipper0 ps_squares = Ok s /\ process_by sort_back env0 60 s op_union non_zero = Ok (t, l) /\
    (forall p, moderate (vx p) -> moderate (vy p) -> inside p l = in_box p sqA || in_box p sqB)%bool.
Proof.
  destruct relisted_case as (P & _ & _ & _ & D & _). destruct squares_case as (_ & s & t & l & A & R & H). split; [exact P|]. split; [exact D|]. split; [apply env0_lawful|].
  exists s, t, l. split; [exact A|]. split; [|exact H]. rewrite <- R. apply (polygons_sort sort_back back_sorts env0 60 ps_squares); auto. apply env0_lawful.
Qed.
Lemma curves_squares : drawable_paths ps_squares /\ lawful env0 /\ exists s bs, add_all clipper0 ps_squares = Ok s /\ minima_apart s /\
  find_breaks env0 (verts s) (starts s) = Ok bs /\ told_once bs.
Proof.
  destruct relisted_case as (P & _ & _ & _ & D & _). destruct squares_case as (_ & s & t & l & A & R & H). split; [now apply polygon_drawing|]. split; [apply env0_lawful|].
  unfold process, process_intersect in R. apply bind_ok in R as (s1 & R & _). apply bind_ok in R as (bs & FB & _). cbn [verts starts w_op] in FB.
  exists s, bs. csplit; auto; [eapply corners_apart; eauto|]. eapply polygons_told; eauto. apply env0_lawful.
Qed.

Section Doubles.
  Variable lm : libm.
  Let N := B64 lm.
  Existing Instance N.
  Definition ran (srt : forall A : Type, (A -> A -> bool) -> list A -> list A) en n s op := get (clipper0, []) (process_by (T := b64) srt en n s op non_zero).
  Definition other_sort (ps : list (path_type * list (list (outline (T := b64))))) op (k k' : nat) : Prop :=
    exists en n srt srt' s t t' l l', lawful en /\ sorts srt /\ sorts srt' /\ drawable_paths ps /\ add_all clipper0 ps = Ok s /\
      process_by srt en n s op non_zero = Ok (t, l) /\ process_by srt' en n s op non_zero = Ok (t', l') /\ length l = k /\ length l' = k'.
  (** Three triangles with sides that meet in one point *)
  Lemma sorted_meet : other_sort (ps_meet) op_union 19 14.
  Proof.
    exists env_low, 1000%nat, (@sort_by), sort_back, (s_meet lm), (fst (ran (@sort_by) env_low 1000 (s_meet lm) op_union)), (fst (ran sort_back env_low 1000 (s_meet lm) op_union)),
      (snd (ran (@sort_by) env_low 1000 (s_meet lm) op_union)), (snd (ran sort_back env_low 1000 (s_meet lm) op_union)).
    split; [apply env_sorted|]. split; [exact sort_by_sorts|]. split; [exact back_sorts|]. split; [unfold drawable_paths; cbn; repeat constructor|].
    split; [vm_compute; reflexivity|]. split; [vm_compute; reflexivity|]. split; [vm_compute; reflexivity|]. split; vm_compute; reflexivity.
  Qed.
  (** Two polygons with one lowest corner *)
  Lemma sorted_shared : other_sort (ListCases.rings SFofZ z_shared) op_intersection 4 0.
  Proof.
    exists env0, 200%nat, (@sort_by), sort_back, (loaded64 lm z_shared), (fst (ran (@sort_by) env0 200 (loaded64 lm z_shared) op_intersection)), (fst (ran sort_back env0 200 (loaded64 lm z_shared) op_intersection)),
      (snd (ran (@sort_by) env0 200 (loaded64 lm z_shared) op_intersection)), (snd (ran sort_back env0 200 (loaded64 lm z_shared) op_intersection)).
    split; [apply env0_lawful|]. split; [exact sort_by_sorts|]. split; [exact back_sorts|]. split; [unfold drawable_paths; cbn; repeat constructor|].
    split; [vm_compute; reflexivity|]. split; [vm_compute; reflexivity|]. split; [vm_compute; reflexivity|]. split; vm_compute; reflexivity.
  Qed.
End Doubles.
