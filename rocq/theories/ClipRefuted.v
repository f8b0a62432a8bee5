(** Runs of the clipper that contradict the expected properties. *)
From Coq Require Import ZArith Bool List Floats.SpecFloat.
From Verif Require Import Outcome Num Rmath Segment Path VState VPath VBreak VAel VOut VMain ClipSpec ClipCases.
Import ListNotations.
Local Open Scope Z_scope.

Lemma contours_one {T} (l : list (call (T := T))) : contour l -> contours l [l].
Proof. intros H. split; [simpl; now rewrite app_nil_r|auto]. Qed.

Section W32.
  Variable lm : libm.
  Let N := B64 lm.
  Existing Instance N.
  Definition s32 := get clipper0 (load lm [box 2 2 14 18] [box 7 1 12 9]).
  Definition r32 := get (clipper0, []) (process env0 1000 s32 op_difference non_zero).
  Lemma s32_ok : load lm [box 2 2 14 18] [box 7 1 12 9] = Ok s32.
  Proof. vm_compute. reflexivity. Qed.
  Lemma r32_ok : process env0 1000 s32 op_difference non_zero = Ok (fst r32, snd r32).
  Proof. vm_compute. reflexivity. Qed.
  Lemma r32_contour : contour (snd r32).
  Proof. vm_compute. repeat split; discriminate. Qed.
  Lemma r32_open : ~ closed (snd r32).
  Proof. vm_compute. intros [_ H]. discriminate. Qed.
End W32.
Lemma C32_refuted_lemma : forall lm : libm, let N := B64 lm in
  exists s s' l c cs, loaded s /\ process env0 1000 s op_difference non_zero = Ok (s', l) /\
    contours l (c :: cs) /\ ~ closed c.
Proof.
  intros lm N. exists (s32 lm), (fst (r32 lm)), (snd (r32 lm)), (snd (r32 lm)), [].
  split; [|split; [|split]].
  - exact (load_loaded _ _ _ _ (s32_ok lm)).
  - exact (r32_ok lm).
  - apply contours_one. exact (r32_contour lm).
  - exact (r32_open lm).
Qed.

Section W34.
  Variable lm : libm.
  Let N := B64 lm.
  Existing Instance N.
  Definition s34 := get clipper0 (load lm [box 0 0 10 10] [box 5 5 15 15]).
  Definition r34 := get (clipper0, []) (process env0 1000 s34 op_intersection positive).
  Definition q34 := get (clipper0, []) (process env0 1000 (fst r34) op_intersection positive).
  Lemma s34_ok : load lm [box 0 0 10 10] [box 5 5 15 15] = Ok s34.
  Proof. vm_compute. reflexivity. Qed.
  Lemma r34_ok : process env0 1000 s34 op_intersection positive = Ok (fst r34, snd r34).
  Proof. vm_compute. reflexivity. Qed.
  Lemma q34_ok : process env0 1000 (fst r34) op_intersection positive = Ok (fst q34, snd q34).
  Proof. vm_compute. reflexivity. Qed.
  Lemma q34_twice : snd q34 = snd r34 ++ snd r34.
  Proof. vm_compute. reflexivity. Qed.
  Lemma r34_some : snd r34 <> [].
  Proof. vm_compute. discriminate. Qed.
End W34.
Lemma C34_refuted_lemma : forall lm : libm, let N := B64 lm in
  exists s s1 s2 l1 l2, loaded s /\
    process env0 1000 s op_intersection positive = Ok (s1, l1) /\
    process env0 1000 s1 op_intersection positive = Ok (s2, l2) /\
    l2 = l1 ++ l1 /\ l1 <> [].
Proof.
  intros lm N. exists (s34 lm), (fst (r34 lm)), (fst (q34 lm)), (snd (r34 lm)), (snd (q34 lm)).
  split; [|split; [|split; [|split]]].
  - exact (load_loaded _ _ _ _ (s34_ok lm)).
  - exact (r34_ok lm).
  - exact (q34_ok lm).
  - exact (q34_twice lm).
  - exact (r34_some lm).
Qed.

Lemma C35_refuted_lemma : forall lm : libm, let N := B64 lm in
  exists l p, run lm [box 2 3 19 9] [box 7 1 8 16] op_difference even_odd = Ok l /\
    p = pt64 4 6 /\
    inside p l <> bool_op op_difference ((2 <? 4) && (4 <? 19) && (3 <? 6) && (6 <? 9))
                                        ((7 <? 4) && (4 <? 8) && (1 <? 6) && (6 <? 16)).
Proof.
  intros lm N. exists (get [] (run lm [box 2 3 19 9] [box 7 1 8 16] op_difference even_odd)), (pt64 4 6).
  split; [vm_compute; reflexivity|]. split; [reflexivity|].
  vm_compute. discriminate.
Qed.
Lemma C35_union_refuted_lemma : forall lm : libm, let N := B64 lm in
  run lm [[(7, 17); (19, 17); (19, 12); (7, 12)]] [box 0 7 13 18] op_union negative = Ok [] /\
  exists l, run lm [[(7, 17); (19, 17); (19, 12); (7, 12)]] [] op_union negative = Ok l /\
    inside (pt64 10 14) l = true.
Proof. intros lm N. split; [vm_compute; reflexivity|]. 
  exists (get [] (run lm [[(7, 17); (19, 17); (19, 12); (7, 12)]] [] op_union negative)).
  split; vm_compute; reflexivity.
Qed.

Lemma C42_null_lemma : forall lm : libm,
  run lm [box 1 7 18 15] [box 5 11 13 17] op_difference even_odd = UB NullDeref.
Proof. intros. vm_compute. reflexivity. Qed.
Lemma C42_end_lemma : forall lm : libm,
  run lm [[(7, 14); (10, 9); (12, 10)]] [[(19, 10); (2, 9); (1, 10)]] op_union non_zero = UB EndDeref.
Proof. intros. vm_compute. reflexivity. Qed.
