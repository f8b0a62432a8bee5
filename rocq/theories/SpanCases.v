(** Cases for the sides that a scan line meets. *)
From Coq Require Import ZArith Bool List Reals Floats.SpecFloat Permutation Lia.
From Verif Require Import Outcome Num Order Rmath Segment Path PathSpec RTac ScanLine VState VPath VBreak VLemmas VAel VOut VMain AelSpec RingSpec BezierSpec BreakSpec LineSpec
  BreakDrawn ClipCases BreakCases RingStatements ClimbSpec ClimbNone ClimbCases SpanSpec VAelRun VRun.
Import ListNotations.
Local Open Scope out.

Section Deep.
  Variable lm : libm.
  Let N := B64 lm.
  Existing Instance N.
  (** *** Two squares side by side, at the height where both are open *)
  Definition first_line (s : clipper b64) op fill := do t <- process_intersect env0 (w_op s op fill) ;; do t <- reset t ;;
    match pop_scanline t (n_neg n_huge) with (Some y, t) => Ok (y, t) | _ => Ok (n_ofZ 0, t) end.
  Definition i_apart := get clipper0 (process_intersect env0 (w_op (s_apart lm) op_union even_odd)).
  Definition q_apart := get clipper0 (reset i_apart).
  Definition ready_apart := get (n_ofZ 0, clipper0) (first_line (s_apart lm) op_union even_odd).
  Definition y_apart := fst ready_apart.
  Definition t_apart := snd ready_apart.
  Definition r_apart := get clipper0 (scan_at 20 t_apart y_apart).
  Lemma apart_first : visits env0 20 (s_apart lm) op_union even_odd [y_apart] t_apart.
  Proof.
    apply (visits_first env0 20 (s_apart lm) op_union even_odd i_apart q_apart); vm_compute; reflexivity.
  Qed.
  Lemma apart_scan : scan_at 20 t_apart y_apart = Ok r_apart.
  Proof. vm_compute. reflexivity. Qed.
  Lemma apart_edges : length (edges r_apart) = 2 /\ ael r_apart <> None.
  Proof. vm_compute. split; [reflexivity|discriminate]. Qed.
  Lemma apart_high : not_at_end (s_apart lm).
  Proof.
    apply Forall_forall. assert (H : forallb (fun v => negb (n_eqb (vy (v_pt v)) (n_neg n_huge))) (verts (s_apart lm)) = true) by (vm_compute; reflexivity).
    rewrite forallb_forall in H. intros v Hv. apply H in Hv. now apply negb_true_iff.
  Qed.

  (** *** A triangle that reaches down to the lowest double, and a square *)
  Definition o_deep : outline := (V2 (SFofZ 0) (n_neg n_huge), [PLine (pt_ 1 10); PLine (pt_ (-1) 10)]).
  Definition ps_deep := [(subject, [[o_deep]]); (clip, [[o_far]])].
  Definition s_deep := get clipper0 (add_all clipper0 ps_deep).
  Lemma deep_ok : add_all clipper0 ps_deep = Ok s_deep.
  Proof. vm_compute. reflexivity. Qed.
  Lemma deep_breaks : find_breaks env0 (verts s_deep) (starts s_deep) = Ok [].
  Proof. vm_compute. reflexivity. Qed.
  Lemma deep_valid : Forall (fun v : vertex b64 => @nvalid b64 (B64 lm) (B64_ord lm) (vy (v_pt v))) (verts s_deep).
  Proof.
    assert (H : forallb (fun v => finiteb (vy (v_pt v))) (verts s_deep) = true) by (vm_compute; reflexivity).
    apply Forall_forall. intros v Hv. rewrite forallb_forall in H. specialize (H v Hv). intros K. simpl in K. rewrite K in H. discriminate H.
  Qed.
  Definition i_deep := get clipper0 (process_intersect env0 (w_op s_deep op_union even_odd)).
  Definition q_deep := get clipper0 (reset i_deep).
  Definition ready_deep := get (n_ofZ 0, clipper0) (first_line s_deep op_union even_odd).
  Definition y_deep := fst ready_deep.
  Definition t_deep := snd ready_deep.
  Definition r_deep := get clipper0 (scan_at 20 t_deep y_deep).
  Lemma deep_drawable : drawable_paths ps_deep.
  Proof. repeat constructor. Qed.
  Lemma deep_first : visits env0 20 s_deep op_union even_odd [y_deep] t_deep.
  Proof. apply (visits_first env0 20 s_deep op_union even_odd i_deep q_deep); vm_compute; reflexivity. Qed.
  Lemma deep_scan : scan_at 20 t_deep y_deep = Ok r_deep.
  Proof. vm_compute. reflexivity. Qed.
  Lemma deep_edges : edges r_deep = [] /\ verts r_deep = verts s_deep /\ starts s_deep = [0; 3].
  Proof. vm_compute. auto. Qed.
  Lemma deep_side : side (verts s_deep) true 4 5 /\ n_leb (height (verts s_deep) 4) y_deep = true /\ n_ltb y_deep (height (verts s_deep) 5) = true.
  Proof. split; [|vm_compute; auto]. vm_compute. eexists. eexists. split; [reflexivity|]. split; [reflexivity|]. split; reflexivity. Qed.
  Lemma deep_next : exists v w, nth_error (verts s_deep) 3 = Some v /\ v_next v = Some 4 /\ nth_error (verts s_deep) 4 = Some w /\ v_next w = Some 5.
  Proof. vm_compute. eexists. eexists. split; [reflexivity|]. split; [reflexivity|]. split; reflexivity. Qed.
  Lemma strand_head (vs : list (vertex b64)) i b l gs : strand vs i (b :: l) gs -> exists v gs', nth_error vs i = Some v /\ v_next v = Some b /\ strand vs b l gs'.
  Proof. destruct gs; [contradiction|]. intros [(v & w & A & _ & B & _) C]. eauto. Qed.
  Lemma deep_in ls : rings (verts s_deep) ls -> starts s_deep = map (hd 0) ls -> exists l, In l ls /\ In 4 l /\ In 5 l.
  Proof.
    intros [R _] ST. rewrite (proj2 (proj2 deep_edges)) in ST. destruct ls as [|a [|l [|]]]; try discriminate ST. injection ST as _ ST.
    rewrite Forall_forall in R. destruct (R l) as (gs & RG & _ & L); [right; now left|]. exists l. split; [right; now left|].
    destruct l as [|x r]; [contradiction|]. cbn in ST. subst x. destruct RG as [ND S]. destruct deep_next as (v & w & V & VN & W & WN).
    destruct r as [|b r]; [cbn in L; lia|]. cbn [app] in S. apply strand_head in S as (v' & gs' & V' & N' & S). rewrite V in V'. injection V' as <-. rewrite VN in N'. injection N' as <-.
    split; [right; now left|]. destruct r as [|c r]; cbn [app] in S; apply strand_head in S as (w' & gs2 & W' & N' & _); rewrite W in W'; injection W' as <-; rewrite WN in N'.
    - discriminate N'.
    - injection N' as <-. right. right. now left.
  Qed.
  Lemma no_edges_spans (s : clipper b64) ls y u : edges s = [] -> spans s ls y -> ~ meets (verts s) ls y u.
  Proof.
    intros E (l & A & _ & H & _) K. apply H in K. apply in_map_iff in K as (i & _ & K). apply (active_bound_len s l i A) in K. rewrite E in K. cbn in K. lia.
  Qed.
  Lemma deep_spans ls : rings (verts s_deep) ls -> starts s_deep = map (hd 0) ls -> ~ spans r_deep ls y_deep.
  Proof.
    intros R ST H. destruct (deep_in ls R ST) as (l & Hl & I4 & I5). destruct deep_edges as (E & EV & _). destruct deep_side as (SD & L1 & L2).
    apply (no_edges_spans r_deep ls y_deep (true, 5) E H). rewrite EV. exists l, 4. cbn [fst snd]. repeat (split; [assumption|]). assumption.
  Qed.
  Lemma deep_lost : match process env0 20 s_deep op_union even_odd with Ok (_, []) => true | _ => false end = true.
  Proof. vm_compute. reflexivity. Qed.
End Deep.
Lemma apart_spans_case (lm : libm) : let N := B64 lm in
  exists s y s1 s2, add_all clipper0 ps_apart = Ok s /\ drawable_paths ps_apart /\
    Forall (fun v : vertex b64 => @nvalid b64 (B64 lm) (B64_ord lm) (vy (v_pt v))) (verts s) /\ not_at_end s /\
    find_breaks env0 (verts s) (starts s) = Ok [] /\
    visits env0 20 s op_union even_odd [y] s1 /\ scan_at 20 s1 y = Ok s2 /\ length (edges s2) = 2 /\ ael s2 <> None.
Proof.
  intros N. exists (s_apart lm), (y_apart lm), (t_apart lm), (r_apart lm).
  exact (conj (apart_ok lm) (conj apart_drawable (conj (apart_valid lm) (conj (apart_high lm) (conj (apart_breaks lm) (conj (apart_first lm) (conj (apart_scan lm) (apart_edges lm)))))))).
Qed.
Lemma deep_case (lm : libm) : let N := B64 lm in
  exists ps s y s1 s2, add_all clipper0 ps = Ok s /\ drawable_paths ps /\
    Forall (fun v : vertex b64 => @nvalid b64 (B64 lm) (B64_ord lm) (vy (v_pt v))) (verts s) /\
    find_breaks env0 (verts s) (starts s) = Ok [] /\
    visits env0 20 s op_union even_odd [y] s1 /\ scan_at 20 s1 y = Ok s2 /\
    (forall ls, rings (verts s) ls -> starts s = map (hd 0) ls -> ~ spans s2 ls y) /\
    exists t, process env0 20 s op_union even_odd = Ok (t, []).
Proof.
  intros N. exists (ps_deep lm), (s_deep lm), (y_deep lm), (t_deep lm), (r_deep lm).
  refine (conj (deep_ok lm) (conj (deep_drawable lm) (conj (deep_valid lm) (conj (deep_breaks lm) (conj (deep_first lm) (conj (deep_scan lm) (conj (deep_spans lm) _))))))).
  pose proof (deep_lost lm) as H. fold N in H. destruct (process env0 20 (s_deep lm) op_union even_odd) as [[t [|]]| | |]; try discriminate H. eauto.
Qed.
Lemma above_small x y : (- 100 <= y <= 100)%Z -> n_eqb (vy (ptR x y)) (n_neg n_huge) = false.
Proof.
  intros H. apply Reqb_false. unfold ptR, n_neg, n_huge. cbn [vy R_num]. unfold R_huge. rewrite <- opp_IZR. intros E. apply eq_IZR in E.
  assert (K : (100 < (2 ^ 53 - 1) * 2 ^ 971)%Z) by (vm_compute; reflexivity). lia.
Qed.
Lemma sqR_above a : (- 50 <= a <= 50)%Z -> above_end (sqR a).
Proof. intros H. unfold above_end, sqR. cbn [fst snd map endpoint]. repeat (apply Forall_cons; [apply above_small; lia|]). apply Forall_nil. Qed.
Lemma squares_above : let ps := [(subject, [[sqR 0]]); (clip, [[sqR 2]])] in
  Forall polygon (all_outlines ps) /\ Forall above_end (all_outlines ps) /\ (forall l, Permutation (en_order env0 l) l) /\
  exists s, add_all clipper0 ps = Ok s.
Proof.
  intros ps. destruct squares_case as (A & B & C). csplit; auto.
  unfold ps. cbn [all_outlines flat_map concat app snd]. repeat (apply Forall_cons; [apply sqR_above; lia|]). apply Forall_nil.
Qed.
