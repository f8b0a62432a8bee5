(** Loading one polygon; nothing to break. *)
From Coq Require Import ZArith Bool List Lia Reals Lra Permutation.
From Verif Require Import Outcome Num Order Rmath Segment Path PathSpec RTac RectSpec RectProofs ScanLine ScanProofs VState VPath VBreak VLemmas AelSpec
  RingSpec MarkProofs MarkSpec BreakSpec VRing VBuild VAdd VBroken TraceR LineSpec LineR RingStatements BreakStatements BreakDrawn BreakLines EquiBreak LensSpec.
Import ListNotations.
Local Open Scope out.

Section One.
  Context {T : Type} {N : Num T} {O : OrdNum T}.
  (** One accepted contour *)
  Lemma one_loaded (k : path_type) (o : outline (T := T)) : Forall drawing (snd o) -> accepted (outline_segs o) = true -> yvalid (outline_segs o) ->
    exists s l ex, add_all clipper0 [(k, [[o]])] = Ok s /\ grown clipper0 s /\ rings (verts s) [l] /\ starts s = map (hd 0) [l] /\
      ring (verts s) l (outline_segs o) /\ extrema (height (verts s)) l ex /\
      lmins s = map (fun v => Lmin v k) (map fst (filter snd ex)) /\ minima s = seq 0 (length (filter snd ex)) /\
      (forall i v, In i l -> nth_error (verts s) i = Some v ->
         (v_min v = true <-> lowest (height (verts s)) l i) /\ (v_max v = true <-> highest (height (verts s)) l i)).
  Proof.
    intros D A V. assert (DP : drawable_paths [(k, [[o]])]) by (constructor; [exact D|constructor]).
    destruct (add_all_built [(k, [[o]])] clipper0 [] [] DP (built_nil _)) as (s & cs & E & B).
    destruct (built_rings _ _ _ B (items_drawable _)) as [RG ST]. destruct B as (G & IT & OK & _ & LM & MN & _).
    cbn [flat_map fst snd concat app items map filter] in IT. rewrite A in IT.
    destruct cs as [|c [|c' cs]]; try discriminate. cbn in IT. injection IT as CT CS.
    inversion OK as [|? ? (f & r & CV & NE & R & X & F) _]; subst. rewrite CS in *.
    assert (EX : extrema (height (verts s)) (c_verts c) (c_marks c)).
    { rewrite CV. apply extremes_extrema; auto. now apply (ring_valid _ _ _ _ R). }
    exists s, (c_verts c), (c_marks c). cbn [map] in *. csplit; auto.
    - now rewrite CV.
    - rewrite LM. cbn. unfold all_lows. cbn. now rewrite app_nil_r.
    - rewrite MN. cbn. unfold all_lows, lows. cbn. now rewrite app_nil_r, !map_length.
    - destruct EX as (_ & X1 & X2 & _). intros i v Hi Hv. rewrite <- X1, <- X2. rewrite CV in Hi. exact (F i v Hi Hv).
  Qed.
End One.

(** No edge has a point of another inside it. *)
Definition unbroken (vs : list (vertex R)) (ids : list nat) : Prop :=
  forall i j v w q r t u, In i ids -> In j ids -> i <> j -> nth_error vs i = Some v -> v_seg v = Some (SLine q) -> nth_error vs j = Some w -> v_seg w = Some (SLine r) ->
    (0 < t < 1)%R -> (0 <= u <= 1)%R -> pt (v_pt v) q t <> pt (v_pt w) r u.
Lemma find_breaks_none en (s : clipper R) ls : (forall l, Permutation (en_order en l) l) ->
  rings (verts s) ls -> starts s = map (hd 0) ls -> straight (verts s) ls -> unbroken (verts s) (concat ls) ->
  find_breaks en (verts s) (starts s) = Ok [].
Proof.
  intros PO RG SS ST UB. destruct (find_breaks_lines en s ls PO RG SS ST) as (bs & E & _). rewrite E.
  destruct bs as [|b bs]; [reflexivity|exfalso]. revert E. unfold find_breaks.
  rewrite SS, all_rings_ok by (destruct RG as [R _]; eapply Forall_impl; [|exact R]; intros l (gs & H & _); eauto).
  cbn [bind]. destruct (vert_boxes_ok (verts s) (concat ls) ST) as (boxes & E & L & W & _). rewrite E. cbn [bind]. intros RP.
  pose proof (C20_lemma (en_order en) boxes PO W) as H. cbv zeta in H. destruct H as (_ & _ & C20).
  destruct (run_pairs_from _ _ _ _ _ RP b (or_introl eq_refl)) as (a & c & k & m & x & Hac & A & C & X & Bx).
  destruct (proj1 (C20 a c) (or_introl Hac)) as (NE & _).
  assert (NKM : k <> m). { intros <-. apply NE. destruct RG as (_ & ND). apply (proj1 (NoDup_nth_error _) ND); [eapply nth_lt; eauto|congruence]. }
  assert (Hk : In k (concat ls)) by (eapply nth_error_In; eauto). assert (Hm : In m (concat ls)) by (eapply nth_error_In; eauto).
  destruct (ST k Hk) as (v & q & V & G & N1 & F1 & F2). destruct (ST m Hm) as (w & r & Vw & H & N2 & F3 & F4).
  assert (OK : ends_ok (v_pt v) q (v_pt w) r) by (repeat split; auto; apply F1 || apply F2 || apply F3 || apply F4).
  unfold seg_intersect in X. rewrite (proj2 (at_ok _ _ _) V), (proj2 (at_ok _ _ _) Vw) in X. cbn [bind] in X.
  rewrite G, H in X. cbn [bind of_opt] in X. apply bind_ok in X as (res & Er & X). injection X as <-.
  apply pair_in in Bx as (z & Hz & Bx). destruct (C16_sound_lemma _ _ _ _ _ OK Er z Hz) as (M1 & M2 & P1 & P2).
  destruct Bx as [[T _]|[T _]]; apply inside_01 in T.
  - apply (UB k m v w q r (it0 z) (it1 z)); auto. congruence.
  - apply (UB m k w v r q (it1 z) (it0 z)); auto. congruence.
Qed.
Lemma intersect_none en (s : clipper R) ls : (forall l, Permutation (en_order en l) l) ->
  rings (verts s) ls -> starts s = map (hd 0) ls -> straight (verts s) ls -> unbroken (verts s) (concat ls) ->
  process_intersect en s = Ok (w_breaks s []).
Proof. intros PO RG SS ST UB. unfold process_intersect. rewrite (find_breaks_none en s ls); auto. Qed.
