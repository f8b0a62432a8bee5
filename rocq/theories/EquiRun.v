(** A whole call of process on axis-parallel polygons is the image of the sweep
    over other numbers with the same order. *)
From Coq Require Import ZArith Bool List Reals Lra Lia Sorted Permutation.
From Verif Require Import Outcome Num Order Rmath Segment Path PathSpec RTac ScanLine VState VPath VBreak VAel VOut VMain VLemmas
  RingSpec BreakSpec VBroken LineSpec BreakStatements BreakLines EquiSpec EquiMap EquiLoad EquiBreak.
Import ListNotations.
Local Open Scope out.

Section Run.
  Context {T1 : Type} {N1 : Num T1}.
  Variables fx fy : T1 -> R.
  Hypothesis F : maps (N1 := N1) (N2 := R_num) fx fy.
  Notation cm := (cm fx fy).

  Lemma same_places (bs1 : list (break_info T1)) (bs2 : list (break_info R)) :
    map place bs2 = map (fplace fx fy) (map place bs1) -> Forall2 (fbr fx fy) bs1 bs2.
  Proof.
    revert bs2. induction bs1 as [|b bs1 IH]; intros [|c bs2] E; try discriminate; constructor.
    - injection E as E1 E2 _. split; auto.
    - apply IH. now injection E.
  Qed.

  Lemma process_image en fuel (s : clipper T1) op fill ls bs s1 :
    (forall l, Permutation (en_order en l) l) -> (forall i j, en_addr en i = en_addr en j -> i = j) -> lins s ->
    let s2 := cm [] s in
    rings (verts s2) ls -> starts s2 = map (hd 0) ls -> straight (verts s2) ls ->
    axial (verts s2) (concat ls) -> unaligned (verts s2) (concat ls) -> spread (verts s2) (concat ls) ->
    listing (en_addr en) (verts s) (concat ls) (map place bs) ->
    break_all (length bs) (w_breaks (w_op s op fill) bs) bs = Ok s1 -> inv s1 ->
    exists B, process en fuel s2 op fill = omap (fun x => (cm B (fst x), map (fcall fx fy) (snd x))) (finish fuel s1).
  Proof.
    intros PO AI LS s2 RG SS ST AX UN SP LI BA IV.
    destruct (find_breaks_axis en s2 ls PO RG SS ST AX UN SP) as (b0 & FB & EX & IN).
    pose proof (tidy_listing en s2 ls b0 AI ST AX EX IN) as TL.
    pose proof (listing_image fx fy F _ _ _ _ LI) as LJ.
    exists (tidy_breaks en b0).
    assert (E : map place (tidy_breaks en b0) = map (fplace fx fy) (map place bs)).
    { destruct TL as (T1' & T2'), LJ as (L1 & L2). apply (sorted_unique (before (en_addr en) (verts s2))); auto.
      - apply before_irrefl. - apply before_asym.
      - intros (i & P). rewrite T2', L2. reflexivity. }
    assert (LE : length (tidy_breaks en b0) = length bs) by (rewrite <- (map_length place (tidy_breaks en b0)), E, !map_length; auto).
    apply same_places in E.
    assert (PI : process_intersect en (w_op s2 op fill) = Ok (cm (tidy_breaks en b0) s1)).
    { unfold process_intersect. change (verts (w_op s2 op fill)) with (verts s2). change (starts (w_op s2 op fill)) with (starts s2). rewrite FB. cbn [bind].
      change (w_breaks (w_op s2 op fill) (tidy_breaks en b0)) with (cm (tidy_breaks en b0) (w_breaks (w_op s op fill) bs)).
      rewrite LE.
      destruct (break_all_cm fx fy (tidy_breaks en b0) (length bs) (w_breaks (w_op s op fill) bs) bs (tidy_breaks en b0) LS E) as (K & _).
      rewrite K, BA. reflexivity. }
    unfold process. rewrite PI. cbn [bind]. destruct (finish_cm fx fy (tidy_breaks en b0) F fuel s1 IV) as (K & _). exact K.
  Qed.
End Run.
