(** Breaking in two orders gives the same output. *)
From Coq Require Import ZArith Bool List Lia.
From Verif Require Import Outcome Num Order Rmath Segment Path PathSpec ScanLine VState VPath VBreak VAel VOut VMain VLemmas AelSpec SortProofs
  RingSpec BreakSpec VRing VBuild VAdd VCut VBroken VFresh EquiMap RenMap RenBreak RenSort.
Import ListNotations.
Local Open Scope out.

Section RenRun.
  Context {T : Type} {N : Num T}.
  Implicit Types s : clipper T.
  (** [s'] is [s] up to the numbers of the vertices and of the minima. *)
  Record renumbered (r0 q : nat -> nat) (ls : list (list nat)) s s' : Prop := Renumbered {
    mv_rings : rings (verts s) ls;
    mv_rings' : rings (verts s') (map (map r0) ls);
    mv_old : forall i, In i (concat ls) -> exists v w, nth_error (verts s) i = Some v /\ nth_error (verts s') (r0 i) = Some w /\
      v_pt w = v_pt v /\ v_seg w = v_seg v /\ v_max w = v_max v /\ v_min w = v_min v;
    mv_len : length (verts s') = length (verts s);
    mv_lm : Forall (fun m => In (lm_vert m) (concat ls)) (lmins s);
    mv_q : forall k, nth_error (lmins s') (q k) = option_map (fun m => Lmin (r0 (lm_vert m)) (lm_type m)) (nth_error (lmins s) k);
    mv_sort : forall t, lmins t = lmins s' -> (forall i v, nth_error (verts s') i = Some v -> exists w, nth_error (verts t) i = Some w /\ v_pt w = v_pt v) ->
      sort_by (min_ltb t) (minima s') = sort_by (min_ltb t) (map q (minima s));
    mv_none : edges s = [];
    mv_rest : s' = Clipper (verts s') (lmins s') (minima s') (cur s) (starts s') (breaks s') (scans s) [] (ael s) (bounds s) (obl s) (changes s) (polys s) (cop s) (cfill s) }.
  Lemma finish_minima fuel s m : sort_by (min_ltb s) m = sort_by (min_ltb s) (minima s) -> finish fuel (w_minima s m (cur s)) = finish fuel s.
  Proof.
    intros E. unfold finish, reset. cbv zeta. change (minima (w_minima s m (cur s))) with m.
    change (sort_by (min_ltb (w_minima s m (cur s))) m) with (sort_by (min_ltb s) m). rewrite E. reflexivity.
  Qed.
  Lemma finish_moved fuel r0 q ls s s' bs bs' : renumbered r0 q ls s s' ->
    Forall (fun b => In (br_vert b) (concat ls)) bs -> Forall (fun b => In (br_vert b) (concat (map (map r0) ls))) bs' -> length bs = length bs' ->
    (forall i, In i (concat ls) -> after (verts s') (one_seg (verts s')) (runs bs') (r0 i) = after (verts s) (one_seg (verts s)) (runs bs) i) ->
    exists vs vs', break_all (length bs) (w_breaks s bs) bs = Ok (w_verts (w_breaks s bs) vs) /\
      break_all (length bs') (w_breaks s' bs') bs' = Ok (w_verts (w_breaks s' bs') vs') /\
      omap snd (finish fuel (w_verts (w_breaks s bs) vs)) = omap snd (finish fuel (w_verts (w_breaks s' bs') vs')).
  Proof.
    intros [R R' OL LV LM Q MS NE REST] F F' L RF.
    destruct (break_all_rings (w_breaks s bs) ls bs R F) as (vs & n1 & E1 & B1). destruct (break_all_rings (w_breaks s' bs') _ bs' R' F') as (vs' & n2 & E2 & B2).
    cbn [verts w_breaks] in B1, B2. exists vs, vs'. split; auto. split; auto.
    assert (LEN : length vs' = length vs).
    { pose proof (break_all_length (w_breaks s bs) ls bs _ R F E1) as L1. pose proof (break_all_length (w_breaks s' bs') _ bs' _ R' F' E2) as L2.
      cbn [verts w_breaks w_verts] in L1, L2. congruence. }
    assert (OLD : forall i, In i (concat ls) -> exists v w, nth_error (verts s) i = Some v /\ nth_error (verts s') (r0 i) = Some w /\ v_max w = v_max v /\ v_min w = v_min v).
    { intros i Hi. destruct (OL i Hi) as (v & w & K). exists v, w. tauto. }
    pose proof (broken_renames _ _ _ _ _ _ _ _ _ _ B1 B2 RF LEN OLD) as RN. set (r := ren ls r0 n1 n2) in *. set (D := dom ls r0 n1 n2) in *.
    assert (LD : Forall (fun m => D (lm_vert m)) (lmins s)).
    { eapply Forall_impl; [|exact LM]. intros m M. exists (r0 (lm_vert m)). eapply dom_old; eauto. }
    assert (QL : forall k, nth_error (lmins s') (q k) = option_map (rl r) (nth_error (lmins s) k)).
    { intros k. rewrite Q. destruct (nth_error (lmins s) k) as [m|] eqn:E; [|reflexivity]. cbn [option_map]. unfold rl. unfold r.
      rewrite Forall_forall in LM. rewrite (ren_old _ _ _ _ _ _ _ _ _ _ B1 B2 RF LEN (lm_vert m)); [reflexivity|]. apply LM. eapply nth_error_In; eauto. }
    assert (I : inv vs D (lmins s) (w_verts (w_breaks s bs) vs)).
    { split; [reflexivity|]. split; cbn; [reflexivity|rewrite NE; constructor]. }
    destruct (finish_rn r vs vs' D RN q (lmins s) (lmins s') QL LD (starts s') bs' fuel _ I) as (K & _).
    replace (rn r vs' q (lmins s') (starts s') bs' (w_verts (w_breaks s bs) vs)) with (w_minima (w_verts (w_breaks s' bs') vs') (map q (minima s)) (cur s')) in K.
    - change (cur s') with (cur (w_verts (w_breaks s' bs') vs')) in K. rewrite finish_minima in K.
      + rewrite K. destruct (finish fuel (w_verts (w_breaks s bs) vs)) as [(? & ?)| | |]; reflexivity.
      + cbn [minima w_verts w_breaks]. symmetry. apply MS; [reflexivity|]. cbn [verts w_verts]. intros i v V.
        destruct (bk_old _ _ _ _ _ B2 i v V) as (w & W & ST & _). exists w. split; auto.
    - rewrite REST. unfold rn. cbn [w_verts w_breaks w_minima verts lmins minima cur starts scans edges ael bounds obl changes polys cop cfill]. rewrite NE. reflexivity.
  Qed.
  Lemma map_map_id {A} (l : list (list A)) : map (map (fun x => x)) l = l.
  Proof. rewrite <- (map_id l) at 2. apply map_ext. apply map_id. Qed.
  Lemma finish_same fuel s ls bs bs' : rings (verts s) ls -> Forall (fun m => In (lm_vert m) (concat ls)) (lmins s) -> edges s = [] ->
    Forall (fun b => In (br_vert b) (concat ls)) bs -> Forall (fun b => In (br_vert b) (concat ls)) bs' ->
    length bs = length bs' -> (forall i, runs_for i bs = runs_for i bs') ->
    exists vs vs', break_all (length bs) (w_breaks s bs) bs = Ok (w_verts (w_breaks s bs) vs) /\
      break_all (length bs') (w_breaks s bs') bs' = Ok (w_verts (w_breaks s bs') vs') /\
      omap snd (finish fuel (w_verts (w_breaks s bs) vs)) = omap snd (finish fuel (w_verts (w_breaks s bs') vs')).
  Proof.
    intros R LM NE F F' L RF. apply (finish_moved fuel (fun i => i) (fun i => i) ls); auto.
    - constructor; rewrite ?map_map_id; auto.
      + intros i Hi. destruct (rings_in _ _ _ R Hi) as (l & gs & j & g & v & w & K). exists v, v. tauto.
      + intros k. destruct (nth_error (lmins s) k) as [[]|]; reflexivity.
      + intros t _ _. now rewrite map_id.
      + destruct s. cbn in *. now subst.
    - now rewrite map_map_id.
    - intros i _. unfold after. destruct (nth_error (verts s) i); auto. specialize (RF i). unfold runs_for in RF. now rewrite RF.
  Qed.
End RenRun.
