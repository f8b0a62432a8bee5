(** The same for the contours as they are read in and as they are broken. *)
From Coq Require Import ZArith Bool List Lia.
From Verif Require Import Outcome Num Rmath Segment Path PathSpec PathProofs VState VPath VBreak VAel VOut VMain RingSpec VBuild VAdd BreakSpec EquiMap.
Import ListNotations.
Local Open Scope out.

(** The point of the vertex that is appended does not matter. *)
Lemma upd_upd {A} (l : list A) i f g : (forall x, g (f x) = g x) -> upd (upd l i f) i g = upd l i g.
Proof. intros H. revert i. induction l; intros [|i]; cbn; auto; f_equal; auto. Qed.
Lemma upd_fuse {A} (l : list A) i f g h : (forall x, g (f x) = h x) -> upd (upd l i f) i g = upd l i h.
Proof. intros H. revert i. induction l; intros [|i]; cbn; auto; f_equal; auto. Qed.
Lemma upd_comm {A} (l : list A) i j f g : i <> j -> upd (upd l i f) j g = upd (upd l j g) i f.
Proof. revert i j. induction l; intros [|i] [|j] H; cbn; auto; try congruence. f_equal. apply IHl. congruence. Qed.
Lemma vmod_pt {T} (s : clipper T) m z f : (forall v, f (set_vpt z v) = f v) ->
  vmod (w_verts s (upd (verts s) m (set_vpt z))) m f = vmod s m f.
Proof.
  intros H. unfold vmod, at_. cbn. rewrite VLemmas.nth_upd, Nat.eqb_refl. destruct (nth_error (verts s) m) eqn:E; cbn; auto.
  unfold w_verts. cbn. now rewrite upd_upd.
Qed.
Lemma set_segment_pt {T} (s : clipper T) p m z g :
  set_segment (w_verts s (upd (verts s) m (set_vpt z))) p m g = set_segment s p m g.
Proof.
  unfold set_segment. destruct p as [p|]; cbn [deref of_opt bind]; auto. unfold vmod, at_. cbn. rewrite VLemmas.nth_upd.
  destruct (Nat.eqb m p) eqn:D.
  - apply Nat.eqb_eq in D. subst p. destruct (nth_error (verts s) m) eqn:E; cbn; auto. rewrite !VLemmas.nth_upd, Nat.eqb_refl, E. cbn.
    unfold w_verts. cbn. do 2 f_equal. erewrite upd_fuse by reflexivity. erewrite upd_fuse by reflexivity. erewrite (upd_fuse (verts s)) by reflexivity. reflexivity.
  - apply Nat.eqb_neq in D. destruct (nth_error (verts s) p) eqn:E; cbn; auto.
    rewrite (upd_comm _ m p) by auto. rewrite (VLemmas.nth_upd (upd (verts s) p _) m m), Nat.eqb_refl.
    rewrite !VLemmas.nth_upd. replace (Nat.eqb p m) with false by (symmetry; apply Nat.eqb_neq; auto).
    destruct (nth_error (verts s) m) eqn:E2; cbn; auto. unfold w_verts. cbn. now rewrite upd_upd.
Qed.

Section Load.
  Context {T1 T2 : Type} {N1 : Num T1} {N2 : Num T2}.
  Variables fx fy : T1 -> T2.
  Variable B : list (break_info T2).
  Hypothesis F : cmaps (N1 := N1) (N2 := N2) fx fy.
  Notation fp := (fp fx fy).
  Notation fseg := (fseg fx fy).
  Notation fvert := (fvert fx fy).
  Notation cm := (cm fx fy B).
  Implicit Types s : clipper T1.

  (** only straight segments *)
  Definition lin (v : vertex T1) : Prop := match v_seg v with None | Some (SLine _) => True | _ => False end.
  Definition lins s : Prop := Forall lin (verts s).
  Notation ev := (eqv cm lins).

  Lemma vmod_cm s i f1 f2 : (forall v, fvert (f1 v) = f2 (fvert v)) -> (forall v, lin v -> lin (f1 v)) -> lins s -> ev (vmod (cm s) i f2) (vmod s i f1).
  Proof.
    intros H K I. unfold vmod. eapply eqv_bind; [apply (eqv_at fvert)|]. intros v E. cbv beta in E. apply eqv_ok.
    - unfold EquiMap.cm, w_verts. cbn. now rewrite (map_upd fvert f1 f2) by auto.
    - unfold lins in *. cbn. rewrite Forall_forall in *. intros x X. apply In_nth_error in X as (j & X). rewrite VLemmas.nth_upd in X.
      destruct (Nat.eqb i j) eqn:D; [|apply I; eapply nth_error_In; eauto]. apply Nat.eqb_eq in D. subst j.
      rewrite E in X. cbn in X. injection X as <-. apply K; auto. apply I. eapply nth_error_In; eauto.
  Qed.

  Ltac cmp := solve [reflexivity | apply (fx_eq fx fy F) | apply (fx_lt fx fy F) | apply (fy_eq fx fy F) | apply (fy_lt fx fy F) | apply (fp_eq fx fy F) | apply (fp_neq fx fy F)
    | (apply f_equal2; first [reflexivity | apply (fy_lt fx fy F)])].
  Ltac rdd := first [apply (eqv_at fvert) | apply eqv_deref | apply (eqv_opt fseg)].
  Ltac wrr := apply vmod_cm; [intros; reflexivity | auto | assumption].
  Ltac nx := let a := fresh "a" in let K := fresh "K" in intros a K; cbv beta in K; cbv beta.
  Ltac bnd L := eapply eqv_bind; [L|nx].
  Ltac cond := match goal with |- eqv _ _ (if ?b2 then _ else _) (if ?b1 then _ else _) => replace b2 with b1 by (symmetry; cmp); let C := fresh "C" in destruct b1 eqn:C end.
  Ltac mtch := match goal with |- eqv _ _ (match ?x2 with Some _ => _ | None => _ end) (match ?x1 with Some _ => _ | None => _ end) => change x2 with x1; let C := fresh "C" in destruct x1 eqn:C end.
  Ltac fin_ok := apply eqv_ok; [reflexivity|try assumption; try exact I].

  Definition straight_seg (g : seg T1) : Prop := match g with SLine _ => True | _ => False end.
  Lemma add_local_min_cm s v pt : lins s -> ev (add_local_min (cm s) v pt) (add_local_min s v pt).
  Proof. intros I. unfold add_local_min. bnd ltac:(rdd). cond; [fin_ok|]. bnd ltac:(wrr). fin_ok. Qed.
  Lemma set_segment_cm s p m g : lins s -> straight_seg g -> ev (set_segment (cm s) p m (fseg g)) (set_segment s p m g).
  Proof.
    intros I G. unfold set_segment. bnd ltac:(apply eqv_deref). bnd ltac:(apply vmod_cm; [intros; reflexivity|intros; destruct g; try contradiction; exact Logic.I|assumption]).
    apply vmod_cm; auto. intros v. unfold fvert. cbn. now rewrite fseg_target.
  Qed.
  Lemma start_dir_cm fuel vs f : forall e, eqv (fun x => x) (fun _ => True) (start_dir fuel (map fvert vs) f e) (start_dir fuel vs f e).
  Proof.
    induction fuel; intros e; cbn [start_dir]; [apply eqv_fuel|]. bnd ltac:(rdd). bnd ltac:(rdd). bnd ltac:(rdd). cond.
    - cond; [fin_ok|apply IHfuel].
    - apply eqv_ok; auto. do 2 f_equal. apply (fy_lt fx fy F).
  Qed.
  Definition fsx {A} (x : clipper T1 * A) : clipper T2 * A := (cm (fst x), snd x).
  Definition lsx {A} (x : clipper T1 * A) : Prop := lins (fst x).
  Lemma mark_extrema_cm fuel pt f : forall s p c d, lins s -> eqv fsx lsx (mark_extrema fuel (cm s) pt f p c d) (mark_extrema fuel s pt f p c d).
  Proof.
    induction fuel; intros s p c d I; cbn [mark_extrema]; (cond; [fin_ok|]); [apply eqv_fuel|]. bnd ltac:(rdd). bnd ltac:(rdd).
    eapply eqv_bind with (g := fsx) (P := lsx).
    - cond; [bnd ltac:(apply add_local_min_cm; auto); fin_ok|]. cond; [bnd ltac:(wrr); fin_ok|fin_ok].
    - intros (s1 & d1) I1. cbn [fsx fst snd]. bnd ltac:(rdd). bnd ltac:(apply eqv_deref). apply IHfuel. exact I1.
  Qed.
  Lemma len_verts2 s : length (verts (cm s)) = length (verts s).
  Proof. apply map_length. Qed.
  Lemma insert_vertex_list_cm s a b pt : lins s -> ev (insert_vertex_list (cm s) a b pt) (insert_vertex_list s a b pt).
  Proof.
    intros I. destruct a as [f|]; [|fin_ok]. destruct b as [e|]; [|fin_ok]. cbn [insert_vertex_list].
    bnd ltac:(rdd). mtch; [|fin_ok]. cond; [fin_ok|]. bnd ltac:(rdd).
    eapply eqv_bind; [instantiate (1 := lins); cond|nx].
    - apply (set_segment_cm s (Some e) f (SLine (v_pt a))); auto. exact Logic.I.
    - bnd ltac:(rdd). bnd ltac:(rdd). bnd ltac:(rdd). apply set_segment_cm; auto.
      unfold lins in I. rewrite Forall_forall in I. specialize (I a2 (nth_error_In _ _ K2)). unfold lin in I. rewrite K3 in I. destruct a3; try contradiction. exact Logic.I.
    - bnd ltac:(rdd). bnd ltac:(rdd). cond; [fin_ok|]. rewrite len_verts2.
      bnd ltac:(apply (start_dir_cm (length (verts a1)) (verts a1) f f)). destruct a4 as [d0|]; [|fin_ok].
      bnd ltac:(apply mark_extrema_cm; auto). destruct a4 as (s1 & (p & d)). cbn [fsx fst snd].
      eapply eqv_bind; [instantiate (1 := lins); cond; [fin_ok; exact K5|]; destruct d0; [apply vmod_cm; auto; exact K5|apply add_local_min_cm; exact K5]|nx].
      fin_ok.
  Qed.

  (** *** Reading *)
  Definition frd (r : rd_state T1) : rd_state T2 := Rd (cm (rd_clip r)) (rd_type r) (rd_prev r) (rd_first r).
  Definition lrd (r : rd_state T1) : Prop := lins (rd_clip r).
  Lemma new_vertex_cm s : exists z, cm (snd (new_vertex s)) = w_verts (snd (new_vertex (cm s))) (upd (verts (snd (new_vertex (cm s)))) (fst (new_vertex s)) (set_vpt z)).
  Proof.
    exists (fp (V2 (n_ofZ 0) (n_ofZ 0))). unfold new_vertex, EquiMap.cm, w_verts. cbn. f_equal. rewrite map_app. cbn.
    rewrite <- (map_length fvert). induction (map fvert (verts s)); cbn; f_equal; auto.
  Qed.
  Lemma new_lins s : lins s -> lins (snd (new_vertex s)).
  Proof. intros I. unfold new_vertex, lins. cbn. apply Forall_app. split; auto. constructor; auto. exact Logic.I. Qed.
  Lemma append_seg_cm r g : lrd r -> straight_seg g -> eqv frd lrd (append_seg (frd r) (fseg g)) (append_seg r g).
  Proof.
    intros I G. unfold append_seg. destruct (new_vertex_cm (rd_clip r)) as (z & Z).
    change (rd_clip (frd r)) with (cm (rd_clip r)).
    pose proof (new_lins (rd_clip r) I) as J. destruct (new_vertex (rd_clip r)) as (c & s1) eqn:E1.
    assert (C : fst (new_vertex (cm (rd_clip r))) = c) by (unfold new_vertex in *; cbn [fst]; rewrite len_verts2; injection E1; auto).
    destruct (new_vertex (cm (rd_clip r))) as (c2 & s2). cbn [fst snd] in *. subst c2.
    rewrite <- (set_segment_pt s2 _ c z), <- Z. bnd ltac:(apply set_segment_cm; auto). fin_ok.
  Qed.
  Lemma read_moveto_cm a a' p r : lrd r -> eqv frd lrd (read_moveto a' (fp p) (frd r)) (read_moveto a p r).
  Proof.
    intros I. unfold read_moveto. change (rd_first (frd r)) with (rd_first r).
    eapply eqv_bind; [instantiate (1 := lins); destruct (rd_first r); [apply insert_vertex_list_cm; auto|fin_ok]|].
    intros s IS. destruct (new_vertex_cm s) as (z & Z). pose proof (new_lins s IS) as J. destruct (new_vertex s) as (c & s1) eqn:E1.
    assert (C : fst (new_vertex (cm s)) = c) by (unfold new_vertex in *; cbn [fst]; rewrite len_verts2; injection E1; auto).
    destruct (new_vertex (cm s)) as (c2 & s2). cbn [fst snd] in *. subst c2.
    rewrite <- (vmod_pt s2 c z) by reflexivity. rewrite <- Z. bnd ltac:(wrr). fin_ok.
  Qed.
  Lemma read_lineto_cm a p r : lrd r -> eqv frd lrd (read_lineto (fp a) (fp p) (frd r)) (read_lineto a p r).
  Proof. intros I. unfold read_lineto. cond; [apply (append_seg_cm r (SLine p)); auto; exact Logic.I|fin_ok]. Qed.

  Definition fpc (c : pcall T1) : pcall T2 :=
    match c with PMove p => PMove (fp p) | PLine p => PLine (fp p) | PCubic a b p => PCubic (fp a) (fp b) (fp p) end.
  Definition fout (o : outline (T := T1)) : outline (T := T2) := (fp (fst o), map fpc (snd o)).
  Definition line_call (c : pcall T1) : Prop := match c with PCubic _ _ _ => False | _ => True end.
  Lemma deliver_cm cs : forall a r, lrd r -> Forall line_call cs ->
    eqv frd lrd (deliver ring_funcs (events_of (fp a) (map fpc cs)) (frd r)) (deliver ring_funcs (events_of a cs) r).
  Proof.
    induction cs as [|c cs IH]; intros a r I L; [fin_ok|]. inversion L; subst. destruct c; cbn [map fpc events_of deliver deliver1 ring_funcs f_move f_line f_cubic]; try contradiction.
    - bnd ltac:(apply read_moveto_cm; auto). apply IH; auto.
    - bnd ltac:(apply read_lineto_cm; auto). apply IH; auto.
  Qed.
  Lemma deliver_cm0 cs a a' r : lrd r -> Forall line_call cs -> (match cs with PMove _ :: _ | [] => True | _ => False end) ->
    eqv frd lrd (deliver ring_funcs (events_of a' (map fpc cs)) (frd r)) (deliver ring_funcs (events_of a cs) r).
  Proof.
    intros I L H. destruct cs as [|[p|p|p q t] cs]; try contradiction; [fin_ok|]. inversion L; subst.
    cbn [map fpc events_of deliver deliver1 ring_funcs f_move]. bnd ltac:(apply read_moveto_cm; auto). apply deliver_cm; auto.
  Qed.
  Definition lined (os : list (outline (T := T1))) : Prop := Forall (fun o => Forall line_call (snd o)) os.
  Lemma calls_map os : flat_map outline_calls (map fout os) = map fpc (flat_map outline_calls os).
  Proof. induction os as [|o os IH]; cbn; auto. now rewrite IH, map_app. Qed.
  Lemma calls_lined os : lined os -> Forall line_call (flat_map outline_calls os).
  Proof. induction 1; cbn; auto. constructor; [exact I|]. apply Forall_app. auto. Qed.
  Lemma add_one_path_cm s os pt : lins s -> lined os ->
    ev (add_one_path (cm s) (run_calls (flat_map outline_calls (map fout os))) pt) (add_one_path s (run_calls (flat_map outline_calls os)) pt).
  Proof.
    intros I L. unfold add_one_path. rewrite !traverse_run_calls, calls_map. fold (ring_funcs (T := T1)). fold (ring_funcs (T := T2)).
    eapply eqv_bind; [apply (deliver_cm0 _ origin origin (Rd s pt None None)); [exact I|apply calls_lined; auto|destruct os; exact Logic.I]|].
    intros r R. apply insert_vertex_list_cm. exact R.
  Qed.
  Lemma add_paths_cm oss : forall s pt, lins s -> Forall lined oss ->
    ev (add_paths (cm s) (map (fun os => run_calls (flat_map outline_calls os)) (map (map fout) oss)) pt)
       (add_paths s (map (fun os => run_calls (flat_map outline_calls os)) oss) pt).
  Proof.
    induction oss as [|os oss IH]; intros s pt I L; cbn [map add_paths]; [fin_ok|]. inversion L; subst.
    eapply eqv_bind; [instantiate (1 := lins)|intros s1 I1; apply IH; auto].
    assert (X : (1 <? length (p_data (run_calls (flat_map outline_calls (map fout os)))))%nat = (1 <? length (p_data (run_calls (flat_map outline_calls os))))%nat).
    { destruct os as [|o os]; [reflexivity|]. transitivity true; [|symmetry; apply Nat.ltb_lt, (drawn_size (o :: os)); discriminate].
      apply Nat.ltb_lt. apply (drawn_size (map fout (o :: os))). discriminate. }
    rewrite X. destruct (1 <? length (p_data (run_calls (flat_map outline_calls os))))%nat; [apply add_one_path_cm; auto|fin_ok].
  Qed.
  Definition fall (ps : list (path_type * list (list (outline (T := T1))))) : list (path_type * list (list (outline (T := T2)))) :=
    map (fun x => (fst x, map (map fout) (snd x))) ps.
  Lemma add_all_cm ps : forall s, lins s -> Forall (fun x => Forall lined (snd x)) ps -> ev (add_all (cm s) (fall ps)) (add_all s ps).
  Proof.
    induction ps as [|(pt & oss) ps IH]; intros s I L; cbn [fall map add_all fst snd]; [fin_ok|]. inversion L; subst.
    eapply eqv_bind; [apply add_paths_cm; auto|]. intros s1 I1. apply IH; auto.
  Qed.

  (** *** Breaking *)
  Definition fbr (b1 : break_info T1) (b2 : break_info T2) : Prop := br_vert b2 = br_vert b1 /\ br_pt b2 = fp (br_pt b1).
  Lemma chain_cm gs : forall s c, lins s -> Forall straight_seg gs -> eqv fsx lsx (chain (cm s) c (map fseg gs)) (chain s c gs).
  Proof.
    induction gs as [|g gs IH]; intros s c I L; cbn [map chain]; [fin_ok|]. inversion L; subst.
    destruct (new_vertex_cm s) as (z & Z). pose proof (new_lins s I) as J. destruct (new_vertex s) as (n & s1) eqn:E1.
    assert (C : fst (new_vertex (cm s)) = n) by (unfold new_vertex in *; cbn [fst]; rewrite len_verts2; injection E1; auto).
    destruct (new_vertex (cm s)) as (c2 & s2). cbn [fst snd] in *. subst c2.
    rewrite <- (set_segment_pt s2 _ n z), <- Z. bnd ltac:(apply set_segment_cm; auto). apply IH; auto.
  Qed.
  Lemma relink_cm s st gs : lins s -> Forall straight_seg gs ->
    ev (relink (cm s) st (map fseg gs) (fun p => SLine p)) (relink s st gs (fun p => SLine p)).
  Proof.
    intros I L. unfold relink. bnd ltac:(rdd). bnd ltac:(rdd). bnd ltac:(apply chain_cm; auto). destruct a1 as (s1 & c). cbn [fsx fst snd].
    bnd ltac:(rdd). bnd ltac:(apply (set_segment_cm s1 (Some c) a0 (SLine (v_pt a1))); [exact K1|exact Logic.I]). wrr.
  Qed.
  Lemma break_vertex_cm s st bs1 bs2 : lins s -> Forall2 fbr bs1 bs2 -> ev (break_vertex (cm s) st bs2) (break_vertex s st bs1).
  Proof.
    intros I L. unfold break_vertex. bnd ltac:(rdd). bnd ltac:(rdd).
    assert (J : lin a) by (unfold lins in I; rewrite Forall_forall in I; apply I; eapply nth_error_In; eauto).
    unfold lin in J. rewrite K0 in J. destruct a0; try contradiction. cbn [EquiMap.fseg].
    replace (map (fun b => SLine (br_pt b)) bs2) with (map fseg (map (fun b => SLine (br_pt b)) bs1)).
    - apply relink_cm; auto. clear. induction bs1; cbn; constructor; auto. exact I.
    - clear - L. induction L as [|x y ? ? H ? IH]; cbn; auto. destruct H as (_ & ->). now f_equal.
  Qed.
  Lemma take_run_cm v bs1 bs2 : Forall2 fbr bs1 bs2 -> Forall2 fbr (fst (take_run v bs1)) (fst (take_run v bs2)) /\ Forall2 fbr (snd (take_run v bs1)) (snd (take_run v bs2)).
  Proof.
    induction 1 as [|x y l m H L IH]; cbn [take_run]; [split; constructor|]. destruct H as (H1 & H2). rewrite H1. destruct (Nat.eqb _ v).
    - destruct (take_run v l), (take_run v m). cbn in *. split; [constructor|]; try tauto. split; auto.
    - cbn. split; constructor; auto. split; auto.
  Qed.
  Lemma break_all_cm fuel : forall s bs1 bs2, lins s -> Forall2 fbr bs1 bs2 -> ev (break_all fuel (cm s) bs2) (break_all fuel s bs1).
  Proof.
    induction fuel; intros s bs1 bs2 I L; destruct L as [|x y l m H L]; cbn [break_all]; try fin_ok; [apply eqv_fuel|].
    destruct H as (H1 & H2). rewrite H1. pose proof (take_run_cm (br_vert x) (x :: l) (y :: m) ltac:(constructor; [split; auto|auto])) as (R1 & R2).
    destruct (take_run (br_vert x) (x :: l)) as (a1 & r1), (take_run (br_vert x) (y :: m)) as (a2 & r2). cbn [fst snd] in *.
    eapply eqv_bind; [apply break_vertex_cm; eauto|]. intros s1 I1. apply IHfuel; auto.
  Qed.
End Load.
