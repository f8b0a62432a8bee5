(** How many vertices a drawing takes. *)
From Coq Require Import ZArith Bool List Lia.
From Verif Require Import Outcome Num Order Rmath Segment Path PathSpec PathProofs VState VPath VLemmas AelSpec RingSpec BreakSpec VRing VBuild VAdd EquiMap RenBreak.
Import ListNotations.
Local Open Scope out.

Section Count.
  Context {T : Type} {N : Num T}.
  Implicit Types s : clipper T.
  Lemma local_min_length s v pt s' : add_local_min s v pt = Ok s' -> length (verts s') = length (verts s).
  Proof.
    unfold add_local_min. intros H. apply bind_ok in H as (x & _ & H). destruct (v_min x); [injection H as <-; auto|].
    apply bind_ok in H as (s1 & E & H). injection H as <-. apply vmod_length in E. exact E.
  Qed.
  Lemma mark_length fuel : forall s pt first prev c d s' r, mark_extrema fuel s pt first prev c d = Ok (s', r) -> length (verts s') = length (verts s).
  Proof.
    induction fuel as [|fuel IH]; intros s pt first prev c d s' r H; cbn [mark_extrema] in H; destruct (Nat.eqb c first); try discriminate; try (injection H as <- _; reflexivity).
    apply bind_ok in H as (vc & _ & H). apply bind_ok in H as (vp & _ & H). apply bind_ok in H as ((s1 & d1) & E & H).
    assert (L : length (verts s1) = length (verts s)).
    { destruct (_ && d); [|destruct (_ && negb d)].
      - apply bind_ok in E as (s2 & E & K). injection K as <- _. eapply local_min_length; eauto.
      - apply bind_ok in E as (s2 & E & K). injection K as <- _. eapply vmod_length; eauto.
      - injection E as <- _. reflexivity. }
    apply bind_ok in H as (vc2 & _ & H). apply bind_ok in H as (n & _ & H). apply IH in H. congruence.
  Qed.
  Lemma insert_length s f e pt s' : insert_vertex_list s f e pt = Ok s' -> length (verts s') = length (verts s).
  Proof.
    unfold insert_vertex_list. destruct f as [f|]; [|intros H; injection H as <-; auto]. destruct e as [e|]; [|intros H; injection H as <-; auto].
    intros H. apply bind_ok in H as (vf & _ & H). destruct (v_next vf) as [n|]; [|injection H as <-; auto]. destruct (Nat.eqb n f); [injection H as <-; auto|].
    apply bind_ok in H as (ve & _ & H). apply bind_ok in H as (s1 & E & H).
    assert (L : length (verts s1) = length (verts s)).
    { destruct (vneqb _ _); [eapply set_segment_length; eauto|]. apply bind_ok in E as (p & _ & E). apply bind_ok in E as (vp & _ & E). apply bind_ok in E as (g & _ & E).
      eapply set_segment_length; eauto. }
    apply bind_ok in H as (vf2 & _ & H). apply bind_ok in H as (n2 & _ & H). destruct (Nat.eqb n2 f); [injection H as <-; auto|].
    apply bind_ok in H as (d & _ & H). destruct d as [d0|]; [|injection H as <-; auto]. apply bind_ok in H as ((s2 & (prev & d)) & E2 & H).
    apply mark_length in E2. apply bind_ok in H as (s3 & E3 & H). injection H as <-. cbn [verts w_starts].
    destruct (Bool.eqb d d0); [injection E3 as <-; congruence|]. destruct d0; [apply vmod_length in E3|apply local_min_length in E3]; congruence.
  Qed.
  Lemma append_length (r : rd_state T) g r' : append_seg r g = Ok r' -> length (verts (rd_clip r')) = S (length (verts (rd_clip r))).
  Proof.
    unfold append_seg, new_vertex. intros H. apply bind_ok in H as (s & E & H). injection H as <-. cbn [rd_clip]. apply set_segment_length in E.
    rewrite E. cbn [verts w_verts]. rewrite app_length. cbn. lia.
  Qed.
  Definition takes (e : event T) : nat := match e with EMove _ _ => 1 | ELine a b => if vneqb a b then 1 else 0 | ECubic _ _ _ _ => 0 end.
  Definition flat (e : event T) : Prop := match e with ECubic _ _ _ _ => False | _ => True end.
  Definition total (l : list nat) : nat := fold_right Nat.add 0 l.
  Lemma deliver_length l : forall r r', Forall flat l -> deliver ring_funcs l r = Ok r' -> length (verts (rd_clip r')) = length (verts (rd_clip r)) + total (map takes l).
  Proof.
    induction l as [|e l IH]; intros r r' F H; [injection H as <-; cbn; lia|]. inversion F as [|? ? F1 F2]; subst. cbn [deliver] in H. apply bind_ok in H as (r1 & E & H).
    apply IH in H; auto. cbn [map total fold_right]. fold (total (map takes l)). rewrite H. destruct e as [a b|a b|a c d b]; [| |contradiction]; cbn in E; cbn [takes].
    - unfold read_moveto in E. apply bind_ok in E as (s & E1 & E). cbn [new_vertex] in E. apply bind_ok in E as (s2 & E2 & E). injection E as <-. cbn [rd_clip].
      apply vmod_length in E2. rewrite E2. cbn [verts w_verts]. rewrite app_length. cbn [length].
      assert (length (verts s) = length (verts (rd_clip r))) by (destruct (rd_first r); [eapply insert_length; eauto|now injection E1 as <-]). lia.
    - unfold read_lineto in E. destruct (vneqb a b); [apply append_length in E; lia|]. injection E as <-. lia.
  Qed.
  Lemma one_path_length s os pt s' : Forall flat (events_of origin (flat_map outline_calls os)) -> add_one_path s (run_calls (flat_map outline_calls os)) pt = Ok s' ->
    length (verts s') = length (verts s) + total (map takes (events_of origin (flat_map outline_calls os))).
  Proof.
    intros F H. unfold add_one_path in H. rewrite traverse_run_calls in H. fold (ring_funcs (T := T)) in H. apply bind_ok in H as (r & E & H).
    apply insert_length in H. rewrite H. now apply deliver_length in E.
  Qed.
  (** Lines between different points, one after another *)
  Definition distinct_steps (o : outline (T := T)) : Prop :=
    Forall flat (events_of (fst o) (snd o)) /\ Forall (fun e => takes e = 1) (events_of (fst o) (snd o)).
  Definition corners (o : outline (T := T)) : nat := S (length (snd o)).
  Lemma events_len cs : forall o : vec2 T, length (events_of o cs) = length cs.
  Proof. induction cs as [|[] cs IH]; intros o; cbn; auto. Qed.
  Lemma total_ones l : Forall (fun e => takes e = 1) l -> total (map takes l) = length l.
  Proof. induction 1 as [|e l E F IH]; [reflexivity|]. cbn. unfold total in IH. rewrite IH, E. reflexivity. Qed.
  Lemma total_app a b : total (a ++ b) = total a + total b.
  Proof. unfold total. induction a; cbn; lia. Qed.
  Lemma outlines_count os : Forall distinct_steps os -> forall from, Forall flat (events_of from (flat_map outline_calls os)) /\
    total (map takes (events_of from (flat_map outline_calls os))) = total (map corners os).
  Proof.
    induction 1 as [|o os (F & O) H IH]; intros from; [split; [constructor|reflexivity]|]. cbn [flat_map outline_calls app events_of map total fold_right].
    fold (total (map corners os)). rewrite events_app, map_app. destruct (IH (last (map endpoint (snd o)) (fst o))) as (F2 & L). split.
    - constructor; [exact I|]. apply Forall_app. auto.
    - fold (total (map takes (events_of (fst o) (snd o)) ++ map takes (events_of (last (map endpoint (snd o)) (fst o)) (flat_map outline_calls os)))).
      rewrite total_app, L, total_ones, events_len by auto. reflexivity.
  Qed.
  Lemma add_paths_length oss : forall s pt s', Forall (Forall distinct_steps) oss -> add_paths s (map drawn oss) pt = Ok s' ->
    length (verts s') = length (verts s) + total (map corners (concat oss)).
  Proof.
    induction oss as [|os oss IH]; intros s pt s' F H; cbn [map add_paths] in H; [injection H as <-; cbn; lia|]. inversion F as [|? ? F1 F2]; subst.
    apply bind_ok in H as (s1 & E & H). apply IH in H; auto. cbn [concat]. rewrite map_app, total_app, H.
    destruct (list_eq_nil os) as [->|NE].
    - cbn in E. injection E as <-. cbn. lia.
    - replace (Nat.ltb 1 (length (p_data (drawn os)))) with true in E by (symmetry; apply Nat.ltb_lt; now apply drawn_size).
      destruct (outlines_count os F1 origin) as (FL & L). apply one_path_length in E; auto. rewrite E, L. lia.
  Qed.
  Lemma add_all_length ps : forall s s', Forall distinct_steps (all_outlines ps) -> add_all s ps = Ok s' ->
    length (verts s') = length (verts s) + total (map corners (all_outlines ps)).
  Proof.
    induction ps as [|(pt & oss) ps IH]; intros s s' F H; cbn [add_all] in H; [injection H as <-; cbn; lia|].
    unfold all_outlines in F. cbn [flat_map snd] in F. apply Forall_app in F as (F1 & F2). apply bind_ok in H as (s1 & E & H). apply IH in H; auto.
    apply add_paths_length in E.
    - unfold all_outlines. cbn [flat_map snd]. rewrite map_app, total_app. fold (all_outlines ps). lia.
    - apply Forall_forall. intros os O. apply Forall_forall. intros o Ho. rewrite Forall_forall in F1. apply F1. apply in_concat. eauto.
  Qed.
End Count.
