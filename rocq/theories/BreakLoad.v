(** C63: how many vertices adding paths makes. *)
From Coq Require Import ZArith Bool List Lia Reals Permutation.
From Verif Require Import Outcome Num Order Rmath Segment Path PathSpec VState VPath VLemmas VBreak RingSpec BreakSpec BreakSizeSpec PathProofs BreakCount.
Import ListNotations.
Local Open Scope nat_scope.
Local Open Scope out.

Section Load.
  Context {T : Type} {N : Num T}.
  Implicit Types s : clipper T.
  Lemma vmod_len s i f s' : vmod s i f = Ok s' -> length (verts s') = length (verts s).
  Proof. intros H. mods. cbn. now rewrite length_upd. Qed.
  Lemma local_min_len s i pt s' : add_local_min s i pt = Ok s' -> length (verts s') = length (verts s).
  Proof.
    unfold add_local_min. intros H. apply bind_ok in H as (v & _ & H). destruct (v_min v); [now injection H as <-|]. apply bind_ok in H as (s1 & H1 & H). injection H as <-. apply vmod_len in H1. exact H1.
  Qed.
  Lemma mark_len pt first fuel : forall s prev c d x, mark_extrema fuel s pt first prev c d = Ok x -> length (verts (fst x)) = length (verts s).
  Proof.
    induction fuel as [|fuel IH]; intros s prev c d x H; cbn [mark_extrema] in H; (destruct (Nat.eqb c first); [now injection H as <-|]); [discriminate|].
    apply bind_ok in H as (vc & _ & H). apply bind_ok in H as (vp & _ & H). apply bind_ok in H as ((s1 & d1) & H1 & H). apply bind_ok in H as (vc' & _ & H). apply bind_ok in H as (n & _ & H). apply IH in H. rewrite H.
    destruct (_ && _); [apply bind_ok in H1 as (s2 & H2 & H1); injection H1 as <- _; now apply local_min_len in H2|].
    destruct (_ && _); [apply bind_ok in H1 as (s2 & H2 & H1); injection H1 as <- _; now apply vmod_len in H2|now injection H1 as <- _].
  Qed.
  Lemma insert_len s f e pt s' : insert_vertex_list s f e pt = Ok s' -> length (verts s') = length (verts s).
  Proof.
    unfold insert_vertex_list. destruct f as [f|]; [|intros E; now injection E as <-]. destruct e as [e|]; [|intros E; now injection E as <-]. intros H. apply bind_ok in H as (vf & _ & H).
    destruct (v_next vf) as [n|]; [|now injection H as <-]. destruct (Nat.eqb n f); [now injection H as <-|]. apply bind_ok in H as (ve & _ & H). apply bind_ok in H as (s1 & H1 & H).
    assert (L1 : length (verts s1) = length (verts s)).
    { destruct (vneqb _ _); [now apply set_segment_len in H1|]. do 3 (apply bind_ok in H1 as (? & _ & H1)). now apply set_segment_len in H1. }
    apply bind_ok in H as (vf' & _ & H). apply bind_ok in H as (n' & _ & H). destruct (Nat.eqb n' f); [injection H as <-; exact L1|]. apply bind_ok in H as (d & _ & H). destruct d as [d0|]; [|injection H as <-; exact L1].
    apply bind_ok in H as ((s2 & prev & d) & H2 & H). apply mark_len in H2. cbn [fst] in H2. apply bind_ok in H as (s3 & H3 & H). injection H as <-. cbn [verts w_starts].
    rewrite <- L1, <- H2. destruct (Bool.eqb d d0); [now injection H3 as <-|]. destruct d0; [now apply vmod_len in H3|now apply local_min_len in H3].
  Qed.
  Lemma append_len (r : rd_state T) g r' : append_seg r g = Ok r' -> length (verts (rd_clip r')) = S (length (verts (rd_clip r))).
  Proof.
    unfold append_seg. cbn [new_vertex]. intros H. apply bind_ok in H as (s & H1 & H). injection H as <-. apply set_segment_len in H1. cbn in *. rewrite H1, app_length. cbn. lia.
  Qed.
  Lemma move_len from to (r r' : rd_state T) : read_moveto from to r = Ok r' -> length (verts (rd_clip r')) = S (length (verts (rd_clip r))).
  Proof.
    unfold read_moveto. intros H. apply bind_ok in H as (s & H1 & H). cbn [new_vertex] in H. apply bind_ok in H as (s2 & H2 & H). injection H as <-. apply vmod_len in H2. cbn in *. rewrite H2, app_length. cbn.
    assert (length (verts s) = length (verts (rd_clip r))); [|lia]. destruct (rd_first r); [now apply insert_len in H1|now injection H1 as <-].
  Qed.
  Lemma line_len from to (r r' : rd_state T) : read_lineto from to r = Ok r' -> length (verts (rd_clip r')) <= S (length (verts (rd_clip r))).
  Proof. unfold read_lineto. destruct (vneqb from to); intros H; [apply append_len in H; lia|injection H as <-; lia]. Qed.
  Lemma cubic_len from a b to (r r' : rd_state T) : read_cubicto from a b to r = Ok r' -> length (verts (rd_clip r')) <= 3 + length (verts (rd_clip r)).
  Proof.
    unfold read_cubicto. destruct (_ && _ && _); intros H; [apply line_len in H; lia|]. cbv zeta in H.
    destruct (bsplit_many _ _) as [|z0 [|z1 [|z2 [|z3 zs]]]]; try (apply append_len in H; lia).
    - apply bind_ok in H as (r1 & H1 & H). apply append_len in H1, H. lia.
    - apply bind_ok in H as (r1 & H1 & H). apply bind_ok in H as (r2 & H2 & H). apply append_len in H1, H2, H. lia.
  Qed.
  Lemma loop_len data types : forall i a b (r r' : rd_state T),
    traverse_loop (Funcs (Some read_moveto) (Some read_lineto) (Some read_cubicto)) data types i a b r = Ok r' ->
    length (verts (rd_clip r')) <= length (verts (rd_clip r)) + list_sum (map elem_room types).
  Proof.
    induction types as [|e types IH]; intros i a b r r' H; cbn [traverse_loop] in H; [injection H as <-; cbn; lia|]. cbn [map]. unfold list_sum in *. cbn [fold_right]. unfold elem_room at 1.
    destruct (Z.eqb e ty_moveto); [|destruct (Z.eqb e ty_lineto); [|destruct (Z.eqb_spec e ty_arcto) as [->|NA]; [|destruct (Z.eqb e ty_cubicto)]]].
    - do 2 (apply bind_ok in H as (? & _ & H)). cbv zeta in H. apply bind_ok in H as (r1 & H1 & H). cbn in H1. apply move_len in H1. apply IH in H. cbn [orb]. lia.
    - do 2 (apply bind_ok in H as (? & _ & H)). cbv zeta in H. apply bind_ok in H as (r1 & H1 & H). cbn in H1. apply line_len in H1. apply IH in H. cbn [orb]. lia.
    - apply IH in H. lia.
    - do 6 (apply bind_ok in H as (? & _ & H)). cbv zeta in H. apply bind_ok in H as (r1 & H1 & H). cbn in H1. apply cubic_len in H1. apply IH in H. cbn [orb]. lia.
    - apply IH in H. lia.
  Qed.
  Lemma C63_loaded_lemma ps pt : forall s s', add_paths s ps pt = Ok s' -> length (verts s') <= length (verts s) + list_sum (map (fun p => list_sum (map elem_room (p_types p))) ps).
  Proof.
    induction ps as [|p ps IH]; intros s s' H; cbn [add_paths] in H; [injection H as <-; cbn; lia|]. apply bind_ok in H as (s1 & H1 & H). apply IH in H. cbn [map]. unfold list_sum in *. cbn [fold_right].
    assert (length (verts s1) <= length (verts s) + fold_right Init.Nat.add 0 (map elem_room (p_types p))); [|lia].
    destruct (Nat.ltb 1 _); [|injection H1 as <-; lia]. unfold add_one_path in H1. apply bind_ok in H1 as (r & H1 & H2). apply insert_len in H2. unfold traverse in H1. apply loop_len in H1. cbn [rd_clip] in H1. unfold list_sum in H1. lia.
  Qed.
  Lemma sum_app l l' : list_sum (l ++ l') = list_sum l + list_sum l'.
  Proof. unfold list_sum. induction l; cbn; lia. Qed.
  Lemma calls_room (cs : list (pcall T)) : list_sum (map elem_room (p_types (run_calls cs))) = list_sum (map (fun c => match c with PCubic _ _ _ => 3 | _ => 1 end) cs).
  Proof.
    unfold run_calls. assert (K : forall p : path T, list_sum (map elem_room (p_types (fold_left do_call cs p))) = list_sum (map elem_room (p_types p)) + list_sum (map (fun c : pcall T => match c with PCubic _ _ _ => 3 | _ => 1 end) cs)); [|apply K].
    induction cs as [|c cs IH]; intros p; [unfold list_sum; cbn; lia|]. cbn [fold_left map]. rewrite IH. destruct c; cbn [do_call moveto lineto cubicto p_types]; rewrite map_app, sum_app; unfold list_sum; cbn; lia.
  Qed.
  Lemma outlines_room (os : list outline) : list_sum (map elem_room (p_types (run_calls (flat_map outline_calls os)))) = list_sum (map (@outline_room T) os).
  Proof.
    rewrite calls_room. induction os as [|o os IH]; [reflexivity|]. cbn [flat_map map]. rewrite map_app, sum_app, IH. reflexivity.
  Qed.
  Lemma all_room (ps : list (path_type * list (list (outline (T := T))))) : forall s s', add_all s ps = Ok s' -> length (verts s') <= length (verts s) + list_sum (map outline_room (all_outlines ps)).
  Proof.
    induction ps as [|[pt oss] ps IH]; intros s s' H; cbn [add_all] in H; [injection H as <-; cbn; lia|]. apply bind_ok in H as (s1 & H1 & H). apply IH in H. apply C63_loaded_lemma in H1. unfold all_outlines in *. cbn [flat_map snd]. rewrite map_app, sum_app.
    assert (E : list_sum (map (fun p => list_sum (map elem_room (p_types p))) (map (fun os => run_calls (flat_map outline_calls os)) oss)) = list_sum (map outline_room (concat oss))); [|lia].
    clear. induction oss as [|os oss IH]; [reflexivity|]. cbn [map concat]. rewrite map_app, sum_app, <- IH. unfold list_sum at 1. cbn [fold_right]. rewrite outlines_room. reflexivity.
  Qed.
End Load.
Lemma C63_whole_lemma en (ps : list (path_type * list (list (outline (T := R))))) (s s' : clipper R) : (forall l, Permutation (en_order en l) l) ->
  Forall (fun o => Forall drawing (snd o)) (all_outlines ps) -> add_all clipper0 ps = Ok s -> process_intersect en s = Ok s' ->
  length (verts s') <= list_sum (map outline_room (all_outlines ps)) + 9 * (list_sum (map outline_room (all_outlines ps)) * (list_sum (map outline_room (all_outlines ps)) - 1)).
Proof.
  intros PO D A H. pose proof (C63_drawn_lemma en ps s s' PO D A H) as K. apply all_room in A. cbn [verts clipper0 length] in A. rewrite Nat.add_0_l in A. revert A. generalize (list_sum (map outline_room (all_outlines ps))) as n. intros n A. clear -K A. nia.
Qed.
