(** A run of the clipper that never ends. *)
From Coq Require Import ZArith Bool List Lia Floats.SpecFloat.
From Verif Require Import Outcome Num Rmath Segment Path ScanLine VState VPath VBreak VAel VOut VMain VFuel ClipSpec ClipCases AelSpec RunCases.
Import ListNotations.
Local Open Scope out.

Section Endless.
  Variable lm : libm.
  Let N := B64 lm.
  Existing Instance N.
  Lemma walk_le n m k : forall s y, n <= m -> out_le (walk lm n k s y) (walk lm m k s y).
  Proof.
    induction k; intros s y L; [apply out_le_refl|]. cbn [walk]. apply bind_le; [now apply scan_at_le|]. intros s1.
    destruct (pop_scanline s1 y) as [[y'|] s2]; [|apply out_le_refl].
    apply bind_le; [now apply beam_le|]. intros s3. now apply IHk.
  Qed.
  Lemma sweep_walk n k : forall f s y s' y', walk lm n k s y = Ok (s', y') -> sweep n (k + f) s y = sweep n f s' y'.
  Proof.
    unfold N. induction k; intros f s y s' y' H; [injection H as -> ->; reflexivity|].
    cbn [walk] in H. cbn [Nat.add sweep]. apply bind_ok in H as (s1 & F1 & H). rewrite F1. cbn [bind].
    destruct (pop_scanline s1 y) as [[y1|] s2]; [|discriminate]. apply bind_ok in H as (s3 & F3 & H). rewrite F3. cbn [bind].
    now apply IHk.
  Qed.
  Lemma process_first en n s op fill s' y : first_line lm en s op fill = Ok (s', y) ->
    process en n s op fill = (do s <- sweep n n s' y ;; Ok (s, build_output s)).
  Proof.
    unfold N, first_line, process. intros H. apply bind_ok in H as (s1 & F1 & H). rewrite F1. cbn [bind].
    apply bind_ok in H as (s2 & F2 & H). rewrite F2. cbn [bind].
    destruct (pop_scanline s2 _) as [[y1|] s3]; [|discriminate]. now injection H as -> ->.
  Qed.
  (** If close_output does not end, nor does the run. *)
  Lemma endless en s op fill k s1 y1 s2 y2 s3 s4 y4 s5 : first_line lm en s op fill = Ok (s1, y1) ->
    walk lm 1000 k s1 y1 = Ok (s2, y2) -> scan_at 1000 s2 y2 = Ok s3 -> pop_scanline s3 y2 = (Some y4, s4) ->
    do_top_of_scanbeam s4 y4 = Ok s5 -> (forall n, close_output n s5 y4 = NoFuel) ->
    forall n, process en n s op fill = NoFuel.
  Proof.
    unfold N in *. intros F W SA P D C n. set (m := Nat.max n (1000 + k)). assert (L : 1000 <= m) by lia.
    apply (out_le_nofuel _ (process en m s op fill)); [apply process_le; lia|].
    rewrite (process_first _ _ _ _ _ _ _ F).
    pose proof (out_le_ok _ _ _ (walk_le 1000 m k s1 y1 L) W) as W'.
    assert (E : m = k + S (m - S k)) by lia. rewrite E at 2. rewrite (sweep_walk _ _ _ _ _ _ _ W'). cbn [sweep].
    unfold N in *. rewrite (out_le_ok _ _ _ (scan_at_le (N := B64 lm) 1000 m s2 y2 L) SA). cbn [bind]. rewrite P. unfold beam. rewrite D. cbn [bind].
    rewrite C. reflexivity.
  Qed.
End Endless.

Section W29.
  Variable lm : libm.
  Let N := B64 lm.
  Existing Instance N.
  Definition S29 : list (Z * Z) := [(3, 15); (6, 15); (6, 4); (3, 4)]%Z.
  Definition s30 := get clipper0 (load lm [S29] [box 5 1 14 11]).
  Definition f30 := get (clipper0, n_ofZ 0) (first_line lm env0 s30 op_union even_odd).
  Definition w30 := get (clipper0, n_ofZ 0) (walk lm 1000 2 (fst f30) (snd f30)).
  Definition u30 := get clipper0 (scan_at 1000 (fst w30) (snd w30)).
  Definition p30 := match pop_scanline u30 (snd w30) with (Some y, s) => (y, s) | (None, s) => (n_ofZ 0, s) end.
  Definition t30 := get clipper0 (do_top_of_scanbeam (snd p30) (fst p30)).
  Lemma s30_ok : load lm [S29] [box 5 1 14 11] = Ok s30.
  Proof. vm_compute. reflexivity. Qed.
  Lemma f30_ok : first_line lm env0 s30 op_union even_odd = Ok (fst f30, snd f30).
  Proof. vm_compute. reflexivity. Qed.
  Lemma w30_ok : walk lm 1000 2 (fst f30) (snd f30) = Ok (fst w30, snd w30).
  Proof. vm_compute. reflexivity. Qed.
  Lemma u30_ok : scan_at 1000 (fst w30) (snd w30) = Ok u30.
  Proof. vm_compute. reflexivity. Qed.
  Lemma p30_ok : pop_scanline u30 (snd w30) = (Some (fst p30), snd p30).
  Proof. vm_compute. reflexivity. Qed.
  Lemma t30_ok : do_top_of_scanbeam (snd p30) (fst p30) = Ok t30.
  Proof. vm_compute. reflexivity. Qed.
  Definition b30 (i : nat) : bound b64 := nth i (bounds t30) (Bound None None None None (n_ofZ 0) 0).
  Lemma b30_ok : nth_error (bounds t30) 2 = Some (b30 2) /\ nth_error (bounds t30) 3 = Some (b30 3).
  Proof. split; vm_compute; reflexivity. Qed.
  Lemma b30_next : obl t30 = Some 2 /\ ob_next (b30 2) = Some 3 /\ ob_next (b30 3) = Some 2 /\
    n_eqb (ob_stop_x (b30 2)) (ob_stop_x (b30 3)) = false.
  Proof. repeat split; vm_compute; reflexivity. Qed.
  Lemma t30_loop n : close_output n t30 (fst p30) = NoFuel.
  Proof.
    unfold close_output. destruct b30_ok as [B2 B3]. destruct b30_next as (O & N2 & N3 & NE).
    rewrite O. unfold at_. rewrite B2. cbn [of_opt bind]. rewrite N2. exact (close_loop_cycle t30 _ 2 3 _ _ B2 B3 N2 N3 NE n).
  Qed.
  Lemma run30 n : process env0 n s30 op_union even_odd = NoFuel.
  Proof. exact (endless lm _ _ _ _ _ _ _ _ _ _ _ _ _ f30_ok w30_ok u30_ok p30_ok t30_ok t30_loop n). Qed.
End W29.
Lemma C29_refuted_lemma : forall lm : libm, let N := B64 lm in
  exists s, load lm [[(3, 15); (6, 15); (6, 4); (3, 4)]%Z] [box 5 1 14 11] = Ok s /\
    forall n, process env0 n s op_union even_odd = NoFuel.
Proof. intros lm N. exists (s30 lm). split; [exact (s30_ok lm)|exact (run30 lm)]. Qed.
