(** Walking through the states of concrete runs. *)
From Coq Require Import ZArith Bool List Floats.SpecFloat.
From Verif Require Import Outcome Num Rmath Segment Path ScanLine VState VPath VBreak VAel VOut VMain ClipSpec ClipCases AelSpec.
Import ListNotations.
Local Open Scope out.

Section RunCases.
  Variable lm : libm.
  Let N := B64 lm.
  Existing Instance N.

  (** the state before the first scan line, and [k] scan lines later *)
  Definition first_line (en : env) (s : clipper b64) op fill : outcome (clipper b64 * b64) :=
    do s <- process_intersect en (w_op s op fill) ;;
    do s <- reset s ;;
    match pop_scanline s (n_neg n_huge) with
    | (None, s) => Throw
    | (Some y, s) => Ok (s, y)
    end.
  Fixpoint walk (n k : nat) (s : clipper b64) (y : b64) : outcome (clipper b64 * b64) :=
    match k with
    | O => Ok (s, y)
    | S k =>
      do s <- scan_at n s y ;;
      match pop_scanline s y with
      | (None, s) => Throw
      | (Some y, s) => do s <- beam n s y ;; walk n k s y
      end
    end.
  Lemma first_line_seen en n s op fill s' y : first_line en s op fill = Ok (s', y) -> seen en n s op fill s' y.
  Proof.
    unfold first_line. intros H. apply bind_ok in H as (s1 & F1 & H). apply bind_ok in H as (s2 & F2 & H).
    destruct (pop_scanline s2 (n_neg n_huge)) as [[y'|] s3] eqn:P; [|discriminate]. injection H as -> ->.
    eapply seen_first; eauto.
  Qed.
  Lemma walk_seen en n op fill k : forall s0 s y s' y', seen en n s0 op fill s y -> walk n k s y = Ok (s', y') ->
    seen en n s0 op fill s' y'.
  Proof.
    induction k; simpl; intros s0 s y s' y' HS H; [injection H as -> ->; auto|].
    apply bind_ok in H as (s1 & F1 & H). destruct (pop_scanline s1 y) as [[y1|] s2] eqn:P; [|discriminate].
    apply bind_ok in H as (s3 & F3 & H). eapply IHk; [|exact H]. eapply seen_next; eauto.
  Qed.
  (** the links of the active edge list read off the store *)
  Fixpoint ael_list (k : nat) (s : clipper b64) (c : option nat) : list nat :=
    match k, c with
    | S k, Some i =>
      i :: match nth_error (edges s) i with Some e => ael_list k s (e_next e) | None => [] end
    | _, _ => []
    end.
End RunCases.

(** Deciding the predicates of AelSpec. *)
Section Decide.
  Context {T : Type} {N : Num T}.
  Fixpoint lsegb (es : list (edge T)) (p : option nat) (l : list nat) (n : option nat) : bool :=
    match l with
    | [] => true
    | i :: r =>
      match nth_error es i with
      | Some e => ptr_eqb (e_prev e) p && ptr_eqb (e_next e) (hd_or r n) && lsegb es (Some i) r n
      | None => false
      end
    end.
  Fixpoint nodupb (l : list nat) : bool :=
    match l with [] => true | i :: r => negb (existsb (Nat.eqb i) r) && nodupb r end.
  Definition activeb (s : clipper T) l : bool :=
    ptr_eqb (ael s) (hd_or l None) && lsegb (edges s) None l None && nodupb l.
  Fixpoint orderedb (es : list (edge T)) (l : list nat) : bool :=
    match l with
    | [] => true
    | i :: r =>
      forallb (fun j => match nth_error es i, nth_error es j with
        | Some e, Some f => n_leb (e_x e) (e_x f) | _, _ => true end) r && orderedb es r
    end.
  Lemma ptr_eqb_eq p q : ptr_eqb p q = true -> p = q.
  Proof. destruct p, q; simpl; intros H; try discriminate; auto. apply Nat.eqb_eq in H. congruence. Qed.
  Lemma lsegb_ok es l : forall p n, lsegb es p l n = true -> lseg es p l n.
  Proof.
    induction l as [|i r IH]; simpl; intros p n H; auto.
    destruct (nth_error es i) as [e|]; [|discriminate]. exists e.
    apply andb_prop in H as [H H3]. apply andb_prop in H as [H1 H2]. apply ptr_eqb_eq in H1, H2. auto.
  Qed.
  Definition validb (x : b64) : bool := match x with S754_nan => false | _ => true end.
  Definition xvalidb (es : list (edge b64)) (l : list nat) : bool :=
    forallb (fun i => match nth_error es i with Some e => validb (e_x e) | None => true end) l.
  Lemma xvalidb_ok lm es l : xvalidb es l = true -> @xvalid b64 (B64 lm) (B64_ord lm) es l.
  Proof.
    unfold xvalidb. rewrite forallb_forall. intros H i e Hi E. specialize (H i Hi). rewrite E in H.
    intros K. simpl in K. now rewrite K in H.
  Qed.
  Lemma nodupb_ok l : nodupb l = true -> NoDup l.
  Proof.
    induction l as [|i r IH]; simpl; intros H; [constructor|]. apply andb_prop in H as [H1 H2]. constructor; auto.
    intros K. apply negb_true_iff in H1. rewrite (proj2 (existsb_exists _ _)) in H1; [discriminate|].
    exists i. split; auto. apply Nat.eqb_refl.
  Qed.
  Lemma activeb_ok s l : activeb s l = true -> active s l.
  Proof.
    unfold activeb. intros H. apply andb_prop in H as [H H3]. apply andb_prop in H as [H1 H2].
    split; [now apply ptr_eqb_eq|split; [now apply lsegb_ok|now apply nodupb_ok]].
  Qed.
  Lemma orderedb_ok es l : orderedb es l = true <-> ordered es l.
  Proof.
    induction l as [|i r IH]; simpl; [split; auto; constructor|].
    rewrite andb_true_iff, IH, forallb_forall. split.
    - intros [H1 H2]. constructor; auto. apply Forall_forall. intros j Hj e f E F.
      specialize (H1 j Hj). now rewrite E, F in H1.
    - intros H. inversion H as [|a b H1 H2]; subst. split; auto. intros j Hj.
      rewrite Forall_forall in H1. specialize (H1 j Hj).
      destruct (nth_error es i) eqn:E; auto. destruct (nth_error es j) eqn:F; auto.
  Qed.
  Lemma not_ordered es l : orderedb es l = false -> ~ ordered es l.
  Proof. intros H K. apply orderedb_ok in K. congruence. Qed.
End Decide.

(** The corners of the second polygon in negative orientation, one of them with a
    horizontal minimum. *)
Section W25.
  Variable lm : libm.
  Let N := B64 lm.
  Existing Instance N.
  Definition S25 : list (Z * Z) := [(7, 17); (19, 17); (19, 12); (7, 12)]%Z.
  Definition s25 := get clipper0 (load lm [S25] [box 0 7 13 18]).
  Definition f25 := get (clipper0, n_ofZ 0) (first_line lm env0 s25 op_union negative).
  Definition w25 := get (clipper0, n_ofZ 0) (walk lm 1000 1 (fst f25) (snd f25)).
  Definition m25 := get clipper0 (insert_local_minima_to_ael (fst w25) (snd w25)).
  Lemma s25_ok : load lm [S25] [box 0 7 13 18] = Ok s25.
  Proof. vm_compute. reflexivity. Qed.
  Lemma f25_ok : first_line lm env0 s25 op_union negative = Ok (fst f25, snd f25).
  Proof. vm_compute. reflexivity. Qed.
  Lemma w25_ok : walk lm 1000 1 (fst f25) (snd f25) = Ok (fst w25, snd w25).
  Proof. vm_compute. reflexivity. Qed.
  Lemma m25_ok : insert_local_minima_to_ael (fst w25) (snd w25) = Ok m25.
  Proof. vm_compute. reflexivity. Qed.
  Lemma ael25_before : activeb (fst w25) [0; 1] = true /\ orderedb (edges (fst w25)) [0; 1] = true.
  Proof. split; vm_compute; reflexivity. Qed.
  Lemma ael25_after : activeb m25 [0; 1; 3; 2] = true /\ orderedb (edges m25) [0; 1; 3; 2] = false.
  Proof. split; vm_compute; reflexivity. Qed.
End W25.
Lemma C25_refuted_lemma : forall lm : libm, let N := B64 lm in
  exists s s1 y l s2 l', loaded s /\ seen env0 1000 s op_union negative s1 y /\
    active s1 l /\ ordered (edges s1) l /\
    insert_local_minima_to_ael s1 y = Ok s2 /\ active s2 l' /\ ~ ordered (edges s2) l'.
Proof.
  intros lm N. exists (s25 lm), (fst (w25 lm)), (snd (w25 lm)), [0; 1], (m25 lm), [0; 1; 3; 2].
  split; [exact (load_loaded _ _ _ _ (s25_ok lm))|].
  split; [exact (walk_seen lm _ _ _ _ _ _ _ _ _ _ (first_line_seen lm _ _ _ _ _ _ _ (f25_ok lm)) (w25_ok lm))|].
  destruct (ael25_before lm) as [B1 B2]. destruct (ael25_after lm) as [A1 A2].
  split; [now apply activeb_ok|]. split; [now apply orderedb_ok|].
  split; [exact (m25_ok lm)|]. split; [now apply activeb_ok|now apply not_ordered].
Qed.

Section W24.
  Variable lm : libm.
  Let N := B64 lm.
  Existing Instance N.
  (** two boxes, at the second scan line *)
  Definition s24 := get clipper0 (load lm [box 0 0 10 10] [box 5 5 15 15]).
  Definition f24 := get (clipper0, n_ofZ 0) (first_line lm env0 s24 op_intersection positive).
  Definition w24 := get (clipper0, n_ofZ 0) (walk lm 1000 1 (fst f24) (snd f24)).
  Definition ops24 : list ael_op := [OpResort; OpTake 1; OpInsert 1; OpDelete 0].
  Definition a24 := get clipper0 (ael_run (fst w24) ops24).
  Definition t24 := get clipper0 (take_from_ael (fst w24) 1).
  Definition i24 := get clipper0 (insert_into_ael t24 1).
  Lemma f24_ok : first_line lm env0 s24 op_intersection positive = Ok (fst f24, snd f24).
  Proof. vm_compute. reflexivity. Qed.
  Lemma w24_ok : walk lm 1000 1 (fst f24) (snd f24) = Ok (fst w24, snd w24).
  Proof. vm_compute. reflexivity. Qed.
  Lemma w24_seen : seen env0 1000 s24 op_intersection positive (fst w24) (snd w24).
  Proof. exact (walk_seen lm _ _ _ _ _ _ _ _ _ _ (first_line_seen lm _ _ _ _ _ _ _ f24_ok) w24_ok). Qed.
  Lemma w24_list : activeb (fst w24) [0; 1] = true /\ orderedb (edges (fst w24)) [0; 1] = true.
  Proof. split; vm_compute; reflexivity. Qed.
  Lemma a24_ok : ael_run (fst w24) ops24 = Ok a24.
  Proof. vm_compute. reflexivity. Qed.
  Lemma t24_list : activeb t24 [0] = true /\ orderedb (edges t24) [0] = true /\ xvalidb (edges t24) [1; 0] = true.
  Proof. repeat split; vm_compute; reflexivity. Qed.
  Lemma t24_ok : take_from_ael (fst w24) 1 = Ok t24 /\ insert_into_ael t24 1 = Ok i24.
  Proof. split; vm_compute; reflexivity. Qed.
End W24.
Lemma C24_case_lemma (lm : libm) : let N := B64 lm in
  exists s y l ops m s', seen env0 1000 (s24 lm) op_intersection positive s y /\ active s l /\ length l = 2 /\
    ops = [OpResort; OpTake 1; OpInsert 1; OpDelete 0] /\ members l ops m /\ m = [1] /\ ael_run s ops = Ok s'.
Proof.
  intros N. exists (fst (w24 lm)), (snd (w24 lm)), [0; 1], ops24, [1], (a24 lm).
  split; [exact (w24_seen lm)|]. destruct (w24_list lm) as [B1 _]. split; [exact (activeb_ok _ _ B1)|].
  split; [reflexivity|]. split; [reflexivity|].
  split; [|split; [reflexivity|exact (a24_ok lm)]].
  apply mem_resort. apply (mem_take 1 [0] []). simpl. apply mem_insert; [simpl; intuition discriminate|].
  apply (mem_delete 0 [1] []). apply mem_nil.
Qed.
Lemma C25_case_lemma (lm : libm) : let N := B64 lm in
  exists s y s1 s2, seen env0 1000 (s24 lm) op_intersection positive s y /\
    take_from_ael s 1 = Ok s1 /\ active s1 [0] /\ ordered (edges s1) [0] /\ xvalid (edges s1) [1; 0] /\
    insert_into_ael s1 1 = Ok s2.
Proof.
  intros N. exists (fst (w24 lm)), (snd (w24 lm)), (t24 lm), (i24 lm).
  destruct (t24_list lm) as (B1 & B2 & B3). destruct (t24_ok lm) as [T1 T2].
  split; [exact (w24_seen lm)|]. split; [exact T1|]. split; [exact (activeb_ok _ _ B1)|].
  split; [exact (proj1 (orderedb_ok _ _) B2)|]. split; [exact (xvalidb_ok lm _ _ B3)|exact T2].
Qed.
