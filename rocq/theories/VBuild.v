(** add_path, contour by contour. *)
From Coq Require Import ZArith Bool List Lia.
From Verif Require Import Outcome Num Order Rmath Segment Path PathSpec PathProofs VState VPath VLemmas AelSpec VAelProofs VAelRun RingSpec MarkProofs VRing.
Import ListNotations.
Local Open Scope out.

Lemma sub_in {A} (a b : list A) : subseq a b -> forall x, In x a -> In x b.
Proof. induction 1; simpl; intros z; [tauto| |]; intros K; intuition. Qed.
Lemma sub_nodup {A} (a b : list A) : subseq a b -> NoDup b -> NoDup a.
Proof.
  induction 1 as [|x a b H IH|x a b H IH]; intros ND; auto; inversion ND; subst; auto.
  constructor; auto. intros K. eapply sub_in in K; eauto.
Qed.
Lemma sub_app {A} (a b : list A) : subseq a b -> forall c d, subseq c d -> subseq (a ++ c) (b ++ d).
Proof. induction 1; intros; simpl; auto; [apply sub_skip; auto|apply sub_keep; auto]. Qed.

Lemma list_eq_nil {A} (l : list A) : l = [] \/ l <> [].
Proof. destruct l; [now left|right; discriminate]. Qed.

Section Build.
  Context {T : Type} {N : Num T}.
  Implicit Types vs : list (vertex T).
  Implicit Types s : clipper T.

  Definition plain (v : vertex T) : Prop := v_min v = false /\ v_max v = false.
  (** The marks of the ring [f :: r] *)
  Definition extremes (Y : nat -> T) (f : nat) (r : list nat) (m : list (nat * bool)) : Prop :=
    exists d0 m0 d, back Y f (rev r ++ [f]) = Some d0 /\ marks Y d0 f r = (m0, d) /\
      m = m0 ++ (if Bool.eqb d d0 then [] else [(last r f, negb d0)]).
  Lemma removelast_snoc {A} (l : list A) a : l <> [] -> removelast l ++ [last l a] = l.
  Proof. intros H. symmetry. now apply app_removelast_last. Qed.
  Lemma extremes_sub Y f r m : r <> [] -> extremes Y f r m -> subseq (map fst m) (f :: r).
  Proof.
    intros NE (d0 & m0 & d & B & M & ->). apply marks_subseq in M. rewrite map_app.
    rewrite <- (removelast_snoc r f NE). change (f :: removelast r ++ [last r f]) with ((f :: removelast r) ++ [last r f]).
    rewrite last_last. apply sub_app; auto. destruct (Bool.eqb d d0); simpl; [apply sub_skip; constructor|apply sub_keep; constructor].
  Qed.
  (** From the closed ring to the queued minima: the end of insert_vertex_list *)
  Definition mark_ring s (first : nat) (pt : path_type) : outcome (clipper T) :=
    do vf <- at_ (verts s) first ;;
    do n <- deref (v_next vf) ;;
    if Nat.eqb n first then Ok s else
    do d <- start_dir (length (verts s)) (verts s) first first ;;
    match d with
    | None => Ok s
    | Some d0 =>
      do r <- mark_extrema (length (verts s)) s pt first first n d0 ;;
      let '(s, (prev, d)) := r in
      do s <- (if Bool.eqb d d0 then Ok s
               else if d0 then vmod s prev (set_vmax true)
               else add_local_min s prev pt) ;;
      Ok (w_starts s (starts s ++ [first]))
    end.
  Lemma insert_unfold s first end_ pt : insert_vertex_list s (Some first) (Some end_) pt =
    do vf <- at_ (verts s) first ;;
    match v_next vf with
    | None => Ok s
    | Some n =>
      if Nat.eqb n first then Ok s else
      do ve <- at_ (verts s) end_ ;;
      do s <- (if vneqb (v_pt vf) (v_pt ve) then set_segment s (Some end_) first (SLine (v_pt vf))
               else
                 do p <- deref (v_prev ve) ;;
                 do vp <- at_ (verts s) p ;;
                 do g <- of_opt NullDeref (v_seg vp) ;;
                 set_segment s (Some p) first g) ;;
      mark_ring s first pt
    end.
  Proof. reflexivity. Qed.
  Lemma nodup_len (l : list nat) n : NoDup l -> (forall i, In i l -> i < n) -> length l <= n.
  Proof. intros ND H. rewrite <- (seq_length n 0). apply NoDup_incl_length; auto. intros i Hi. apply in_seq. apply H in Hi. lia. Qed.
  Lemma last_in {A} (l : list A) a : In (last l a) (a :: l).
  Proof. revert a; induction l as [|x l IH]; intros a; [now left|]. rewrite last_cons. right. apply IH. Qed.
  Lemma last_nin (a : nat) l : NoDup (a :: l) -> l <> [] -> last l a <> a.
  Proof.
    intros ND NE K. inversion ND as [|? ? H _]; subst. apply H. rewrite <- K at 1.
    rewrite <- (removelast_snoc l a NE) at 2. apply in_or_app. right. now left.
  Qed.
  Lemma marks_two pt a b s : apply_marks pt (a ++ b) s = apply_marks pt b (apply_marks pt a s).
  Proof. apply fold_left_app. Qed.
  Lemma mark_ring_run s f r gs pt : strand (verts s) f (r ++ [f]) gs -> NoDup (f :: r) -> r <> [] ->
    (forall i v, In i (f :: r) -> nth_error (verts s) i = Some v -> plain v) ->
    if level gs then mark_ring s f pt = Ok s
    else exists m, extremes (height (verts s)) f r m /\
      mark_ring s f pt = Ok (w_starts (apply_marks pt m s) (starts s ++ [f])).
  Proof.
    intros S ND NE PL. pose proof (level_back _ _ _ _ S) as LB.
    assert (NF : ~ In f r) by now inversion ND.
    assert (exists vf, nth_error (verts s) f = Some vf) as [vf F].
    { eapply strand_some; eauto. apply in_or_app. right. now left. }
    assert (LEN : length r < length (verts s)).
    { assert (length (f :: r) <= length (verts s)); [|simpl in *; lia]. apply nodup_len; auto. intros i Hi.
      destruct (strand_some _ _ _ _ i S) as [v V]; [apply in_or_app; destruct Hi as [->|]; auto; right; now left|].
      now apply nth_lt in V. }
    destruct r as [|n r']; [congruence|]. set (r := n :: r') in *.
    assert (v_next vf = Some n).
    { destruct gs; simpl in S; [contradiction|]. destruct S as [(va & vb & A & B & C & _) _]. congruence. }
    assert (E : mark_ring s f pt =
      match back (height (verts s)) f (rev r ++ [f]) with
      | None => Ok s
      | Some d0 =>
        do r <- mark_extrema (length (verts s)) s pt f f n d0 ;;
        let '(s, (prev, d)) := r in
        do s <- (if Bool.eqb d d0 then Ok s
                 else if d0 then vmod s prev (set_vmax true)
                 else add_local_min s prev pt) ;;
        Ok (w_starts s (starts s ++ [f]))
      end).
    { unfold mark_ring. unfold at_ at 1. rewrite F. cbn [of_opt bind]. rewrite H. cbn [deref of_opt bind].
      replace (Nat.eqb n f) with false by (symmetry; apply Nat.eqb_neq; intros ->; apply NF; now left).
      rewrite (start_dir_back (verts s) f (rev r)); eauto.
      - apply strand_backs in S. cbn [rev] in S. rewrite rev_app_distr in S. exact S.
      - rewrite <- in_rev. exact NF.
      - rewrite rev_length. exact LEN. }
    rewrite E. clear E. destruct (level gs).
    - destruct LB as [-> _]; auto.
    - destruct (back (height (verts s)) f (rev r ++ [f])) as [d0|] eqn:B; [|destruct LB as [_ K]; discriminate K; auto].
      destruct (marks (height (verts s)) d0 f r) as [m0 d] eqn:M.
      rewrite (mark_extrema_run pt f r (length (verts s)) s f n d0 gs m0 d); eauto; [|intros i v Hi V; now apply (PL i v)|lia].
      cbn [bind]. exists (m0 ++ (if Bool.eqb d d0 then [] else [(last r f, negb d0)])). split; [exists d0, m0, d; auto|].
      pose proof (marks_subseq _ _ _ _ _ _ M) as SUB.
      assert (NIL : ~ In (last r f) (map fst m0)).
      { intros K. eapply sub_in in K; eauto. rewrite <- (removelast_snoc r f NE) in ND.
        change (f :: removelast r ++ [last r f]) with ((f :: removelast r) ++ [last r f]) in ND.
        apply NoDup_remove_2 in ND. rewrite app_nil_r in ND. contradiction. }
      assert (exists vl, nth_error (verts s) (last r f) = Some vl) as [vl VL].
      { eapply strand_some; eauto. apply in_or_app. destruct (last_in r f); auto. right. left. auto. }
      assert (VL' : nth_error (verts (apply_marks pt m0 s)) (last r f) = Some vl) by now rewrite marks_other.
      assert (PLl : plain vl) by (eapply (PL (last r f)); eauto; apply last_in).
      assert (ST : forall m, starts (apply_marks pt m s) = starts s) by (intros m; now rewrite marks_rest).
      rewrite marks_two. destruct (Bool.eqb d d0); [cbn [bind apply_marks fold_left]; fold (apply_marks pt m0 s); now rewrite ST|].
      destruct d0.
      + rewrite (vmod_run _ _ _ _ VL'). cbn [bind apply_marks fold_left mark1 snd fst negb starts w_verts]. fold (apply_marks pt m0 s). now rewrite ST.
      + unfold add_local_min. unfold at_. rewrite VL'. cbn [of_opt bind]. destruct PLl as [-> _].
        rewrite (vmod_run _ _ _ _ VL'). cbn [bind apply_marks fold_left mark1 snd fst negb starts w_verts w_lmins]. fold (apply_marks pt m0 s). now rewrite ST.
  Qed.

  (** *** Reading *)
  (** [r] has read [gs] since the start [p0]; before, the clipper was [s]. *)
  Definition reading s pt p0 (gs : list (seg T)) (r : rd_state T) : Prop :=
    let f := length (verts s) in
    exists vs, rd_clip r = w_verts s vs /\ rd_type r = pt /\ rd_first r = Some f /\ rd_prev r = Some (f + length gs) /\
      length vs = S (f + length gs) /\ (forall i, i < f -> nth_error vs i = nth_error (verts s) i) /\
      (forall i v, f <= i -> nth_error vs i = Some v -> plain v) /\
      strand vs f (seq (S f) (length gs)) gs /\
      exists vf, nth_error vs f = Some vf /\ v_pt vf = p0 /\ (gs = [] -> v_next vf = None).

  Lemma removelast_seq k : forall f, removelast (f :: seq (S f) k) = seq f k.
  Proof. intros f. change (f :: seq (S f) k) with (seq f (S k)). rewrite seq_S. apply removelast_last. Qed.
  Lemma last_seq k : forall f, last (seq (S f) k) f = f + k.
  Proof. intros f. rewrite <- (last_cons (seq (S f) k) f 0). change (f :: seq (S f) k) with (seq f (S k)). rewrite seq_S. apply last_last. Qed.

  Lemma set_segment_run s p c g vp vc : nth_error (verts s) p = Some vp -> nth_error (verts s) c = Some vc ->
    set_segment s (Some p) c g =
      Ok (w_verts s (upd (upd (verts s) p (fun v => set_vseg (Some g) (set_vnext (Some c) v))) c
        (fun v => Vertex (seg_target g) (v_seg v) (v_next v) (Some p) false false))).
  Proof.
    intros P C. unfold set_segment. cbn [deref of_opt bind]. rewrite (vmod_run _ _ _ _ P). cbn [bind].
    assert (exists x, nth_error (verts (w_verts s (upd (verts s) p (fun v => set_vseg (Some g) (set_vnext (Some c) v))))) c = Some x) as [x X].
    { cbn [verts w_verts]. rewrite nth_upd, C. destruct (Nat.eqb p c); simpl; eauto. }
    rewrite (vmod_run _ _ _ _ X). reflexivity.
  Qed.
  (** Linking [p] to [c] *)
  Lemma set_segment_vs vs p c g vp vc : nth_error vs p = Some vp -> nth_error vs c = Some vc ->
    let vs' := upd (upd vs p (fun v => set_vseg (Some g) (set_vnext (Some c) v))) c
        (fun v => Vertex (seg_target g) (v_seg v) (v_next v) (Some p) false false) in
    length vs' = length vs /\ link vs' p c g /\ (forall i, i <> p -> i <> c -> nth_error vs' i = nth_error vs i) /\
    (forall i, i <> p -> out_eq vs vs' i) /\ (forall i, i <> c -> in_eq vs vs' i) /\
    (forall i v, nth_error vs' i = Some v -> exists w, nth_error vs i = Some w /\ (plain w -> plain v)).
  Proof.
    intros P C vs'. unfold vs'. clear vs'. csplit.
    - now rewrite !length_upd.
    - destruct (Nat.eq_dec p c) as [->|NE].
      + rewrite P in C. injection C as <-.
        eexists _, _. split; [rewrite upd_upd_same; apply (nth_upd_same _ _ _ _ P)|].
        split; [rewrite upd_upd_same; apply (nth_upd_same _ _ _ _ P)|]. simpl. auto.
      + eexists _, _. split; [rewrite nth_upd_other by auto; apply (nth_upd_same _ _ _ _ P)|].
        split; [apply nth_upd_same; rewrite nth_upd_other by auto; exact C|]. simpl. auto.
    - intros i H1 H2. rewrite !nth_upd_other; auto.
    - intros i H v V. rewrite nth_upd, nth_upd_other, V by auto. destruct (Nat.eqb c i); simpl; eauto.
    - intros i H v V. rewrite nth_upd_other, nth_upd, V by auto. destruct (Nat.eqb p i); simpl; eauto.
    - intros i v V. rewrite !nth_upd in V. unfold plain.
      destruct (nth_error vs i) as [w|]; destruct (Nat.eqb c i); destruct (Nat.eqb p i); simpl in V; try discriminate;
        injection V as <-; exists w; simpl; auto.
  Qed.

  Lemma append_run s pt p0 gs r g : reading s pt p0 gs r ->
    exists r', append_seg r g = Ok r' /\ reading s pt p0 (gs ++ [g]) r'.
  Proof.
    intros (vs & RC & RT & RF & RP & LV & OLD & PL & ST & vf & VF & VP & VN).
    set (f := length (verts s)) in *. set (k := length gs) in *.
    unfold append_seg, new_vertex. rewrite RC, RP, RF, RT. cbn [verts w_verts].
    set (vs1 := vs ++ [vertex0]).
    assert (P : exists vp, nth_error vs (f + k) = Some vp) by (apply nth_some; lia). destruct P as [vp P].
    assert (P1 : nth_error vs1 (f + k) = Some vp) by (unfold vs1; rewrite nth_error_app1; auto; lia).
    assert (C1 : nth_error vs1 (length vs) = Some vertex0) by apply nth_snoc_last.
    change (w_verts (w_verts s vs) vs1) with (w_verts s vs1).
    rewrite (set_segment_run (w_verts s vs1) _ _ g vp vertex0 P1 C1). cbn [bind verts w_verts].
    destruct (set_segment_vs vs1 _ _ g vp vertex0 P1 C1) as (L2 & LK & OT & OE & IE & PLN).
    set (vs2 := upd (upd vs1 _ _) _ _) in *. clearbody vs2.
    eexists. split; [reflexivity|]. fold f. assert (L1 : length vs1 = S (length vs)) by (unfold vs1; rewrite app_length; simpl; lia).
    exists vs2. cbn [rd_clip rd_type rd_first rd_prev]. fold f. rewrite app_length. fold k. simpl length.
    csplit; auto; try (f_equal; lia); try lia.
    - intros i Hi. rewrite OT by lia. unfold vs1. rewrite nth_error_app1 by lia. auto.
    - intros i v Hi V. destruct (PLN _ _ V) as (w & W & K). apply K. unfold vs1 in W.
      destruct (Nat.lt_ge_cases i (length vs)) as [Q|Q].
      + rewrite nth_error_app1 in W by auto. eauto.
      + rewrite nth_error_app2 in W by auto. destruct (i - length vs) as [|[|?]]; simpl in W; try discriminate. injection W as <-. split; reflexivity.
    - rewrite seq_app. apply strand_app; [now rewrite seq_length|]. split.
      + apply (strand_frame vs); auto.
        * intros i Hi. rewrite removelast_seq in Hi. apply in_seq in Hi. intros v V. apply OE; [lia|].
          unfold vs1. rewrite nth_error_app1; auto. lia.
        * intros i Hi. apply in_seq in Hi. intros v V. apply IE; [lia|]. unfold vs1. rewrite nth_error_app1; auto. lia.
      + rewrite last_seq. simpl. replace (S (f + k)) with (length vs) by lia. auto.
    - destruct (IE f ltac:(lia) vf) as (w & W & W1 & W2). { unfold vs1. rewrite nth_error_app1; auto. lia. }
      exists w. csplit; auto; [congruence|]. intros K. now destruct gs.
  Qed.
  Lemma append_all s pt p0 l : forall gs r, reading s pt p0 gs r ->
    exists r', fold_left (fun o g => bind o (fun r => append_seg r g)) l (Ok r) = Ok r' /\ reading s pt p0 (gs ++ l) r'.
  Proof.
    induction l as [|g l IH]; intros gs r H.
    - exists r. rewrite app_nil_r. auto.
    - destruct (append_run _ _ _ _ _ g H) as (r1 & E & H1). cbn [fold_left bind]. rewrite E.
      destruct (IH _ _ H1) as (r2 & E2 & H2). exists r2. rewrite <- app_assoc in H2. auto.
  Qed.
  Definition ring_funcs := Funcs (Some read_moveto) (Some read_lineto) (Some (@read_cubicto T N)).
  Lemma split_y_len (b : bezier T) : length (split_y b) <= 2.
  Proof.
    unfold split_y. repeat match goal with |- context[if ?c then _ else _] => destruct c end; simpl; lia.
  Qed.
  Lemma split_loop_len ts : forall (b : bezier T) t, length (split_loop b t ts) = S (length ts).
  Proof. induction ts as [|t ts IH]; intros b t0; [reflexivity|]. cbn [split_loop]. destruct (bsplit _ _). simpl. now rewrite IH. Qed.
  (** What one drawing call does *)
  Lemma draw_pieces from c r : drawing c ->
    deliver1 ring_funcs (hd (EMove from from) (events_of from [c])) r =
      fold_left (fun o g => bind o (fun r => append_seg r g)) (pieces from c) (Ok r).
  Proof.
    destruct c as [p|p|a b p]; intros D; [contradiction| |]; cbn [events_of hd deliver1 ring_funcs f_line f_cubic pieces].
    - unfold read_lineto, line_piece. destruct (vneqb from p); reflexivity.
    - unfold read_cubicto, level4. destruct (_ && _ && _).
      + unfold read_lineto, line_piece. destruct (vneqb from p); reflexivity.
      + assert (L : length (filter in_open (split_y (Bez from a b p))) <= 2).
        { eapply Nat.le_trans; [|apply (split_y_len (Bez from a b p))]. clear. induction (split_y _) as [|x l IH]; simpl; auto. destruct (in_open x); simpl; lia. }
        destruct (filter in_open (split_y (Bez from a b p))) as [|t1 [|t2 [|t3 ts]]]; [reflexivity| | |simpl in L; lia].
        * pose proof (split_loop_len [t1] (Bez from a b p) (n_ofZ 1)) as K. cbn [bsplit_many].
          destruct (split_loop _ _ [t1]) as [|z0 [|z1 [|? ?]]]; try discriminate K. cbn [map fold_left bind].
          destruct (append_seg r _); reflexivity.
        * pose proof (split_loop_len [t1; t2] (Bez from a b p) (n_ofZ 1)) as K. cbn [bsplit_many].
          destruct (split_loop _ _ [t1; t2]) as [|z0 [|z1 [|z2 [|? ?]]]]; try discriminate K. cbn [map fold_left bind].
          destruct (append_seg r _); cbn [bind]; auto.
  Qed.
  Lemma draw_all s pt p0 cs : forall from gs r, Forall drawing cs -> reading s pt p0 gs r ->
    exists r', deliver ring_funcs (events_of from cs) r = Ok r' /\ reading s pt p0 (gs ++ all_pieces from cs) r'.
  Proof.
    induction cs as [|c cs IH]; intros from gs r D H.
    - exists r. simpl. rewrite app_nil_r. auto.
    - inversion D as [|? ? D1 D2]; subst. destruct (append_all _ _ _ (pieces from c) _ _ H) as (r1 & E1 & H1).
      pose proof (draw_pieces from c r D1) as DP. rewrite E1 in DP.
      destruct (IH (endpoint c) _ _ D2 H1) as (r2 & E2 & H2). exists r2. cbn [all_pieces]. rewrite app_assoc. split; auto.
      assert (EV : exists e, events_of from [c] = [e] /\ events_of from (c :: cs) = e :: events_of (endpoint c) cs) by (destruct c; eexists; split; reflexivity).
      destruct EV as (e & Ee & ->). rewrite Ee in DP. cbn [hd] in DP. cbn [deliver]. rewrite DP. exact E2.
  Qed.

  (** *** Closing *)
  Definition flagged vs (l : list nat) (m : list (nat * bool)) : Prop :=
    forall i v, In i l -> nth_error vs i = Some v -> (v_min v = true <-> In (i, true) m) /\ (v_max v = true <-> In (i, false) m).
  Definition grown s s' : Prop :=
    s' = w_starts (w_lmins (w_verts s (verts s')) (lmins s') (minima s')) (starts s') /\
    length (verts s) <= length (verts s') /\ forall i, i < length (verts s) -> nth_error (verts s') i = nth_error (verts s) i.
  Definition added s pt (gs : list (seg T)) s' : Prop :=
    let f := length (verts s) in
    grown s s' /\
    if accepted gs then
      exists r m, ring (verts s') (f :: r) gs /\ r <> [] /\ (forall i, In i r -> f < i) /\
        extremes (height (verts s')) f r m /\ flagged (verts s') (f :: r) m /\
        starts s' = starts s ++ [f] /\ lmins s' = lmins s ++ map (fun x => Lmin (fst x) pt) (filter snd m) /\
        minima s' = minima s ++ seq (length (lmins s)) (length (filter snd m))
    else starts s' = starts s /\ lmins s' = lmins s /\ minima s' = minima s.
  Lemma extremes_ext (Y Z : nat -> T) f r m : (forall i, In i (f :: r) -> Z i = Y i) -> extremes Y f r m -> extremes Z f r m.
  Proof.
    intros E (d0 & m0 & d & B & M & ->). exists d0, m0, d. csplit; auto; [|rewrite (marks_ext Y Z); auto].
    rewrite <- B. assert (K : forall i, In i (f :: rev r ++ [f]) -> Z i = Y i).
    { intros i Hi. apply E. simpl in *. rewrite in_app_iff, <- in_rev in Hi. simpl in Hi. tauto. }
    revert K. generalize (rev r ++ [f]). clear. intros l. revert f. induction l as [|p l IH]; intros f K; [reflexivity|].
    cbn [back]. rewrite (K f), (K p) by (simpl; auto). rewrite IH; auto. intros i Hi. apply K. now right.
  Qed.
  Lemma grown_verts s vs : length (verts s) <= length vs -> (forall i, i < length (verts s) -> nth_error vs i = nth_error (verts s) i) ->
    grown s (w_verts s vs).
  Proof. intros L H. split; [now destruct s|]. auto. Qed.
  (** The ring of [gs] closed and marked *)
  Lemma mark_added s pt vs r gs : let f := length (verts s) in
    strand vs f (r ++ [f]) gs -> NoDup (f :: r) -> r <> [] -> (forall i, In i r -> f < i) ->
    length (verts s) <= length vs -> (forall i, i < f -> nth_error vs i = nth_error (verts s) i) ->
    (forall i v, In i (f :: r) -> nth_error vs i = Some v -> plain v) ->
    exists s', mark_ring (w_verts s vs) f pt = Ok s' /\ added s pt gs s'.
  Proof.
    intros f S ND NE FR L OLD PL.
    pose proof (mark_ring_run (w_verts s vs) f r gs pt S ND NE PL) as H.
    assert (A : accepted gs = negb (level gs)).
    { unfold accepted. apply strand_len in S. rewrite app_length in S. simpl in S. destruct r; [congruence|].
      simpl in S. destruct gs as [|? [|? ?]]; simpl in S; try lia; reflexivity. }
    unfold added. fold f. rewrite A. destruct (level gs); cbn [negb].
    - eexists. split; [exact H|]. split; [now apply grown_verts|]. auto.
    - destruct H as (m & EX & H). eexists. split; [exact H|].
      pose proof (marks_flags pt m (w_verts s vs)) as FL. pose proof (marks_rest pt m (w_verts s vs)) as RS.
      pose proof (extremes_sub _ _ _ _ NE EX) as SUB. pose proof (sub_nodup _ _ SUB ND) as NDm.
      assert (FG : forall i v, In i (f :: r) -> nth_error vs i = Some v -> _) by (intros i v Hi V; exact (marks_flag pt m (w_verts s vs) i v NDm V (proj1 (PL i v Hi V)) (proj2 (PL i v Hi V)))).
      assert (OT : forall i, i < f -> nth_error (verts (apply_marks pt m (w_verts s vs))) i = nth_error (verts s) i).
      { intros i Hi. rewrite marks_other; [now apply OLD|]. intros K. apply (sub_in _ _ SUB) in K. destruct K as [K|K]; [lia|]. apply FR in K. lia. }
      cbn [verts w_verts] in FL. set (s1 := apply_marks pt m (w_verts s vs)) in *. clearbody s1.
      cbn [verts w_verts w_starts lmins minima starts] in *.
      split; [|exists r, m; csplit; auto].
      + split; [|split].
        * cbn [verts w_verts w_starts lmins minima starts]. rewrite RS. now destruct s.
        * cbn [verts w_starts]. destruct FL as [-> _]. exact L.
        * cbn [verts w_starts]. exact OT.
      + split; auto. now apply (flags_strand vs).
      + apply (extremes_ext (height vs)); auto. intros i _. now apply flags_height.
      + intros i v Hi V. destruct (nth_error vs i) as [w|] eqn:W.
        * destruct (FG i w Hi W) as (v' & V' & K1 & K2). rewrite V in V'. injection V' as <-. auto.
        * apply nth_error_None in W. destruct FL as [FL _]. rewrite <- FL in W. apply nth_error_None in W. congruence.
      + now rewrite RS.
      + now rewrite RS.
  Qed.
  Lemma close_link s vs k gs0 g : let f := length (verts s) in
    strand vs f (seq (S f) k) gs0 -> f + k < length vs -> (forall i, i < f -> nth_error vs i = nth_error (verts s) i) ->
    (forall i v, f <= i -> nth_error vs i = Some v -> plain v) ->
    exists vs', set_segment (w_verts s vs) (Some (f + k)) f g = Ok (w_verts s vs') /\ length vs' = length vs /\
      strand vs' f (seq (S f) k ++ [f]) (gs0 ++ [g]) /\ (forall i, i < f -> nth_error vs' i = nth_error (verts s) i) /\
      (forall i v, f <= i -> nth_error vs' i = Some v -> plain v).
  Proof.
    intros f S L OLD PL. assert (exists vp, nth_error vs (f + k) = Some vp) as [vp P] by (apply nth_some; lia).
    assert (exists vf, nth_error vs f = Some vf) as [vf F] by (apply nth_some; lia).
    rewrite (set_segment_run (w_verts s vs) _ _ g vp vf P F). cbn [verts w_verts].
    destruct (set_segment_vs vs _ _ g vp vf P F) as (L2 & LK & OT & OE & IE & PLN).
    set (vs2 := upd (upd vs _ _) _ _) in *. clearbody vs2. exists vs2. csplit; auto.
    - pose proof (strand_len _ _ _ _ S) as SL. apply strand_app; auto. split.
      + apply (strand_frame vs); auto; intros i Hi.
        * rewrite removelast_seq in Hi. apply in_seq in Hi. apply OE. lia.
        * apply in_seq in Hi. apply IE. lia.
      + rewrite last_seq. simpl. auto.
    - intros i Hi. rewrite OT by lia. auto.
    - intros i v Hi V. destruct (PLN _ _ V) as (w & W & K). apply K. eauto.
  Qed.
  Definition closed_segs p0 (gs : list (seg T)) : list (seg T) := match gs with [] => [] | _ => closing p0 gs end.
  Lemma seq_above f k i : In i (seq (S f) k) -> f < i.
  Proof. intros H. apply in_seq in H. lia. Qed.
  Lemma seq_cons_nodup f k : NoDup (f :: seq (S f) k).
  Proof. change (f :: seq (S f) k) with (seq f (S k)). apply seq_NoDup. Qed.
  Lemma close_run s pt p0 gs r : reading s pt p0 gs r ->
    exists s', insert_vertex_list (rd_clip r) (rd_first r) (rd_prev r) pt = Ok s' /\ added s pt (closed_segs p0 gs) s'.
  Proof.
    intros (vs & RC & RT & RF & RP & LV & OLD & PL & ST & vf & VF & VP & VN). rewrite RC, RF, RP, insert_unfold.
    cbn [verts w_verts]. unfold at_ at 1. rewrite VF. cbn [of_opt bind].
    destruct (list_eq_nil gs) as [E|NE].
    { rewrite (VN E). eexists. split; [reflexivity|]. rewrite E. split; [apply grown_verts; auto; lia|]. cbn. auto. }
    clear VN. set (f := length (verts s)) in *.
    assert (v_next vf = Some (S f)) as ->.
    { destruct gs; [congruence|]. destruct ST as [(va & vb & A & _ & B & _) _]. congruence. }
    replace (Nat.eqb (S f) f) with false by (symmetry; apply Nat.eqb_neq; lia).
    pose proof (strand_targets _ _ _ _ ST) as TG.
    assert (exists ve, nth_error vs (f + length gs) = Some ve /\ v_pt ve = end_of p0 gs) as (ve & VE & PE).
    { destruct gs as [|g0 gs]; [congruence|].
      apply (forall2_last _ _ _ f g0) in TG; [|discriminate]. destruct TG as (v & V & K). rewrite last_seq in V. exists v. split; auto.
      rewrite K. unfold end_of. cbn [map]. rewrite !last_cons. clear. revert g0. induction gs as [|h gs IH]; intros g; [reflexivity|].
      cbn [map]. rewrite !last_cons. apply IH. }
    unfold at_ at 1. rewrite VE. cbn [of_opt bind]. rewrite VP, PE.
    replace (closed_segs p0 gs) with (closing p0 gs) by now destruct gs. unfold closing.
    destruct (vneqb p0 (end_of p0 gs)).
    - destruct (close_link s vs (length gs) gs (SLine p0) ST) as (vs' & E & L' & S' & OLD' & PL'); auto; [fold f; lia|].
      fold f in E. rewrite E. cbn [bind]. apply (mark_added s pt vs' (seq (S f) (length gs))); auto.
      + apply seq_cons_nodup.
      + destruct gs; [congruence|discriminate].
      + apply seq_above.
      + fold f. lia.
      + intros i v Hi. apply PL'. destruct Hi as [<-|Hi]; [auto|apply seq_above in Hi; unfold f in *; lia].
    - destruct (exists_last NE) as (gs' & g & ->). rewrite app_length, Nat.add_1_r in *.
      remember (length gs') as k eqn:K0. rewrite seq_S in ST. apply strand_app in ST; [|now rewrite seq_length]. destruct ST as [ST [LK _]].
      rewrite last_seq in LK. destruct LK as (va & vb & A & B & C1 & C2 & C3 & C4).
      replace (S f + k) with (f + S k) in B by lia. rewrite B in VE. injection VE as ->. rewrite C2. cbn [deref of_opt bind].
      unfold at_ at 1. rewrite A. cbn [of_opt bind]. rewrite C3. cbn [of_opt bind].
      destruct (close_link s vs k gs' g ST) as (vs' & E & L' & S' & OLD' & PL'); auto; [fold f; lia|].
      fold f in E. rewrite E. cbn [bind]. destruct k as [|k].
      + assert (gs' = []) by (destruct gs'; auto; discriminate). subst gs'.
        cbn in S'. destruct S' as [(wa & wb & W1 & W2 & W3 & _) _].
        exists (w_verts s vs'). split.
        * unfold mark_ring. cbn [verts w_verts]. unfold at_. fold f in W1, W3. rewrite W1. cbn [of_opt bind]. rewrite W3. cbn [deref of_opt bind]. now rewrite Nat.eqb_refl.
        * split; [apply grown_verts; auto; fold f; lia|]. cbn. auto.
      + apply (mark_added s pt vs' (seq (S f) (S k))); auto.
        * apply seq_cons_nodup.
        * discriminate.
        * apply seq_above.
        * fold f. lia.
        * intros i v Hi. apply PL'. destruct Hi as [<-|Hi]; [auto|apply seq_above in Hi; unfold f in *; lia].
  Qed.
End Build.
