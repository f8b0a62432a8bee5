(** add_path builds rings of vertices. *)
From Coq Require Import ZArith Bool List Lia.
From Verif Require Import Outcome Num Order Rmath Segment Path PathSpec PathProofs VState VPath VLemmas AelSpec VAelRun RingSpec MarkProofs.
Import ListNotations.
Local Open Scope out.

(** *** Strands *)
Section Strand.
  Context {T : Type}.
  Implicit Types vs : list (vertex T).

  Definition out_eq vs vs' i : Prop := forall v, nth_error vs i = Some v ->
    exists w, nth_error vs' i = Some w /\ v_next w = v_next v /\ v_seg w = v_seg v.
  Definition in_eq vs vs' i : Prop := forall v, nth_error vs i = Some v ->
    exists w, nth_error vs' i = Some w /\ v_prev w = v_prev v /\ v_pt w = v_pt v.
  Lemma link_frame vs vs' a b g : out_eq vs vs' a -> in_eq vs vs' b -> link vs a b g -> link vs' a b g.
  Proof.
    intros A B (va & vb & Ha & Hb & H1 & H2 & H3 & H4).
    destruct (A _ Ha) as (wa & Wa & W1 & W2). destruct (B _ Hb) as (wb & Wb & W3 & W4).
    exists wa, wb. csplit; congruence.
  Qed.
  Lemma removelast_cons {A} (a b : A) l : removelast (a :: b :: l) = a :: removelast (b :: l).
  Proof. reflexivity. Qed.
  Lemma strand_frame vs vs' l : forall a gs, (forall i, In i (removelast (a :: l)) -> out_eq vs vs' i) ->
    (forall i, In i l -> in_eq vs vs' i) -> strand vs a l gs -> strand vs' a l gs.
  Proof.
    induction l as [|b l IH]; intros a [|g gs] A B H; try contradiction; simpl; auto.
    destruct H as [H1 H2]. rewrite removelast_cons in A. split.
    - eapply link_frame; eauto; [apply A|apply B]; now left.
    - apply IH; auto; intros; [apply A|apply B]; now right.
  Qed.
  Lemma strand_len vs l : forall a gs, strand vs a l gs -> length l = length gs.
  Proof. induction l; intros x [|g gs] H; simpl in *; try contradiction; auto. f_equal. apply (IHl a gs). tauto. Qed.
  Lemma strand_app vs l1 : forall a gs1 l2 gs2, length l1 = length gs1 ->
    strand vs a (l1 ++ l2) (gs1 ++ gs2) <-> strand vs a l1 gs1 /\ strand vs (last l1 a) l2 gs2.
  Proof.
    induction l1 as [|b l1 IH]; intros a [|g gs1] l2 gs2 L; try discriminate; [simpl; tauto|].
    rewrite last_cons. cbn [app strand]. injection L as L. rewrite IH by auto. tauto.
  Qed.
  Lemma strand_some vs l : forall a gs i, strand vs a l gs -> In i l -> exists v, nth_error vs i = Some v.
  Proof.
    induction l as [|b l IH]; intros a [|g gs] i H Hi; try contradiction; simpl in *.
    destruct H as [(va & vb & H1 & H2 & _) H]. destruct Hi as [->|Hi]; eauto.
  Qed.
  Lemma strand_targets vs l : forall a gs, strand vs a l gs ->
    Forall2 (fun i g => exists v, nth_error vs i = Some v /\ v_pt v = seg_target g) l gs.
  Proof.
    induction l as [|b l IH]; intros a [|g gs] H; try contradiction; constructor; simpl in H.
    - destruct H as [(va & vb & H1 & H2 & H3 & H4 & H5 & H6) _]. eauto.
    - eapply IH. apply H.
  Qed.
  (** Walking backwards *)
  Fixpoint backs vs (l : list nat) : Prop :=
    match l with
    | i :: (j :: _) as r => (exists v, nth_error vs i = Some v /\ v_prev v = Some j) /\ backs vs r
    | _ => True
    end.
  Lemma backs_app vs l : forall x y, backs vs (l ++ [x]) -> (exists v, nth_error vs x = Some v /\ v_prev v = Some y) ->
    backs vs (l ++ [x; y]).
  Proof.
    induction l as [|i l IH]; intros x y H K; simpl app in *.
    - simpl. auto.
    - destruct l as [|j l]; simpl app in *; destruct H as [H1 H2]; split; auto; apply (IH x y H2 K).
  Qed.
  Lemma strand_backs vs l : forall a gs, strand vs a l gs -> backs vs (rev (a :: l)).
  Proof.
    induction l as [|b l IH]; intros a [|g gs] H; try contradiction; [simpl; auto|].
    destruct H as [(va & vb & H1 & H2 & H3 & H4 & _) H]. apply IH in H.
    cbn [rev] in *. rewrite <- app_assoc. simpl app. apply backs_app; eauto.
  Qed.
End Strand.

(** *** Horizontal rings and the direction at the start *)
Section Back.
  Context {T : Type} {N : Num T}.
  Implicit Types vs : list (vertex T).
  Fixpoint back (Y : nat -> T) (e : nat) (ps : list nat) : option bool :=
    match ps with
    | [] => None
    | p :: ps => if n_eqb (Y e) (Y p) then back Y p ps else Some (n_ltb (Y e) (Y p))
    end.
  Lemma height_some vs i v : nth_error vs i = Some v -> height vs i = vy (v_pt v).
  Proof. unfold height. now intros ->. Qed.
  Lemma start_dir_back vs first ps : forall e fuel, backs vs (e :: ps ++ [first]) -> ~ In first ps ->
    (exists v, nth_error vs first = Some v) -> length ps < fuel ->
    start_dir fuel vs first e = Ok (back (height vs) e (ps ++ [first])).
  Proof.
    induction ps as [|p ps IH]; intros e fuel B NI [vf F] L; (destruct fuel as [|fuel]; [simpl in L; lia|]);
      simpl app in *; destruct B as [(v & V & P) B]; cbn [start_dir back]; unfold at_; rewrite V; cbn [of_opt bind];
      rewrite P; cbn [deref of_opt bind]; rewrite (height_some _ _ _ V).
    - rewrite F. cbn [of_opt bind]. rewrite (height_some _ _ _ F), Nat.eqb_refl.
      destruct (n_eqb _ _); reflexivity.
    - assert (exists vp, nth_error vs p = Some vp) as [vp Vp].
      { destruct ps; simpl in B; destruct B as [(vp & K & _) _]; eauto. }
      rewrite Vp. cbn [of_opt bind]. rewrite (height_some _ _ _ Vp).
      destruct (n_eqb _ _) eqn:E; [|reflexivity].
      replace (Nat.eqb p first) with false by (symmetry; apply Nat.eqb_neq; intros ->; apply NI; now left).
      apply IH; auto; [intros K; apply NI; now right|eauto|simpl in L; lia].
  Qed.
  Fixpoint levY (Y : nat -> T) (p : nat) (l : list nat) : bool :=
    match l with [] => true | q :: r => n_eqb (Y q) (Y p) && levY Y q r end.
  Lemma levY_app Y l : forall p x, levY Y p (l ++ [x]) = levY Y p l && n_eqb (Y x) (Y (last l p)).
  Proof.
    induction l as [|q l IH]; intros p x; [simpl; now rewrite andb_true_r|].
    rewrite last_cons. cbn [app levY]. now rewrite IH, andb_assoc.
  Qed.
  Lemma back_levY Y ps : forall e z t, rev (e :: ps) = z :: t -> (back Y e ps = None <-> levY Y z t = true).
  Proof.
    induction ps as [|p ps IH]; intros e z t R.
    - injection R as <- <-. simpl. tauto.
    - cbn [rev] in R. destruct (rev ps ++ [p]) as [|z' t'] eqn:Q; [now destruct (rev ps)|].
      simpl in R. injection R as <- <-. rewrite levY_app. cbn [back].
      assert (last t' z' = p) as ->. { rewrite <- (last_cons t' z' 0), <- Q. apply last_last. }
      specialize (IH p z' t' Q). destruct (n_eqb (Y e) (Y p)).
      + rewrite andb_true_r. exact IH.
      + rewrite andb_false_r. split; discriminate.
  Qed.
  Lemma levels_levY vs l : forall gs p i, Forall2 (fun i g => exists v, nth_error vs i = Some v /\ v_pt v = seg_target g) l gs ->
    vy p = height vs i -> levels p (map seg_target gs) = levY (height vs) i l.
  Proof.
    induction l as [|j l IH]; intros gs p i F H; inversion F as [|? g ? gs' (v & V & K) F' ]; subst; [reflexivity|].
    cbn [map levels levY]. rewrite <- K, (height_some _ _ _ V), H. f_equal. apply IH; auto. now rewrite (height_some _ _ _ V).
  Qed.
  Lemma forall2_last {A B} (R : A -> B -> Prop) l m a b : Forall2 R l m -> l <> [] -> R (last l a) (last m b).
  Proof.
    induction 1 as [|x y l m H F IH]; intros NE; [congruence|]. destruct F; [exact H|]. apply IH. discriminate.
  Qed.
  Lemma level_back vs f r gs : strand vs f (r ++ [f]) gs ->
    (level gs = true <-> back (height vs) f (rev r ++ [f]) = None).
  Proof.
    intros S. pose proof (strand_targets _ _ _ _ S) as F.
    rewrite (back_levY (height vs) (rev r ++ [f]) f f (r ++ [f])).
    2: { cbn [rev]. rewrite rev_app_distr, rev_involutive. reflexivity. }
    unfold level. destruct gs as [|g gs]; [inversion F as [K|]; now destruct r|].
    rewrite <- (levels_levY vs (r ++ [f]) (g :: gs) (last (map seg_target gs) (seg_target g)) f); [reflexivity|auto|].
    assert (NE : r ++ [f] <> []) by now destruct r.
    pose proof (forall2_last _ _ _ f g F NE) as (v & V & K). rewrite last_last in V.
    rewrite (height_some _ _ _ V), K. rewrite last_cons. f_equal.
    clear. revert g. induction gs as [|h gs IH]; intros g; [reflexivity|]. cbn [map]. rewrite !last_cons. apply IH.
  Qed.
End Back.

(** *** Marking *)
(** Vertex by vertex the same but for the flags *)
Definition flags_only {T} (vs vs' : list (vertex T)) : Prop :=
  length vs' = length vs /\
  forall i v, nth_error vs i = Some v -> exists w, nth_error vs' i = Some w /\
    w = Vertex (v_pt v) (v_seg v) (v_next v) (v_prev v) (v_max w) (v_min w).
Section Marking.
  Context {T : Type} {N : Num T}.
  Implicit Types vs : list (vertex T).
  Implicit Types s : clipper T.
  Lemma flags_refl vs : flags_only vs vs.
  Proof. split; auto. intros i v H. exists v. split; auto. now destruct v. Qed.
  Lemma flags_trans vs1 vs2 vs3 : flags_only vs1 vs2 -> flags_only vs2 vs3 -> flags_only vs1 vs3.
  Proof.
    intros [L1 H1] [L2 H2]. split; [congruence|]. intros i v H. destruct (H1 _ _ H) as (w & W & E).
    destruct (H2 _ _ W) as (x & X & F). exists x. split; auto. rewrite F at 1. rewrite E. reflexivity.
  Qed.
  Lemma flags_upd vs i f : (forall v, f v = Vertex (v_pt v) (v_seg v) (v_next v) (v_prev v) (v_max (f v)) (v_min (f v))) ->
    flags_only vs (upd vs i f).
  Proof.
    intros F. split; [apply length_upd|]. intros j v H. rewrite nth_upd, H. destruct (Nat.eqb i j); simpl; eexists; split; eauto.
    now destruct v.
  Qed.
  Lemma flags_height vs vs' : flags_only vs vs' -> forall i, height vs' i = height vs i.
  Proof.
    intros [L H] i. unfold height. destruct (nth_error vs i) as [v|] eqn:E.
    - destruct (H _ _ E) as (w & -> & ->). reflexivity.
    - apply nth_error_None in E. rewrite <- L in E. apply nth_error_None in E. now rewrite E.
  Qed.
  Lemma flags_strand vs vs' a l gs : flags_only vs vs' -> strand vs a l gs -> strand vs' a l gs.
  Proof.
    intros [L H] S. eapply strand_frame; eauto; intros i _ v V; destruct (H _ _ V) as (w & W & E); exists w; (split; [exact W|]); rewrite E; auto.
  Qed.

  Definition mark1 (pt : path_type) s (x : nat * bool) : clipper T :=
    if snd x then w_lmins (w_verts s (upd (verts s) (fst x) (set_vmin true))) (lmins s ++ [Lmin (fst x) pt]) (minima s ++ [length (lmins s)])
    else w_verts s (upd (verts s) (fst x) (set_vmax true)).
  Definition apply_marks pt (m : list (nat * bool)) s : clipper T := fold_left (mark1 pt) m s.
  Lemma mark1_flags pt s x : flags_only (verts s) (verts (mark1 pt s x)).
  Proof. unfold mark1. destruct (snd x); apply flags_upd; reflexivity. Qed.
  Lemma marks_flags pt m : forall s, flags_only (verts s) (verts (apply_marks pt m s)).
  Proof.
    induction m as [|x m IH]; intros s; [apply flags_refl|]. cbn [apply_marks fold_left].
    eapply flags_trans; [apply mark1_flags|apply IH].
  Qed.
  Lemma marks_other pt m : forall s i, ~ In i (map fst m) -> nth_error (verts (apply_marks pt m s)) i = nth_error (verts s) i.
  Proof.
    induction m as [|x m IH]; intros s i NI; [reflexivity|]. cbn [apply_marks fold_left]. simpl in NI.
    change (fold_left (mark1 pt) m (mark1 pt s x)) with (apply_marks pt m (mark1 pt s x)). rewrite IH by tauto.
    unfold mark1. destruct (snd x); apply nth_upd_other; tauto.
  Qed.
  Lemma marks_rest pt m : forall s, apply_marks pt m s =
    w_lmins (w_verts s (verts (apply_marks pt m s)))
      (lmins s ++ map (fun x => Lmin (fst x) pt) (filter snd m))
      (minima s ++ seq (length (lmins s)) (length (filter snd m))).
  Proof.
    induction m as [|x m IH]; intros s.
    - simpl. rewrite !app_nil_r. now destruct s.
    - change (apply_marks pt (x :: m) s) with (apply_marks pt m (mark1 pt s x)). rewrite IH at 1.
      set (vs := verts (apply_marks pt m (mark1 pt s x))). clearbody vs.
      unfold mark1. cbn [filter]. destruct (snd x); cbn [lmins minima w_lmins w_verts]; [|reflexivity].
      rewrite app_length, <- !app_assoc. cbn [map length app seq]. rewrite Nat.add_1_r. reflexivity.
  Qed.
  (** Each vertex marked once: the flags afterwards *)
  Lemma marks_flag pt m : forall s i v, NoDup (map fst m) -> nth_error (verts s) i = Some v ->
    v_min v = false -> v_max v = false ->
    exists w, nth_error (verts (apply_marks pt m s)) i = Some w /\
      (v_min w = true <-> In (i, true) m) /\ (v_max w = true <-> In (i, false) m).
  Proof.
    induction m as [|[j k] m IH]; intros s i v ND V V1 V2.
    - exists v. simpl. rewrite V1, V2. csplit; auto; split; try discriminate; contradiction.
    - change (apply_marks pt ((j, k) :: m) s) with (apply_marks pt m (mark1 pt s (j, k))). inversion ND as [|? ? NI ND']; subst.
      destruct (Nat.eq_dec j i) as [->|NE].
      + rewrite marks_other by exact NI. unfold mark1. simpl.
        assert (K : forall k, ~ In (i, k) m) by (intros k' K; apply NI; change i with (fst (i, k')); now apply in_map).
        destruct k; simpl; rewrite (nth_upd_same _ _ _ _ V); eexists; (split; [reflexivity|]); simpl; rewrite ?V1, ?V2;
          split; split; try discriminate; auto; intros [E|E]; try congruence; now apply K in E.
      + destruct (IH (mark1 pt s (j, k)) i v ND') as (w & W & W1 & W2); auto.
        { unfold mark1. simpl. destruct k; simpl; now rewrite nth_upd_other. }
        exists w. split; auto. rewrite W1, W2. simpl. split; (split; [auto|intros [E|E]; [congruence|auto]]).
  Qed.

  (** The loop: [cs] are the vertices behind [prev], up to [first]. *)
  Lemma mark_extrema_run pt first cs : forall fuel s prev c g gs m d,
    strand (verts s) prev (cs ++ [first]) gs -> NoDup (prev :: cs) -> ~ In first cs ->
    (exists v, nth_error (verts s) prev = Some v) ->
    (forall i v, In i (prev :: cs) -> nth_error (verts s) i = Some v -> v_min v = false) ->
    hd_error (cs ++ [first]) = Some c -> length cs <= fuel -> marks (height (verts s)) g prev cs = (m, d) ->
    mark_extrema fuel s pt first prev c g = Ok (apply_marks pt m s, (last cs prev, d)).
  Proof.
    induction cs as [|c' cs IH]; intros fuel s prev c g gs m d S ND NF [vp P] NM HC L M.
    - injection HC as <-. injection M as <- <-. destruct fuel; simpl; rewrite Nat.eqb_refl; reflexivity.
    - injection HC as <-. destruct fuel as [|fuel]; [simpl in L; lia|]. cbn [mark_extrema].
      replace (Nat.eqb c' first) with false by (symmetry; apply Nat.eqb_neq; intros ->; apply NF; now left).
      destruct gs as [|g0 gs]; [contradiction|]. simpl app in S. destruct S as [LK S].
      destruct LK as (va & vb & A & B & _). rewrite A in P. injection P as ->.
      unfold at_ at 1 2. rewrite A, B. cbn [of_opt bind].
      cbn [marks] in M. rewrite (height_some _ _ _ A), (height_some _ _ _ B) in M.
      assert (NMp : v_min vp = false) by (eapply NM; eauto; now left).
      assert (G : forall x g', In x [[]; [(prev, true)]; [(prev, false)]] ->
        marks (height (verts s)) g' c' cs = (skipn (length x) m, d) -> firstn (length x) m = x ->
        (do vc <- at_ (verts (apply_marks pt x s)) c' ;; do n <- deref (v_next vc) ;;
         mark_extrema fuel (apply_marks pt x s) pt first c' n g') = Ok (apply_marks pt m s, (last (c' :: cs) prev, d))).
      { intros x g' Hx M' Fx. rewrite last_cons.
        pose proof (marks_flags pt x s) as FL. set (s1 := apply_marks pt x s) in *.
        pose proof (flags_strand _ _ _ _ _ FL S) as S1.
        assert (exists n, hd_error (cs ++ [first]) = Some n) as [n Hn] by (destruct cs; simpl; eauto).
        assert (exists w, nth_error (verts s1) c' = Some w /\ v_next w = Some n) as (w & W & Wn).
        { destruct cs as [|c2 cs]; simpl app in S1; simpl in Hn; injection Hn as <-; destruct gs as [|g1 gs]; try contradiction;
            destruct S1 as [(wa & wb & W1 & W2 & W3 & _) _]; eauto. }
        unfold at_. rewrite W. cbn [of_opt bind]. rewrite Wn. cbn [deref of_opt bind].
        erewrite (IH fuel s1 c' n g' gs (skipn (length x) m) d); eauto.
        - f_equal. unfold s1, apply_marks. rewrite <- fold_left_app. rewrite <- (firstn_skipn (length x) m) at 2. now rewrite Fx.
        - now inversion ND.
        - intros K. apply NF. now right.
        - intros i v Hi V. assert (K : nth_error (verts s1) i = nth_error (verts s) i).
          { apply marks_other. inversion ND as [|? ? K1 _]; subst. intros K2. apply K1.
            simpl in Hx. destruct Hx as [<-|[<-|[<-|[]]]]; simpl in K2; [contradiction| |]; destruct K2 as [->|[]]; exact Hi. }
          rewrite K in V. eapply NM; eauto. now right.
        - simpl in L. lia.
        - rewrite <- M'. apply marks_ext. intros i _. now apply flags_height. }
      destruct (n_ltb (vy (v_pt vp)) (vy (v_pt vb)) && g).
      + unfold add_local_min. unfold at_ at 1. rewrite A. cbn [of_opt bind]. rewrite NMp.
        rewrite (vmod_run _ _ _ _ A). cbn [bind].
        destruct (marks (height (verts s)) false c' cs) as [m' d'] eqn:M'. injection M as <- <-.
        exact (G [(prev, true)] false (or_intror (or_introl eq_refl)) M' eq_refl).
      + destruct (n_ltb (vy (v_pt vb)) (vy (v_pt vp)) && negb g).
        * rewrite (vmod_run _ _ _ _ A). cbn [bind].
          destruct (marks (height (verts s)) true c' cs) as [m' d'] eqn:M'. injection M as <- <-.
          exact (G [(prev, false)] true (or_intror (or_intror (or_introl eq_refl))) M' eq_refl).
        * cbn [bind]. exact (G [] g (or_introl eq_refl) M eq_refl).
  Qed.
End Marking.
