(** The statements of C21 and C22 proved, and their cases. *)
From Coq Require Import ZArith Bool List Floats.SpecFloat Lia.
From Verif Require Import Outcome Num Order Rmath Segment Path PathSpec VState VPath VLemmas AelSpec RingSpec MarkProofs VRing VBuild VAdd MarkSpec ClipCases.
Import ListNotations.

Section Statements.
  Context {T : Type} {N : Num T}.
  Lemma forall2_map {A B C} (R : A -> B -> Prop) (f : C -> A) (g : C -> B) l : (forall c, In c l -> R (f c) (g c)) -> Forall2 R (map f l) (map g l).
  Proof. induction l; simpl; constructor; auto. Qed.
  Lemma items_filter pt (os : list (outline (T := T))) : map snd (filter (fun it => accepted (snd it)) (items pt os)) = filter accepted (map outline_segs os).
  Proof. unfold items. induction os as [|o os IH]; simpl; auto. destruct (accepted (outline_segs o)); simpl; now rewrite IH. Qed.
  Lemma flat_concat {A B} (f : A -> list B) l : flat_map f l = concat (map f l).
  Proof. apply flat_map_concat_map. Qed.
  Lemma C21_lemma (s : clipper T) pt (oss : list (list (outline (T := T)))) : Forall (Forall (fun o => Forall drawing (snd o))) oss ->
    exists s' ls,
      add_paths s (map (fun os => run_calls (flat_map outline_calls os)) oss) pt = Ok s' /\
      Forall2 (ring (verts s')) ls (filter accepted (map outline_segs (concat oss))) /\
      starts s' = starts s ++ map (hd 0) ls /\
      NoDup (concat ls) /\ (forall i, In i (concat ls) -> length (verts s) <= i) /\
      (forall i, i < length (verts s) -> nth_error (verts s') i = nth_error (verts s) i).
  Proof.
    intros WD. destruct (add_paths_run oss s [] [] s pt WD (built_nil s)) as (s' & cs & E & G & IT & OK & ST & LM & MN & ND & FR).
    exists s', (map c_verts cs). csplit; auto.
    - rewrite <- (items_filter pt). cbn [app] in IT. rewrite <- IT, map_map.
      apply forall2_map. intros c Hc. rewrite Forall_forall in OK. destruct (OK c Hc) as (f & r & -> & _ & R & _). exact R.
    - now rewrite map_map.
    - now rewrite <- flat_concat.
    - rewrite <- flat_concat. exact FR.
    - apply G.
  Qed.
  Context {O : OrdNum T}.
  Definition yvalid (gs : list (seg T)) : Prop := Forall (fun g => nvalid (vy (seg_target g))) gs.
  Lemma ring_valid vs f r gs : ring vs (f :: r) gs -> yvalid gs -> forall i, In i (f :: r) -> nvalid (height vs i).
  Proof.
    intros [_ S] V i Hi. apply strand_targets in S.
    assert (Hi' : In i (r ++ [f])) by (apply in_or_app; destruct Hi as [->|Hi]; [right; now left|now left]).
    revert V Hi'. induction S as [|j g l gs (v & Hv & E) S IH]; intros V Hi'; [contradiction|].
    inversion V; subst. destruct Hi' as [->|Hi']; auto. now rewrite (height_some _ _ _ Hv), E.
  Qed.
  Lemma C22_lemma (s : clipper T) pt (oss : list (list (outline (T := T)))) : Forall (Forall (fun o => Forall drawing (snd o))) oss ->
    Forall yvalid (map outline_segs (concat oss)) ->
    exists s' ls exs,
      add_paths s (map (fun os => run_calls (flat_map outline_calls os)) oss) pt = Ok s' /\
      Forall2 (ring (verts s')) ls (filter accepted (map outline_segs (concat oss))) /\
      Forall2 (extrema (height (verts s'))) ls exs /\
      (let mins := map fst (filter snd (concat exs)) in
       lmins s' = lmins s ++ map (fun v => Lmin v pt) mins /\
       minima s' = minima s ++ seq (length (lmins s)) (length mins)) /\
      (forall l i v, In l ls -> In i l -> nth_error (verts s') i = Some v ->
         (v_min v = true <-> lowest (height (verts s')) l i) /\ (v_max v = true <-> highest (height (verts s')) l i)).
  Proof.
    intros WD V. destruct (add_paths_run oss s [] [] s pt WD (built_nil s)) as (s' & cs & E & G & IT & OK & ST & LM & MN & ND & FR).
    exists s', (map c_verts cs), (map c_marks cs). rewrite Forall_forall in OK.
    assert (IT2 : map c_segs cs = filter accepted (map outline_segs (concat oss))).
    { rewrite <- (items_filter pt). cbn [app] in IT. now rewrite <- IT, map_map. }
    assert (PT : forall c, In c cs -> c_type c = pt).
    { cbn [app] in IT. intros c Hc. assert (K : In (c_type c, c_segs c) (filter (fun it => accepted (snd it)) (items pt (concat oss)))).
      { rewrite <- IT. change (c_type c, c_segs c) with ((fun c : contour => (c_type c, c_segs c)) c). now apply in_map. }
      apply filter_In in K as [K _]. unfold items in K. apply in_map_iff in K as (o & K & _). congruence. }
    assert (EX : forall c, In c cs -> extrema (height (verts s')) (c_verts c) (c_marks c)).
    { intros c Hc. destruct (OK c Hc) as (f & r & -> & NE & R & X & F). apply extremes_extrema; auto.
      apply (ring_valid _ _ _ (c_segs c) R). rewrite Forall_forall in V. apply V.
      assert (K : In (c_segs c) (map c_segs cs)) by now apply in_map. rewrite IT2 in K. now apply filter_In in K. }
    assert (MM : map fst (filter snd (concat (map c_marks cs))) = flat_map lows cs).
    { clear. induction cs as [|c cs IH]; [reflexivity|]. cbn [map concat flat_map]. now rewrite filter_app, map_app, IH. }
    assert (AL : all_lows cs = map (fun v => Lmin v pt) (flat_map lows cs)).
    { clear - PT. induction cs as [|c cs IH]; [reflexivity|]. unfold all_lows in *. cbn [flat_map].
      rewrite map_app, IH, (PT c); auto; [now left|]. intros d Hd. apply PT. now right. }
    csplit; auto.
    - rewrite <- IT2. apply forall2_map. intros c Hc. destruct (OK c Hc) as (f & r & -> & _ & R & _). exact R.
    - now apply forall2_map.
    - cbn zeta. rewrite MM, <- AL. csplit; auto. rewrite MN, AL, map_length. reflexivity.
    - intros l i v Hl Hi Hv. apply in_map_iff in Hl as (c & <- & Hc). destruct (EX c Hc) as (_ & X1 & X2 & _).
      destruct (OK c Hc) as (f & r & C & NE & R & X & F). rewrite <- X1, <- X2. rewrite C in Hi. exact (F i v Hi Hv).
  Qed.
End Statements.

(** *** Cases *)
Lemma not_nan (x : b64) : match x with S754_nan => false | _ => true end = true -> x = S754_nan -> False.
Proof. intros K ->. discriminate K. Qed.
Section Cases.
  Variable lm : libm.
  Let N := B64 lm.
  Existing Instance N.
  Definition pt_ (x y : Z) : vec2 b64 := V2 (SFofZ x) (SFofZ y).
  (** An M: open, with a line of length zero and a horizontal bottom; a
      single closed arch; and a horizontal line *)
  Definition o_M : outline := (pt_ 0 0, [PLine (pt_ 4 0); PLine (pt_ 4 0); PLine (pt_ 4 4); PLine (pt_ 2 2); PLine (pt_ 0 4)]).
  Definition o_arch : outline := (pt_ 8 0, [PCubic (pt_ 8 4) (pt_ 12 4) (pt_ 12 0); PLine (pt_ 8 0)]).
  Definition o_flat : outline := (pt_ 0 9, [PLine (pt_ 4 9); PLine (pt_ 2 9)]).
  Definition s_ring := get clipper0 (add_paths clipper0 (map (fun os => run_calls (flat_map outline_calls os)) [[o_M; o_flat]; [o_arch]]) subject).
  Lemma s_ring_ok : add_paths clipper0 (map (fun os => run_calls (flat_map outline_calls os)) [[o_M; o_flat]; [o_arch]]) subject = Ok s_ring.
  Proof. vm_compute. reflexivity. Qed.
  Lemma s_ring_facts : map (fun o => (length (outline_segs o), accepted (outline_segs o))) [o_M; o_flat; o_arch] = [(5, true); (3, false); (3, true)] /\
    starts s_ring = [0; 8] /\ map lm_vert (lmins s_ring) = [1; 3; 8].
  Proof. csplit; vm_compute; reflexivity. Qed.
  Lemma o_valid : Forall (yvalid (O := B64_ord lm)) (map outline_segs [o_M; o_flat; o_arch]).
  Proof.
    unfold yvalid.
    assert (H : forallb (forallb (fun g => match vy (seg_target g) with S754_nan => false | _ => true end)) (map outline_segs [o_M; o_flat; o_arch]) = true) by (vm_compute; reflexivity).
    revert H. generalize (map outline_segs [o_M; o_flat; o_arch]). intros l H. rewrite forallb_forall in H.
    apply Forall_forall. intros gs Hg. apply H in Hg. rewrite forallb_forall in Hg. apply Forall_forall. intros g K. apply Hg in K.
    exact (fun E : vy (seg_target g) = S754_nan => not_nan _ K E).
  Qed.
  Lemma no_moveto : add_paths clipper0 [run_calls [PLine (pt_ 1 1)]] subject = UB NullDeref.
  Proof. vm_compute. reflexivity. Qed.
End Cases.
