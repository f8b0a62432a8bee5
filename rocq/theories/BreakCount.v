(** C63: how many vertices breaking can add. *)
From Coq Require Import ZArith Bool List Lia Reals Lra Permutation.
From Verif Require Import Outcome Num Order Rmath Segment Path RectSpec RectProofs ScanLine ScanProofs SortProofs VState VPath VLemmas VFrame VBreak PathSpec RingSpec BreakSpec BreakSizeSpec CurveR CubicsR VBroken VSafeRun BreakDrawn DcelCount.
Import ListNotations.
Local Open Scope nat_scope.
Local Open Scope out.

Section Count.
  Context {T : Type} {N : Num T}.
  Implicit Types s : clipper T.
  Lemma set_segment_len s p m g s' : set_segment s p m g = Ok s' -> length (verts s') = length (verts s).
  Proof. unfold set_segment. intros H. binvs. mods. cbn. now rewrite !length_upd. Qed.
  Lemma chain_len gs : forall s c s' n, VBreak.chain s c gs = Ok (s', n) -> length (verts s') = length (verts s) + length gs.
  Proof.
    induction gs as [|g gs IH]; intros s c s' n H; simpl in H; [injection H as <- <-; cbn; lia|]. apply bind_ok in H as (s1 & H1 & H).
    apply IH in H. apply set_segment_len in H1. cbn in *. rewrite app_length in H1. cbn in H1. lia.
  Qed.
  Lemma relink_len s st gs l s' : relink s st gs l = Ok s' -> length (verts s') = length (verts s) + length gs.
  Proof.
    unfold relink. intros H. apply bind_ok in H as (v & _ & H). apply bind_ok in H as (e & _ & H). apply bind_ok in H as ([s1 c] & H1 & H). apply bind_ok in H as (ve & _ & H). apply bind_ok in H as (s2 & H2 & H).
    apply chain_len in H1. apply set_segment_len in H2. mods. cbn. rewrite length_upd. lia.
  Qed.
  Lemma cubic_pieces_len bs : forall zs (gl : list (seg T) * bezier T), cubic_pieces zs bs = Ok gl -> length (fst gl) = length bs.
  Proof.
    induction bs as [|b bs IH]; intros [|z zs] gl H; cbn in H; try discriminate.
    - destruct zs; [injection H as <-; reflexivity|discriminate].
    - apply bind_ok in H as ([gs l] & H1 & H). apply IH in H1. injection H as <-. cbn in *. lia.
  Qed.
  Lemma break_vertex_len s st bs s' : break_vertex s st bs = Ok s' -> length (verts s') <= length (verts s) + length bs.
  Proof.
    unfold break_vertex. intros H. apply bind_ok in H as (v & _ & H). apply bind_ok in H as (g & _ & H). destruct g; try (injection H as <-; lia).
    - apply relink_len in H. rewrite map_length in H. lia.
    - apply bind_ok in H as ([gs l] & H1 & H). apply relink_len in H. apply cubic_pieces_len in H1. cbn in H1. rewrite <- (Permutation_length (sort_by_perm _ bs)) in H1. lia.
  Qed.
  Lemma take_run_len v (l : list (break_info T)) : length (fst (take_run v l)) + length (snd (take_run v l)) = length l.
  Proof. induction l as [|b l IH]; cbn; auto. destruct (Nat.eqb _ _); cbn; auto. destruct (take_run v l); cbn in *. lia. Qed.
  Lemma break_all_len fuel : forall s l s', break_all fuel s l = Ok s' -> length (verts s') <= length (verts s) + length l.
  Proof.
    induction fuel; intros s l s' H; simpl in H; (destruct l as [|b l]; [injection H as <-; cbn; lia|]); [discriminate|].
    pose proof (take_run_len (br_vert b) (b :: l)) as K. destruct (take_run (br_vert b) (b :: l)) as [x y]. apply bind_ok in H as (s1 & H1 & H). apply break_vertex_len in H1. apply IHfuel in H. cbn [fst snd length] in *. lia.
  Qed.
  Lemma unique_by_len {A} (eq : A -> A -> bool) l : length (unique_by eq l) <= length l.
  Proof.
    destruct l as [|x r]; cbn; auto. assert (K : forall r x, length (unique_from eq x r) <= length r); [|specialize (K r x); lia].
    clear. induction r as [|y r IH]; intros x; cbn; auto. destruct (eq x y); cbn; [specialize (IH x)|specialize (IH y)]; lia.
  Qed.
  Lemma break_pair_len a b (l : list (isect T)) : length (break_pair a b l) <= 2 * length l.
  Proof. unfold break_pair. induction l as [|i l IH]; cbn [flat_map length]; auto. rewrite !app_length. destruct (in_open (it0 i)), (in_open (it1 i)); cbn [length]; lia. Qed.

  Lemma lines_two p0 p1 p2 p3 (l : list (isect T)) : intersect_lines p0 p1 p2 p3 = Ok l -> length l <= 2.
  Proof.
    unfold intersect_lines. cbn zeta. assert (PL : forall b (x : list (isect T)) y z, push_if b 2 x y = Ok z -> length x <= 2 -> length z <= 2).
    { intros b x y z. unfold push_if, push_res. destruct b; [|intros E; injection E as <-; auto]. destruct (Nat.ltb_spec (length x) 2); [|discriminate]. intros E; injection E as <-. rewrite app_length. cbn. lia. }
    destruct (_ || _).
    - destruct (n_eqb _ _); [|intros E; injection E as <-; cbn; lia]. intros H. apply bind_ok in H as (r1 & H1 & H). apply bind_ok in H as (r2 & H2 & H). apply bind_ok in H as (r3 & H3 & H).
      apply PL in H1; [|cbn; lia]. apply PL in H2; auto. apply PL in H3; auto. apply PL in H; auto.
    - destruct (_ && _); intros E; injection E as <-; cbn; lia.
  Qed.
  (** Two lines give one crossing, or ends of one on the other. *)
  Lemma lines_records i j p0 p1 p2 p3 (l : list (isect T)) : open_ends -> intersect_lines p0 p1 p2 p3 = Ok l -> length (break_pair i j l) <= 2.
  Proof.
    intros (Z0 & Z1). unfold intersect_lines. cbn zeta.
    assert (PL : forall b (x : list (isect T)) y z, in_open (it0 y) = false \/ in_open (it1 y) = false -> push_if b 2 x y = Ok z -> length x <= 2 /\ length (break_pair i j x) <= length x ->
      length z <= 2 /\ length (break_pair i j z) <= length z).
    { intros b x y z Y. unfold push_if, push_res. destruct b; [|intros E; injection E as <-; auto]. destruct (Nat.ltb_spec (length x) 2); [|discriminate]. intros E; injection E as <-. intros (_ & K).
      unfold break_pair in *. rewrite flat_map_app, !app_length. cbn [flat_map length]. rewrite !app_length. destruct (in_open (it0 y)), (in_open (it1 y)), Y; try discriminate; cbn [length]; lia. }
    destruct (_ || _).
    - destruct (n_eqb _ _); [|intros E; injection E as <-; cbn; lia]. intros H. apply bind_ok in H as (r1 & H1 & H). apply bind_ok in H as (r2 & H2 & H). apply bind_ok in H as (r3 & H3 & H).
      apply PL in H1; [|cbn [it0]; now left|cbn; lia]. apply PL in H2; [|cbn [it0]; now left|auto]. apply PL in H3; [|cbn [it1]; now right|auto]. apply PL in H; [|cbn [it1]; now right|auto]. lia.
    - destruct (_ && _); intros E; injection E as <-; [|cbn; lia]. match goal with |- length (break_pair _ _ ?l) <= _ => pose proof (break_pair_len i j l) end. cbn [length] in *. lia.
  Qed.
  Lemma seg_intersect_lines_few en vs i j l v w p q : open_ends -> nth_error vs i = Some v -> nth_error vs j = Some w -> v_seg v = Some (SLine p) -> v_seg w = Some (SLine q) ->
    seg_intersect en vs i j = Ok l -> length l <= 2 * 1.
  Proof.
    intros OE V W P Q H. unfold seg_intersect, at_ in H. rewrite V, W in H. cbn [of_opt bind] in H. rewrite P, Q in H. cbn [of_opt bind] in H. apply bind_ok in H as (r & H1 & H). injection H as <-.
    apply (lines_records i j) in H1; auto.
  Qed.
  (** Any pair gives nine results at most. *)
  Lemma seg_intersect_few en vs i j l : seg_intersect en vs i j = Ok l -> length l <= 18.
  Proof.
    intros H. unfold seg_intersect in H. do 4 (apply bind_ok in H as (? & _ & H)).
    match type of H with match ?a with _ => _ end = _ => destruct a end; match type of H with match ?a with _ => _ end = _ => destruct a end; try discriminate; try (injection H as <-; cbn; lia);
      apply bind_ok in H as (r & H1 & H); injection H as <-.
    - apply lines_two in H1. pose proof (break_pair_len i j r). lia.
    - match type of H1 with intersect_line_cubic ?a ?b ?c = _ => destruct (C18_any_lemma a b c) as (xs & E & L & _) end. rewrite E in H1. injection H1 as <-. pose proof (break_pair_len i j xs). lia.
    - match type of H1 with intersect_line_cubic ?a ?b ?c = _ => destruct (C18_any_lemma a b c) as (xs & E & L & _) end. rewrite E in H1. injection H1 as <-. pose proof (break_pair_len j i xs). lia.
    - apply C19_count_lemma in H1 as (L & _). pose proof (break_pair_len i j r). lia.
  Qed.
  Lemma run_pairs_few en vs vids k prs : (forall i j l, In i vids -> In j vids -> seg_intersect en vs i j = Ok l -> length l <= k) ->
    forall bs, run_pairs en vs vids prs = Ok bs -> length bs <= k * length prs.
  Proof.
    intros K. induction prs as [|[a b] r IH]; cbn [run_pairs]; intros bs H; [injection H as <-; cbn; lia|]. apply bind_ok in H as (i & Hi & H). apply bind_ok in H as (j & Hj & H). apply bind_ok in H as (x & Hx & H). apply bind_ok in H as (y & Hy & H). injection H as <-.
    apply at_ok in Hi, Hj. apply K in Hx; [|eapply nth_error_In; eauto..]. apply IH in Hy. rewrite app_length. cbn [length]. nia.
  Qed.
End Count.

Section Ord.
  Context {T : Type} {N : Num T} {O : OrdNum T}.
  Lemma process_few en k (s s' : clipper T) ls : (forall l, Permutation (en_order en l) l) -> rings (verts s) ls -> starts s = map (hd 0) ls ->
    (forall i, In i (concat ls) -> exists b, vert_box (verts s) i = Ok b /\ rect_wf b) ->
    (forall i j l, In i (concat ls) -> In j (concat ls) -> seg_intersect en (verts s) i j = Ok l -> length l <= 2 * k) ->
    process_intersect en s = Ok s' ->
    length (verts s') <= length (verts s) + k * (length (concat ls) * (length (concat ls) - 1)).
  Proof.
    intros PO RG ST WB K H. unfold process_intersect in H. apply bind_ok in H as (bs & HB & H). cbv zeta in H. apply break_all_len in H. cbn [verts w_breaks] in H.
    assert (LB : length (tidy_breaks en bs) <= length bs).
    { unfold tidy_breaks. pose proof (unique_by_len break_eqb (sort_by (break_ltb en) bs)) as U. rewrite <- (Permutation_length (sort_by_perm (break_ltb en) bs)) in U. exact U. }
    unfold find_breaks in HB. apply bind_ok in HB as (vids & HV & HB). rewrite ST, all_rings_ok in HV. 2: { destruct RG as (R & _). eapply Forall_impl; [|exact R]. intros l (gs & G & _). eauto. }
    injection HV as <-. apply bind_ok in HB as (boxes & HX & HB). set (vids := concat ls) in *.
    assert (BX : Forall rect_wf boxes /\ length boxes = length vids).
    { clearbody vids. clear -HX WB. revert boxes HX. induction vids as [|i r IH]; cbn [vert_boxes]; intros boxes HX; [injection HX as <-; auto|].
      apply bind_ok in HX as (b & H1 & HX). apply bind_ok in HX as (bs & H2 & HX). injection HX as <-. destruct (WB i (or_introl eq_refl)) as (b' & E & W). rewrite E in H1. injection H1 as <-.
      destruct (IH (fun i I => WB i (or_intror I)) bs H2) as (I1 & I2). split; [constructor; auto|cbn; lia]. }
    destruct BX as (BW & BL). apply run_pairs_few with (k := 2 * k) in HB; [|exact K].
    pose proof (C20_lemma (en_order en) boxes PO BW) as C. cbv zeta in C. set (prs := scan_process _ _) in *. destruct C as (K1 & K2 & K3).
    assert (FE : 2 * length prs + length vids <= length vids * length vids).
    { apply (pairs_few (length vids) prs K1 K2). intros i j I. destruct (proj1 (K3 i j) (or_introl I)) as (_ & a & b & p & I1 & I2 & _). apply nth_lt in I1, I2. lia. }
    assert (length vids * (length vids - 1) = length vids * length vids - length vids) as -> by (destruct (length vids); [reflexivity|nia]).
    assert (2 * length prs <= length vids * length vids - length vids) by lia. nia.
  Qed.
  Lemma C63_lines_lemma en (s s' : clipper T) ls : open_ends -> (forall l, Permutation (en_order en l) l) -> rings (verts s) ls -> starts s = map (hd 0) ls ->
    Forall (finite_side (verts s)) (concat ls) -> process_intersect en s = Ok s' ->
    length (verts s') <= length (verts s) + length (concat ls) * (length (concat ls) - 1).
  Proof.
    intros OE PO RG ST FS H. rewrite Forall_forall in FS. rewrite <- (Nat.mul_1_l (length (concat ls) * _)). revert H. apply process_few; auto.
    - intros i I. destruct (FS i I) as (v & q & V & G & F1 & F2). unfold vert_box. rewrite (proj2 (at_ok _ _ _) V). cbn [bind]. rewrite G. cbn [of_opt bind seg_boundary]. eexists. split; [reflexivity|].
      apply C06_lemma; [discriminate|]. intros p [<-|[<-|[]]]; auto.
    - intros i j l I J. destruct (FS i I) as (v & q & V & G & _). destruct (FS j J) as (w & r & W & G' & _). now apply (seg_intersect_lines_few en (verts s) i j l v w q r).
  Qed.
  Lemma C63_boxes_lemma en (s s' : clipper T) ls : (forall l, Permutation (en_order en l) l) -> rings (verts s) ls -> starts s = map (hd 0) ls ->
    Forall (sound_box (verts s)) (concat ls) -> process_intersect en s = Ok s' ->
    length (verts s') <= length (verts s) + 9 * (length (concat ls) * (length (concat ls) - 1)).
  Proof.
    intros PO RG ST FS. rewrite Forall_forall in FS. apply process_few; auto.
    - intros i I. destruct (FS i I) as (v & g & V & G & F). unfold vert_box. rewrite (proj2 (at_ok _ _ _) V). cbn [bind]. rewrite G. cbn [of_opt bind]. eauto.
    - intros i j l _ _ H. apply seg_intersect_few in H. lia.
  Qed.
End Ord.

(** *** Reals: the box holds the first point. *)
Section Reals.
  Local Open Scope R_scope.
  Lemma box_sound (l : list (vec2 R)) p : In p l -> rect_wf (rect_from l).
  Proof.
    intros I. unfold rect_from. rewrite rect_from_folds. cbn [rmin rmax vx vy].
    assert (Ix := in_map vx l p I). assert (Iy := in_map vy l p I).
    assert (V : forall x : R, nvalid x) by (intros; exact Logic.I).
    split; [split; split; apply V|]. cbn [rmin rmax vx vy].
    split; (eapply nle_trans; [apply V..| |]; [apply fold_min; [apply V|intros; apply V|eassumption]|apply fold_max; [apply V|intros; apply V|eassumption]]).
  Qed.
  Lemma C63_real_lemma en (s s' : clipper R) ls : (forall l, Permutation (en_order en l) l) -> rings (verts s) ls -> starts s = map (hd 0%nat) ls ->
    process_intersect en s = Ok s' ->
    (length (verts s') <= length (verts s) + 9 * (length (concat ls) * (length (concat ls) - 1)))%nat.
  Proof.
    intros PO RG ST. apply C63_boxes_lemma; auto. apply Forall_forall. intros i I.
    destruct (rings_drawable _ _ i RG I) as (v & g & V & G & D). exists v, g. csplit; auto. destruct g; try destruct D; cbn [seg_boundary].
    - apply (box_sound _ (v_pt v)). cbn; auto.
    - unfold get_boundary. do 2 destruct (boundary_axis _ _). apply (box_sound _ (v_pt v)). left. reflexivity.
  Qed.
  Lemma C63_drawn_lemma en (ps : list (path_type * list (list (outline (T := R))))) (s s' : clipper R) : (forall l, Permutation (en_order en l) l) ->
    Forall (fun o => Forall drawing (snd o)) (all_outlines ps) -> add_all clipper0 ps = Ok s -> process_intersect en s = Ok s' ->
    (length (verts s') <= length (verts s) + 9 * (length (verts s) * (length (verts s) - 1)))%nat.
  Proof.
    intros PO D A H. destruct (drawn_rings ps D) as (s0 & ls & E & RG & ST & _). rewrite A in E. injection E as <-. pose proof (C63_real_lemma en s s' ls PO RG ST H) as K.
    assert (L : (length (concat ls) <= length (verts s))%nat).
    { destruct RG as (RG1 & ND). rewrite <- (seq_length (length (verts s)) 0). apply NoDup_incl_length; auto. intros i I. destruct (rings_drawable _ _ i (conj RG1 ND) I) as (v & g & V & _). apply nth_lt in V. apply in_seq. lia. }
    clear -K L. nia.
  Qed.
End Reals.
