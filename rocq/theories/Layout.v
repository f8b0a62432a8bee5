(** The output of [process] does not depend on the addresses of the vertices. *)
From Coq Require Import ZArith Bool List Lia Sorted Permutation.
From Verif Require Import Outcome Num Order Rmath Segment Path PathSpec ScanLine VState VPath VBreak VAel VOut VMain VLemmas AelSpec SortProofs
  RingSpec BreakSpec VRing VBuild VAdd VCut VBroken VFresh BreakDrawn EquiMap RenMap RenBreak RenSort RenRun.
Import ListNotations.
Local Open Scope out.

Section Layout.
  Context {T : Type} {N : Num T} {O : OrdNum T}.
  Implicit Types s : clipper T.
  Lemma break_pair_open a b l x : In x (break_pair (T := T) a b l) -> in_open (br_t x) = true.
  Proof.
    unfold break_pair. intros H. apply in_flat_map in H as (i & _ & H). apply in_app_or in H.
    destruct (in_open (it0 i)) eqn:E0, (in_open (it1 i)) eqn:E1; simpl in H; destruct H as [H|H]; try contradiction; destruct H as [<-|[]]; auto.
  Qed.
  Lemma seg_intersect_open en vs a b bs x : seg_intersect en vs a b = Ok bs -> In x bs -> in_open (br_t x) = true.
  Proof.
    unfold seg_intersect. intros H Hx. apply bind_ok in H as (vl & _ & H). apply bind_ok in H as (vr & _ & H).
    apply bind_ok in H as (gr & _ & H). apply bind_ok in H as (gl & _ & H).
    destruct gl, gr; try discriminate; try (injection H as <-; contradiction);
      apply bind_ok in H as (res & _ & H); injection H as <-; apply break_pair_open in Hx; auto.
  Qed.
  Lemma run_pairs_open en vs vids l : forall bs x, run_pairs en vs vids l = Ok bs -> In x bs -> in_open (br_t x) = true.
  Proof.
    induction l as [|[a b] l IH]; cbn [run_pairs]; intros bs x H Hx; [injection H as <-; contradiction|].
    apply bind_ok in H as (a' & A & H). apply bind_ok in H as (b' & B & H). apply bind_ok in H as (u & U & H).
    apply bind_ok in H as (y & Y & H). injection H as <-. apply in_app_or in Hx as [Hx|Hx]; [|eauto]. eapply seg_intersect_open; eauto.
  Qed.
  Lemma find_breaks_open en vs sts bs : find_breaks en vs sts = Ok bs -> Forall (fun b : break_info T => in_open (br_t b) = true) bs.
  Proof.
    unfold find_breaks. intros H. apply bind_ok in H as (vids & _ & H). apply bind_ok in H as (bx & _ & H). apply Forall_forall. intros x X. eapply run_pairs_open; eauto.
  Qed.
  Lemma find_breaks_vert en s ls bs : rings (verts s) ls -> starts s = map (hd 0) ls -> find_breaks en (verts s) (starts s) = Ok bs ->
    Forall (fun b : break_info T => In (br_vert b) (concat ls)) bs.
  Proof.
    intros R ST. unfold find_breaks. rewrite ST, all_rings_ok by (destruct R as [R _]; eapply Forall_impl; [|exact R]; intros l (gs & H & _); eauto).
    cbn [bind]. intros H. apply bind_ok in H as (bx & _ & H). apply Forall_forall. intros x X. eapply run_pairs_vert; eauto.
  Qed.
  Lemma drawn_state ps s : drawable_paths ps -> add_all clipper0 ps = Ok s -> exists ls, rings (verts s) ls /\ starts s = map (hd 0) ls /\
    Forall (fun m => In (lm_vert m) (concat ls)) (lmins s) /\ edges s = [] /\
    forall l, In l ls -> exists o, In o (all_outlines ps) /\ accepted (outline_segs o) = true /\ ring (verts s) l (outline_segs o).
  Proof.
    intros D E. destruct (add_all_built ps clipper0 [] [] D (built_nil _)) as (s' & cs & E' & B). rewrite E in E'. injection E' as <-.
    destruct (built_rings _ _ _ B (items_drawable ps)) as [R ST]. exists (map c_verts cs). csplit; auto.
    - destruct B as ((G & _) & _ & OKC & _ & LM & MN & _). rewrite LM. cbn [clipper0 lmins app]. apply Forall_forall. intros x Hx. unfold all_lows in Hx. apply in_flat_map in Hx as (c & Hc & Hx).
      apply in_map_iff in Hx as (i & <- & Hi). cbn [lm_vert]. unfold lows in Hi. apply in_map_iff in Hi as ([i' k] & Q & Hi). cbn [fst] in Q. subst i'.
      apply filter_In in Hi as [Hi _]. rewrite Forall_forall in OKC. destruct (OKC c Hc) as (f & r & EV & NE & _ & X & _).
      apply in_concat. exists (c_verts c). split; [apply in_map; exact Hc|]. rewrite EV.
      eapply sub_in; [eapply extremes_sub; eauto|]. change i with (fst (i, k)). now apply in_map.
    - destruct B as ((G & _) & _). rewrite G. reflexivity.
    - intros l Hl. apply in_map_iff in Hl as (c & <- & Hc). destruct B as (_ & IT & OK & _). rewrite Forall_forall in OK.
      destruct (OK c Hc) as (f & r & EV & NE & R' & _). rewrite EV.
      assert (K : In (c_type c, c_segs c) (filter (fun it => accepted (snd it)) (flat_map (fun x => items (fst x) (concat (snd x))) ps))).
      { cbn [app] in IT. rewrite <- IT. exact (in_map (fun c : contour => (c_type c, c_segs c)) cs c Hc). }
      apply filter_In in K as [K AC]. destruct (items_outline _ _ K) as (o & Ho & EQ). cbn [snd] in *. exists o. rewrite <- EQ. auto.
  Qed.

  (** *** The order in which the pairs come *)
  Section Pairs.
    Variables o o' : list nat -> list nat.
    Hypothesis P : forall l, Permutation (o l) l.
    Hypothesis P' : forall l, Permutation (o' l) l.
    Lemma filter_perm {A} (f : A -> bool) l m : Permutation l m -> Permutation (filter f l) (filter f m).
    Proof.
      induction 1 as [|x l m H IH|x y l|l m k H IH H' IH']; cbn; auto.
      - destruct (f x); auto.
      - destruct (f x), (f y); auto using perm_swap.
      - etransitivity; eauto.
    Qed.
    Lemma do_in_perm (bx : list (rect T)) ins : forall cur, Permutation (fst (do_in o bx ins cur)) (fst (do_in o' bx ins cur)) /\ snd (do_in o bx ins cur) = snd (do_in o' bx ins cur).
    Proof.
      induction ins as [|i r IH]; intros cur; cbn [do_in]; [split; auto|]. destruct (IH (set_insert i cur)) as (A & B).
      destruct (do_in o bx r (set_insert i cur)) as (u & c), (do_in o' bx r (set_insert i cur)) as (u' & c'). cbn [fst snd] in *. split; auto.
      apply Permutation_app; auto. apply Permutation_map, filter_perm. etransitivity; [apply P|]. symmetry. apply P'.
    Qed.
    Lemma do_points_perm (bx : list (rect T)) ps : forall cur, Permutation (do_points o bx ps cur) (do_points o' bx ps cur).
    Proof.
      induction ps as [|p r IH]; intros cur; cbn [do_points]; auto. destruct (do_in_perm bx (sp_in p) cur) as (A & B).
      destruct (do_in o bx (sp_in p) cur) as (u & c), (do_in o' bx (sp_in p) cur) as (u' & c'). cbn [fst snd] in *. subst c'. now apply Permutation_app.
    Qed.
  End Pairs.
  Lemma run_pairs_env en en' (vs : list (vertex T)) vids l : en_fuel en = en_fuel en' -> run_pairs en vs vids l = run_pairs en' vs vids l.
  Proof. destruct en, en'. cbn. intros ->. reflexivity. Qed.
  Lemma run_pairs_perm en (vs : list (vertex T)) vids l l' : Permutation l l' -> forall bs, run_pairs en vs vids l = Ok bs -> exists bs', run_pairs en vs vids l' = Ok bs' /\ Permutation bs bs'.
  Proof.
    induction 1 as [|(a & b) l m H IH|(a & b) (c & d) l|l m k H IH H' IH']; intros bs E; cbn [run_pairs] in *.
    - eauto.
    - apply bind_ok in E as (i & A & E). apply bind_ok in E as (j & C & E). apply bind_ok in E as (x & X & E). apply bind_ok in E as (y & Y & E). injection E as <-.
      destruct (IH y Y) as (y' & Y' & Q). exists (x ++ y'). rewrite A. cbn [bind]. rewrite C. cbn [bind]. rewrite X. cbn [bind]. rewrite Y'. split; auto using Permutation_app_head.
    - apply bind_ok in E as (i & A & E). apply bind_ok in E as (j & C & E). apply bind_ok in E as (x & X & E). apply bind_ok in E as (y & Y & E). injection E as <-.
      apply bind_ok in Y as (i' & A' & E). apply bind_ok in E as (j' & C' & E). apply bind_ok in E as (x' & X' & E). apply bind_ok in E as (z & Z & E). injection E as <-.
      exists (x' ++ x ++ z). rewrite A'. cbn [bind]. rewrite C'. cbn [bind]. rewrite X'. cbn [bind]. rewrite A. cbn [bind]. rewrite C. cbn [bind]. rewrite X. cbn [bind]. rewrite Z.
      split; auto. rewrite !app_assoc. apply Permutation_app_tail, Permutation_app_comm.
    - destruct (IH bs E) as (b1 & E1 & Q1). destruct (IH' b1 E1) as (b2 & E2 & Q2). exists b2. split; auto. etransitivity; eauto.
  Qed.
  Lemma find_breaks_perm en en' (vs : list (vertex T)) sts bs : en_fuel en = en_fuel en' -> (forall l, Permutation (en_order en l) l) -> (forall l, Permutation (en_order en' l) l) ->
    find_breaks en vs sts = Ok bs -> exists bs', find_breaks en' vs sts = Ok bs' /\ Permutation bs bs'.
  Proof.
    intros EF PO PO'. unfold find_breaks. destruct (all_rings vs sts) as [vids| | |]; try discriminate. cbn [bind]. destruct (vert_boxes vs vids) as [bx| | |]; try discriminate. cbn [bind].
    rewrite (run_pairs_env en en' _ _ _ EF). apply run_pairs_perm. apply do_points_perm; auto.
  Qed.

  (** *** Sorting what came in another order *)
  Hypothesis open_valid : forall t : T, in_open t = true -> nvalid t.
  (** Records of one segment with equal parameters are the same. *)
  Definition one_each (bs : list (break_info T)) : Prop :=
    forall b c, In b bs -> In c bs -> br_vert b = br_vert c -> n_eqb (br_t b) (br_t c) = true -> b = c.
  Lemma sorted_once {A} (le : A -> A -> Prop) l : StronglySorted le l -> forall m, StronglySorted le m -> Permutation l m ->
    (forall a b, In a l -> In b l -> le a b -> le b a -> a = b) -> l = m.
  Proof.
    induction 1 as [|a l S IH F]; intros m SM PM AS; [now apply Permutation_nil in PM|].
    destruct m as [|b m]; [symmetry in PM; now apply Permutation_nil in PM|]. inversion SM as [|? ? SM' FM]; subst.
    assert (a = b).
    { assert (Ha : In a (b :: m)) by (eapply Permutation_in; [exact PM|now left]). assert (Hb : In b (a :: l)) by (eapply Permutation_in; [symmetry; exact PM|now left]).
      destruct Ha as [->|Ha]; auto. destruct Hb as [->|Hb]; auto. rewrite Forall_forall in F, FM. apply AS; cbn; auto. }
    subst b. f_equal. apply IH; auto.
    - eapply Permutation_cons_inv; exact PM.
    - intros x y X Y. apply AS; now right.
  Qed.
  Lemma sort_once (l l' : list (break_info T)) i : Forall good l -> one_each l -> Permutation l l' -> sort_by t_ltb (filter (at_v i) l) = sort_by t_ltb (filter (at_v i) l').
  Proof.
    intros G U PM. pose proof (filter_perm (at_v i) l l' PM) as PF. assert (GF : Forall good (filter (at_v i) l)).
    { rewrite Forall_forall in *. intros x X. apply filter_In in X as (X & _). auto. }
    assert (SS : forall m, Forall good m -> StronglySorted (fun a b => nle (br_t a) (br_t b)) (sort_by t_ltb m)).
    { intros m GM. apply (sort_by_sorted t_ltb good (fun a b => nle (br_t a) (br_t b))); auto.
      - intros a b c A B C. now apply nle_trans.
      - intros a b A B. unfold t_ltb. destruct (n_ltb (br_t a) (br_t b)) eqn:E; [now apply nlt_le|now apply nle_not_lt]. }
    apply (sorted_once (fun a b => nle (br_t a) (br_t b))).
    - now apply SS.
    - apply SS. eapply Permutation_Forall; eauto.
    - etransitivity; [symmetry; apply sort_by_perm|]. etransitivity; [exact PF|apply sort_by_perm].
    - intros a b A B. apply (Permutation_in _ (Permutation_sym (sort_by_perm _ _))) in A, B. apply filter_In in A as (A & A'), B as (B & B').
      apply Nat.eqb_eq in A', B'. intros L1 L2. apply U; auto; [congruence|]. rewrite Forall_forall in G. rewrite neq_le by (apply G; auto). now rewrite L1, L2.
  Qed.
  Lemma process_orders en en' n s ls op fill bs : rings (verts s) ls -> starts s = map (hd 0) ls -> Forall (fun m => In (lm_vert m) (concat ls)) (lmins s) -> edges s = [] ->
    en_fuel en = en_fuel en' -> (forall l, Permutation (en_order en l) l) -> (forall l, Permutation (en_order en' l) l) ->
    (forall i j, en_addr en i = en_addr en j -> i = j) -> (forall i j, en_addr en' i = en_addr en' j -> i = j) ->
    find_breaks en (verts s) (starts s) = Ok bs -> one_each bs ->
    omap snd (process en n s op fill) = omap snd (process en' n s op fill).
  Proof.
    intros R ST LM NE EF PO PO' J J' FB U. destruct (find_breaks_perm en en' _ _ _ EF PO PO' FB) as (bs' & FB' & PM).
    pose proof (find_breaks_vert _ _ _ _ R ST FB) as FV. pose proof (find_breaks_vert _ _ _ _ R ST FB') as FV'. pose proof (find_breaks_open _ _ _ _ FB) as FO. pose proof (find_breaks_open _ _ _ _ FB') as FO'.
    assert (G : Forall good bs) by (eapply Forall_impl; [|exact FO]; intros b; apply open_valid).
    assert (G' : Forall good bs') by (eapply Forall_impl; [|exact FO']; intros b; apply open_valid).
    assert (F : forall i, filter (at_v i) (tidy_breaks en bs) = filter (at_v i) (tidy_breaks en' bs')) by (intros i; rewrite !filter_tidy by auto; now rewrite (sort_once bs bs' i)).
    assert (TV : forall l e, Forall (fun b : break_info T => In (br_vert b) (concat ls)) l -> Forall (fun b : break_info T => In (br_vert b) (concat ls)) (tidy_breaks e l)).
    { intros l e H. rewrite Forall_forall in *. intros b Hb. apply H. now apply tidy_in in Hb. }
    unfold process, process_intersect. cbn [verts starts w_op]. rewrite FB, FB'. cbn [bind]. cbv zeta.
    destruct (finish_same n (w_op s op fill) ls (tidy_breaks en bs) (tidy_breaks en' bs') R LM NE) as (vs & vs' & E1 & E2 & Q); auto.
    - apply Permutation_length. now apply same_filters.
    - intros i. rewrite !tidy_runs by auto. now rewrite F.
    - rewrite E1, E2. cbn [bind]. exact Q.
  Qed.
  Lemma drawn_orders en en' n ps s op fill bs : drawable_paths ps -> add_all clipper0 ps = Ok s -> en_fuel en = en_fuel en' ->
    (forall l, Permutation (en_order en l) l) -> (forall l, Permutation (en_order en' l) l) ->
    (forall i j, en_addr en i = en_addr en j -> i = j) -> (forall i j, en_addr en' i = en_addr en' j -> i = j) ->
    find_breaks en (verts s) (starts s) = Ok bs -> one_each bs ->
    omap snd (process en n s op fill) = omap snd (process en' n s op fill).
  Proof. intros D E. destruct (drawn_state ps s D E) as (ls & R & ST & LM & NE & _). now apply process_orders with (ls := ls). Qed.

  (** *** Other addresses only *)
  Lemma find_breaks_env en en' vs sts : en_order en = en_order en' -> en_fuel en = en_fuel en' -> find_breaks (T := T) en vs sts = find_breaks en' vs sts.
  Proof. destruct en, en'. cbn. intros -> ->. reflexivity. Qed.
  Lemma process_layout en en' n s ls op fill : rings (verts s) ls -> starts s = map (hd 0) ls -> Forall (fun m => In (lm_vert m) (concat ls)) (lmins s) -> edges s = [] ->
    en_order en = en_order en' -> en_fuel en = en_fuel en' ->
    (forall i j, en_addr en i = en_addr en j -> i = j) -> (forall i j, en_addr en' i = en_addr en' j -> i = j) ->
    omap snd (process en n s op fill) = omap snd (process en' n s op fill).
  Proof.
    intros R ST LM NE EO EF J J'. unfold process, process_intersect. cbn [verts starts w_op]. rewrite (find_breaks_env en en' _ _ EO EF).
    destruct (find_breaks en' (verts s) (starts s)) as [bs| | |] eqn:FB; try reflexivity. cbn [bind]. cbv zeta.
    pose proof (find_breaks_vert _ _ _ _ R ST FB) as FV. pose proof (find_breaks_open _ _ _ _ FB) as FO.
    assert (G : Forall good bs) by (eapply Forall_impl; [|exact FO]; intros b; apply open_valid).
    destruct (tidy_same en en' bs J J' G) as (L & RF).
    assert (TV : forall e, Forall (fun b : break_info T => In (br_vert b) (concat ls)) (tidy_breaks e bs)).
    { intros e. rewrite Forall_forall in *. intros b Hb. apply FV. now apply tidy_in in Hb. }
    destruct (finish_same n (w_op s op fill) ls (tidy_breaks en bs) (tidy_breaks en' bs) R LM NE (TV en) (TV en') L RF) as (vs & vs' & E1 & E2 & Q).
    rewrite E1, E2. cbn [bind]. exact Q.
  Qed.
  Lemma drawn_layout en en' n ps s op fill : drawable_paths ps -> add_all clipper0 ps = Ok s ->
    en_order en = en_order en' -> en_fuel en = en_fuel en' ->
    (forall i j, en_addr en i = en_addr en j -> i = j) -> (forall i j, en_addr en' i = en_addr en' j -> i = j) ->
    omap snd (process en n s op fill) = omap snd (process en' n s op fill).
  Proof.
    intros D E. destruct (drawn_state ps s D E) as (ls & R & ST & LM & NE & _). now apply process_layout with (ls := ls).
  Qed.
End Layout.
