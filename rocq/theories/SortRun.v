(** How equivalent elements are ordered does not matter. *)
From Coq Require Import ZArith Bool List Lia Reals Lra Sorted Permutation.
From Verif Require Import Outcome Num Order Rmath Segment Path PathSpec PathProofs RTac VState VPath VBreak VLemmas AelSpec VAel VOut VMain SortProofs
  RingSpec MarkProofs MarkSpec BreakSpec VRing VBuild VAdd VBroken VRepeat TraceR LineSpec LineR BreakStatements BreakDrawn BreakLines EquiMap RenSort RenRun
  Layout LayoutSpec LayoutLines LayoutProofs ListSpec Listing ListCount ListBreak ListSegs ListRun ListProofs SortSpec VSort.
Import ListNotations.
Local Open Scope out.

(** *** The model's sort is one of them. *)
Lemma weak_le {A} (lt : A -> A -> bool) l a b c : weak_order lt l -> In a l -> In b l -> In c l -> lt b a = false -> lt c b = false -> lt c a = false.
Proof.
  intros (I & TR & EQ) A1 B1 C1 H K. destruct (lt c a) eqn:E; auto. destruct (lt a b) eqn:F.
  - rewrite (TR c a b) in K by auto. discriminate.
  - destruct (lt b c) eqn:G.
    + rewrite (TR b c a) in H by auto. discriminate.
    + destruct (EQ a b c) as (_ & Z); auto. congruence.
Qed.
Lemma weak_asym {A} (lt : A -> A -> bool) l a b : weak_order lt l -> In a l -> In b l -> lt a b = true -> lt b a = false.
Proof. intros (I & TR & _) HA HB H. destruct (lt b a) eqn:E; auto. rewrite <- (I a HA). symmetry. eauto. Qed.
Lemma insert_sorts (f : forall A : Type, list A -> list A) : (forall A (l : list A), Permutation l (f A l)) -> sorts (fun A lt l => sort_by lt (f A l)).
Proof.
  intros P A lt l W. split; [etransitivity; [apply P|apply sort_by_perm]|].
  apply (sort_by_sorted lt (fun x => In x l)).
  - intros a b c HA HB HC. eapply weak_le; eauto.
  - intros a b HA HB. destruct (lt a b) eqn:E; [eapply weak_asym; eauto|auto].
  - apply Forall_forall. intros x X. eapply Permutation_in; [symmetry; apply P|exact X].
Qed.
Lemma sort_by_sorts : sorts (@sort_by).
Proof. exact (insert_sorts (fun _ l => l) (fun _ l => Permutation_refl l)). Qed.
Lemma back_sorts : sorts (fun A lt l => sort_by lt (rev l)).
Proof. exact (insert_sorts (@rev) (@Permutation_rev)). Qed.

Section Same.
  Variable srt : forall A : Type, (A -> A -> bool) -> list A -> list A.
  Hypothesis S : sorts srt.
  Lemma same_sort {A} (lt : A -> A -> bool) l : weak_order lt l -> (forall a b, In a l -> In b l -> lt a b = false -> lt b a = false -> a = b) ->
    srt A lt l = sort_by lt l.
  Proof.
    intros W U. destruct (S A lt l W) as (P & SS). destruct (sort_by_sorts A lt l W) as (P' & SS').
    apply (sorted_once (fun a b => lt b a = false)); auto.
    - etransitivity; [symmetry; exact P|exact P'].
    - intros a b HA HB H K. apply (Permutation_in _ (Permutation_sym P)) in HA, HB. apply U; auto.
  Qed.

  (** *** The places where the order of the edges changes *)
  Lemma real_order (l : list R) : weak_order n_ltb l.
  Proof.
    cbn [n_ltb R_num]. split; [|split]; intros.
    - apply Rltb_false. lra.
    - rewrite Rltb_true in *. lra.
    - rewrite !Rltb_false in *. lra.
  Qed.
  Lemma tidy_changes_same (l : list R) : tidy_changes_by srt l = tidy_changes l.
  Proof.
    unfold tidy_changes_by, tidy_changes. rewrite same_sort; auto using real_order. cbn [n_ltb R_num]. intros a b _ _. rewrite !Rltb_false. lra.
  Qed.
  Lemma recalc_same (s : clipper R) : recalc_windcnt_by srt s = recalc_windcnt s.
  Proof. unfold recalc_windcnt_by, recalc_windcnt. now rewrite tidy_changes_same. Qed.
  Lemma resort_same (s : clipper R) : resort_ael_by srt s = resort_ael s.
  Proof. unfold resort_ael_by, resort_ael. now rewrite tidy_changes_same. Qed.
  Lemma bind_same {A B} (o : outcome A) (f g : A -> outcome B) : (forall a, f a = g a) -> bind o f = bind o g.
  Proof. intros H. destruct o; cbn; auto. Qed.
  Lemma sweep_same n fuel : forall (s : clipper R) y, sweep_by srt n fuel s y = sweep n fuel s y.
  Proof.
    induction fuel as [|fuel IH]; intros s y; [reflexivity|]. cbn [sweep_by sweep].
    assert (E : scan_at_by srt n s y = scan_at n s y).
    { unfold scan_at_by, scan_at. apply bind_same. intros a. now rewrite recalc_same. }
    rewrite E. apply bind_same. intros a. destruct (pop_scanline a y) as [[y'|] t]; [|reflexivity].
    assert (F : beam_by srt n t y' = beam n t y').
    { unfold beam_by, beam. apply bind_same. intros b. apply bind_same. intros c. apply resort_same. }
    rewrite F. apply bind_same. intros b. apply IH.
  Qed.

  (** *** The records of intersections *)
  Lemma break_order en (l : list (break_info R)) : (forall i j, en_addr en i = en_addr en j -> i = j) -> weak_order (break_ltb en) l.
  Proof.
    intros J. unfold break_ltb. cbn [n_ltb R_num].
    assert (D : forall i j, Nat.eqb i j = false -> en_addr en i <> en_addr en j).
    { intros i j H K. apply J in K. subst. now rewrite Nat.eqb_refl in H. }
    split; [|split].
    - intros a _. rewrite Nat.eqb_refl. apply Rltb_false. lra.
    - intros a b c _ _ _. destruct (Nat.eqb (br_vert a) (br_vert b)) eqn:E1; destruct (Nat.eqb (br_vert b) (br_vert c)) eqn:E2; destruct (Nat.eqb (br_vert a) (br_vert c)) eqn:E3;
        rewrite ?Nat.eqb_eq, ?Nat.eqb_neq in *; try (exfalso; congruence); rewrite ?Rltb_true, ?Z.ltb_lt; try lra; try (rewrite ?E1, ?E2 in *; auto; fail).
      + rewrite E3. lia.
      + lia.
    - intros a b c _ _ _. destruct (Nat.eqb (br_vert a) (br_vert b)) eqn:E1.
      + pose proof E1 as E1'. apply Nat.eqb_eq in E1. rewrite E1, Nat.eqb_refl. rewrite (Nat.eqb_sym (br_vert c)).
        destruct (Nat.eqb (br_vert b) (br_vert c)) eqn:E2; [|auto]. rewrite !Rltb_false. lra.
      + intros H K. rewrite (Nat.eqb_sym (br_vert b) (br_vert a)), E1 in K. rewrite Z.ltb_ge in *. exfalso. apply (D _ _ E1). lia.
  Qed.
  Lemma break_tie en (bs : list (break_info R)) a b : (forall i j, en_addr en i = en_addr en j -> i = j) -> told_once bs -> In a bs -> In b bs ->
    break_ltb en a b = false -> break_ltb en b a = false -> a = b.
  Proof.
    intros J U HA HB. unfold break_ltb. rewrite (Nat.eqb_sym (br_vert b)). destruct (Nat.eqb (br_vert a) (br_vert b)) eqn:E.
    - cbn [n_ltb R_num]. rewrite !Rltb_false. intros H K. apply U; auto; [now apply Nat.eqb_eq|]. cbn [n_eqb R_num]. apply Reqb_true. lra.
    - rewrite !Z.ltb_ge. intros H K. assert (Q : br_vert a = br_vert b) by (apply J; lia). apply Nat.eqb_neq in E. congruence.
  Qed.
  Lemma tidy_breaks_same en (bs : list (break_info R)) : (forall i j, en_addr en i = en_addr en j -> i = j) -> told_once bs ->
    tidy_breaks_by srt en bs = tidy_breaks en bs.
  Proof. intros J U. unfold tidy_breaks_by, tidy_breaks. rewrite same_sort; auto using break_order. intros a b. now apply break_tie. Qed.
  Lemma take_run_sub v (l : list (break_info R)) : forall x y, take_run v l = (x, y) -> (forall b, In b x -> In b l /\ br_vert b = v) /\ forall b, In b y -> In b l.
  Proof.
    induction l as [|c l IH]; cbn; intros x y H; [injection H as <- <-; cbn; tauto|]. destruct (Nat.eqb (br_vert c) v) eqn:E.
    - destruct (take_run v l) as (x' & y') eqn:F. injection H as <- <-. destruct (IH _ _ eq_refl) as (A & B). split; [|auto].
      intros b [<-|Hb]; [apply Nat.eqb_eq in E; auto|]. destruct (A b Hb). auto.
    - injection H as <- <-. split; [intros b []|auto].
  Qed.
  Lemma break_vertex_sort (s : clipper R) v bs : told_once bs -> (forall b, In b bs -> br_vert b = v) -> break_vertex_by srt s v bs = break_vertex s v bs.
  Proof.
    intros U V. unfold break_vertex_by, break_vertex. apply bind_same. intros w. apply bind_same. intros [p|p|a1 a2 p|c1 c2 p]; auto. cbv zeta. rewrite same_sort; auto.
    - split; [|split]; cbn [n_ltb R_num]; intros.
      + apply Rltb_false. lra.
      + rewrite Rltb_true in *. lra.
      + rewrite !Rltb_false in *. lra.
    - cbn [n_ltb R_num]. intros a b A B. rewrite !Rltb_false. intros H K. apply U; auto; [rewrite !V; auto|]. cbn [n_eqb R_num]. apply Reqb_true. lra.
  Qed.
  Lemma break_all_sort fuel : forall (s : clipper R) l, told_once l -> break_all_by srt fuel s l = break_all fuel s l.
  Proof.
    induction fuel as [|fuel IH]; intros s l U; (destruct l as [|b l]; [reflexivity|]); [reflexivity|]. cbn [break_all_by break_all].
    destruct (take_run (br_vert b) (b :: l)) as (x & y) eqn:E. destruct (take_run_sub _ _ _ _ E) as (A & B).
    rewrite break_vertex_sort; [|intros c d C D; apply U; apply A; auto|intros c C; apply A; auto]. apply bind_same. intros t. apply IH. intros c d C D. apply U; auto.
  Qed.
  Lemma intersect_sort en (s : clipper R) : (forall i j, en_addr en i = en_addr en j -> i = j) ->
    (forall bs, find_breaks en (verts s) (starts s) = Ok bs -> told_once bs) -> process_intersect_by srt en s = process_intersect en s.
  Proof.
    intros J U. unfold process_intersect_by, process_intersect. destruct (find_breaks en (verts s) (starts s)) as [bs| | |]; try reflexivity. cbn [bind]. cbv zeta.
    specialize (U bs eq_refl). rewrite tidy_breaks_same by auto. apply break_all_sort. intros b c B C. apply U; eapply tidy_in; eauto.
  Qed.

  (** *** The queue of minima *)
  Lemma queue_sort (s t : clipper R) : lmins t = lmins s -> minima t = minima s -> keeps (verts s) (verts t) ->
    (forall m, In m (lmins s) -> exists v, nth_error (verts s) (lm_vert m) = Some v) -> (forall k, In k (minima s) -> k < length (lmins s)) -> minima_apart s ->
    srt _ (min_ltb t) (minima t) = sort_by (min_ltb t) (minima t).
  Proof.
    intros L M K V B AP. rewrite M.
    assert (LX : forall a b, In a (minima s) -> In b (minima s) -> (min_ltb t a b = true <-> lex_lt (min_at s a) (min_at s b))) by (intros a b HA HB; apply min_ltb_lex; auto).
    assert (LN : forall a b, In a (minima s) -> In b (minima s) -> (min_ltb t a b = false <-> ~ lex_lt (min_at s a) (min_at s b))).
    { intros a b HA HB. specialize (LX a b HA HB). destruct (min_ltb t a b); split; intros; auto; try discriminate; [exfalso; tauto|]. intros Q. apply LX in Q. discriminate. }
    apply same_sort.
    - split; [|split].
      + intros a HA. apply LN; auto. unfold lex_lt. lra.
      + intros a b c HA HB HC. rewrite !LX by auto. unfold lex_lt. lra.
      + intros a b c HA HB HC. rewrite !LN by auto. unfold lex_lt. intros. split; lra.
    - intros a b HA HB. rewrite !LN by auto. intros H1 H2. destruct (nth_some _ _ (B a HA)) as (m & MA). destruct (nth_some _ _ (B b HB)) as (m' & MB).
      destruct (V m (nth_error_In _ _ MA)) as (v & Hv). destruct (V m' (nth_error_In _ _ MB)) as (w & Hw). apply (AP a b m m' v w); auto.
      unfold lex_lt, min_at in *. rewrite MA, MB, Hv, Hw in *. destruct (v_pt v), (v_pt w). cbn in *. f_equal; lra.
  Qed.
  Lemma process_sort en n (s : clipper R) op fill : (forall i j, en_addr en i = en_addr en j -> i = j) ->
    (forall bs, find_breaks en (verts s) (starts s) = Ok bs -> told_once bs) ->
    (forall m, In m (lmins s) -> exists v, nth_error (verts s) (lm_vert m) = Some v) -> (forall k, In k (minima s) -> k < length (lmins s)) -> minima_apart s ->
    process_by srt en n s op fill = process en n s op fill.
  Proof.
    intros J U V B AP. unfold process_by, process. rewrite intersect_sort by auto. destruct (process_intersect en (w_op s op fill)) as [t| | |] eqn:E; try reflexivity. cbn [bind].
    apply process_intersect_same in E as ((_ & L & M & _) & K). cbn [lmins minima verts w_op] in *.
    assert (RS : reset_by srt t = reset t) by (unfold reset_by, reset; now rewrite (queue_sort s t)).
    rewrite RS. apply bind_same. intros u. destruct (pop_scanline u (n_neg n_huge)) as [[y|] u']; [|reflexivity]. now rewrite sweep_same.
  Qed.

  (** *** Drawings *)
  Lemma drawn_minima ps (s : clipper R) : drawable_paths ps -> add_all clipper0 ps = Ok s ->
    (forall m, In m (lmins s) -> exists v, nth_error (verts s) (lm_vert m) = Some v) /\ (forall k, In k (minima s) -> k < length (lmins s)).
  Proof.
    intros D E. destruct (drawn_state ps s D E) as (ls & RG & ST & LM & _). split.
    - intros m Hm. rewrite Forall_forall in LM. destruct (rings_in _ _ (lm_vert m) RG (LM m Hm)) as (l & gs & j & g & v & w & K). exists v. tauto.
    - destruct (add_all_built ps clipper0 [] [] D (built_nil _)) as (s' & cs & E' & Bu). rewrite E in E'. injection E' as <-.
      destruct Bu as (_ & _ & _ & _ & L & K & _). assert (MN : minima s = seq 0 (length (lmins s))) by (rewrite K, L; reflexivity).
      intros k H. rewrite MN in H. apply in_seq in H. lia.
  Qed.
  Lemma curves_sort en n ps (s : clipper R) op fill : drawable_paths ps -> add_all clipper0 ps = Ok s -> lawful en ->
    (forall bs, find_breaks en (verts s) (starts s) = Ok bs -> told_once bs) -> minima_apart s -> process_by srt en n s op fill = process en n s op fill.
  Proof. intros D E (_ & J) U AP. destruct (drawn_minima ps s D E). now apply process_sort. Qed.
  Lemma corners_apart ps (s : clipper R) : Forall polygon (all_outlines ps) -> distinct_corners (listing ps) -> add_all clipper0 ps = Ok s -> minima_apart s.
  Proof.
    intros P ND E. destruct (drawn_built ps s P ND E) as (cs & B & IT & RG & SS & ST).
    assert (KS : Forall (fun k => kept k = true) (filter kept (listing ps))) by (apply Forall_forall; intros k K; now apply filter_In in K).
    assert (OKC : Forall (contour_ok (verts s)) cs) by (destruct B as (_ & _ & OK & _); auto).
    pose proof (one_place (verts s) _ _ KS OKC IT (nodup_filter _ _ _ ND)) as PI.
    assert (LM : lmins s = all_lows cs) by (destruct B as (_ & _ & _ & _ & L & _); rewrite L; reflexivity).
    assert (NV : NoDup (all_verts cs)) by (destruct B as (_ & _ & _ & _ & _ & _ & NV & _); exact NV).
    assert (LV : forall m, In m (lmins s) -> In (lm_vert m) (all_verts cs)).
    { intros m H. rewrite LM in H. apply lows_in in H as (c & C & _ & MK). rewrite Forall_forall in OKC.
      apply (marks_low _ _ _ (OKC c C)) in MK. apply in_flat_map. exists c. split; auto. eapply lowest_in; eauto. }
    intros a b m m' v w HA HB MA MB Hv Hw EQ.
    assert (EV : lm_vert m = lm_vert m') by (apply (PI _ _ v w); auto; apply LV; eapply nth_error_In; eauto).
    pose proof (lows_nodup _ _ OKC NV) as NL. rewrite <- LM in NL. apply (proj1 (NoDup_nth_error _) NL).
    - rewrite map_length. eapply nth_lt; eauto.
    - rewrite !nth_error_map, MA, MB. cbn. now rewrite EV.
  Qed.
  Lemma polygons_told en ps (s : clipper R) bs : Forall polygon (all_outlines ps) -> add_all clipper0 ps = Ok s -> lawful en ->
    find_breaks en (verts s) (starts s) = Ok bs -> told_once bs.
  Proof.
    intros PG E (PO & J) FB. destruct (drawn_state ps s (polygon_drawing _ PG) E) as (ls & RG & ST & LM & NE & H).
    destruct (find_breaks_lines en s ls PO RG ST) as (bs' & FB' & EX & _); [eapply drawn_straight; eauto|]. rewrite FB in FB'. injection FB' as <-.
    intros b c B C V T. rewrite Forall_forall in EX. cbn in T. apply Reqb_true in T. pose proof (exact_same _ b c (EX b B) (EX c C) V T). destruct b, c; cbn in *; congruence.
  Qed.
  Lemma polygons_sort en n ps (s : clipper R) op fill : Forall polygon (all_outlines ps) -> distinct_corners (listing ps) -> add_all clipper0 ps = Ok s -> lawful en ->
    process_by srt en n s op fill = process en n s op fill.
  Proof.
    intros P ND E L. apply (curves_sort en n ps); auto; [now apply polygon_drawing| |eapply corners_apart; eauto].
    intros bs. now apply (polygons_told en ps).
  Qed.
End Same.
