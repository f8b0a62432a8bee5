(** Which edges bound the result. *)
From Coq Require Import ZArith Bool List Permutation Sorted Lia.
From Verif Require Import Outcome Num Order Rmath Segment VState VAel VOut VMain VLemmas VFrame ClipSpec AelSpec
  VAelProofs VEdges VAelRun VRun WindSpec SortProofs VWind.
Import ListNotations.
Local Open Scope out.

Section Kept.
  Context {T : Type} {N : Num T}.
  Implicit Types s : clipper T.

  Lemma in_result_ex op fill s l : directed s l -> exists b, in_result op fill s l b.
  Proof.
    intros D. destruct (wind_ex s subject l D) as [w W], (wind_ex s clip l D) as [v V].
    eexists. exists w, v. eauto.
  Qed.
  Lemma in_result_fun op fill s l b c : in_result op fill s l b -> in_result op fill s l c -> b = c.
  Proof.
    intros (w & v & W & V & ->) (w' & v' & W' & V' & ->).
    now rewrite (wind_fun _ _ _ _ W _ W'), (wind_fun _ _ _ _ V _ V').
  Qed.
  Lemma in_result_nil op fill s : in_result op fill s [] false.
  Proof. exists 0%Z, 0%Z. csplit; try constructor. now destruct op, fill. Qed.

  Lemma fill_step fill w d : (d = 1 \/ d = -1)%Z ->
    xorb (in_fill fill w) (in_fill fill (w + d)) =
    match fill with
    | even_odd => true
    | non_zero => Z.eqb (Z.abs (deeper w (w + d))) 1
    | positive => Z.eqb (deeper w (w + d)) 1
    | negative => Z.eqb (deeper w (w + d)) (-1)
    end.
  Proof.
    intros D. unfold deeper.
    destruct fill; simpl.
    - destruct D as [-> | ->]; rewrite Z.odd_add; simpl; now destruct (Z.odd w).
    - destruct D as [-> | ->];
        [destruct (Z.ltb_spec (Z.abs w) (Z.abs (w + 1)))|destruct (Z.ltb_spec (Z.abs w) (Z.abs (w + -1)))];
        repeat match goal with |- context [Z.eqb ?a ?b] => destruct (Z.eqb_spec a b) end; simpl; lia.
    - destruct D as [-> | ->];
        [destruct (Z.ltb_spec (Z.abs w) (Z.abs (w + 1)))|destruct (Z.ltb_spec (Z.abs w) (Z.abs (w + -1)))];
        repeat match goal with |- context [Z.eqb ?a ?b] => destruct (Z.eqb_spec a b)
                          | |- context [Z.ltb ?a ?b] => destruct (Z.ltb_spec a b) end; simpl; lia.
    - destruct D as [-> | ->];
        [destruct (Z.ltb_spec (Z.abs w) (Z.abs (w + 1)))|destruct (Z.ltb_spec (Z.abs w) (Z.abs (w + -1)))];
        repeat match goal with |- context [Z.eqb ?a ?b] => destruct (Z.eqb_spec a b)
                          | |- context [Z.ltb ?a ?b] => destruct (Z.ltb_spec a b) end; simpl; lia.
  Qed.

  (** the count of the other type, as [contributing] reads it *)
  Definition cnt2_in (fill : fill_rule) (c2 : Z) : bool :=
    match fill with positive => Z.ltb 0 c2 | negative => Z.ltb c2 0 | _ => negb (Z.eqb c2 0) end.
  Lemma contributing_step op fill c d w v t c2 : (d = 1 \/ d = -1)%Z ->
    match fill with even_odd => c = d /\ c2 = (v mod 2)%Z | _ => c = deeper w (w + d) /\ c2 = v end ->
    contributing op fill c c2 t =
    xorb (match t with subject => bool_op op (in_fill fill w) (in_fill fill v) | clip => bool_op op (in_fill fill v) (in_fill fill w) end)
         (match t with subject => bool_op op (in_fill fill (w + d)) (in_fill fill v) | clip => bool_op op (in_fill fill v) (in_fill fill (w + d)) end).
  Proof.
    intros D C. pose proof (fill_step fill w d D) as FS.
    assert (IN : in_fill fill v = cnt2_in fill c2).
    { destruct fill; destruct C as [_ ->]; simpl; auto. rewrite Zmod_odd. now destruct (Z.odd v). }
    assert (OUT : match fill with positive => Z.leb c2 0 | negative => Z.leb 0 c2 | _ => Z.eqb c2 0 end = negb (cnt2_in fill c2)).
    { destruct fill; simpl; rewrite ?negb_involutive; auto; [rewrite Z.leb_antisym; auto|rewrite Z.leb_antisym; auto]. }
    assert (OWN : (match fill with
     | even_odd => true | non_zero => Z.eqb (Z.abs c) 1 | positive => Z.eqb c 1 | negative => Z.eqb c (-1) end) =
     xorb (in_fill fill w) (in_fill fill (w + d))).
    { rewrite FS. destruct fill; auto; destruct C as [-> _]; auto. }
    unfold contributing. rewrite OWN, IN.
    destruct op; simpl.
    - rewrite andb_false_r. now destruct t.
    - change (match fill with positive => Z.ltb 0 c2 | negative => Z.ltb c2 0 | _ => negb (Z.eqb c2 0) end) with (cnt2_in fill c2).
      destruct t, (in_fill fill w), (in_fill fill (w + d)), (cnt2_in fill c2); reflexivity.
    - rewrite OUT. destruct t, (in_fill fill w), (in_fill fill (w + d)), (cnt2_in fill c2); reflexivity.
    - rewrite OUT. destruct t, (in_fill fill w), (in_fill fill (w + d)), (cnt2_in fill c2); reflexivity.
    - destruct t, (in_fill fill w), (in_fill fill (w + d)), (cnt2_in fill c2); reflexivity.
  Qed.

  (** C27, one edge *)
  Lemma contributing_ok s l i e b c : nth_error (edges s) i = Some e -> directed s (l ++ [i]) -> counted (cfill s) s l i ->
    in_result (cop s) (cfill s) s l b -> in_result (cop s) (cfill s) s (l ++ [i]) c ->
    is_contributing s e = Ok (xorb b c).
  Proof.
    intros E D C (w & v & W & V & ->) (w' & v' & W' & V' & ->).
    destruct (D i) as (t & d & I & Dd); [apply in_or_app; right; now left|].
    destruct (get_polytype_is _ _ _ _ _ E I) as [G Gd]. unfold is_contributing. rewrite G. cbn [bind]. f_equal.
    destruct t.
    - pose proof (C e subject d w v E I W V) as K.
      rewrite (wind_fun _ _ _ _ W' (w + d)%Z), (wind_fun _ _ _ _ V' (v + 0)%Z).
      + rewrite Z.add_0_r. apply (contributing_step _ _ _ d w v subject); auto.
      + apply wind_app; auto. eapply wind_one_other. exact I.
      + apply wind_app; auto. now apply wind_one.
    - pose proof (C e clip d v w E I V W) as K.
      rewrite (wind_fun _ _ _ _ W' (w + 0)%Z), (wind_fun _ _ _ _ V' (v + d)%Z).
      + rewrite Z.add_0_r. apply (contributing_step _ _ _ d v w clip); auto.
      + apply wind_app; auto. now apply wind_one.
      + apply wind_app; auto. eapply wind_one_other. exact I.
  Qed.
  Lemma contributing_boundary s l i e : nth_error (edges s) i = Some e -> directed s (l ++ [i]) -> counted (cfill s) s l i ->
    exists k, is_contributing s e = Ok k /\ (k = true <-> boundary (cop s) (cfill s) s l i).
  Proof.
    intros E D C. pose proof D as D'. apply directed_app in D' as [D1 _].
    destruct (in_result_ex (cop s) (cfill s) s l D1) as [b B], (in_result_ex (cop s) (cfill s) s (l ++ [i]) D) as [c K].
    exists (xorb b c). split; [eapply contributing_ok; eauto|]. split.
    - intros X. exists b. split; auto. replace (negb b) with c by (destruct b, c; simpl in *; congruence). auto.
    - intros (b' & B' & K'). rewrite (in_result_fun _ _ _ _ _ _ B B'), (in_result_fun _ _ _ _ _ _ K K'). now destruct b'.
  Qed.

  Lemma kept_app s a ka : kept s a ka -> forall b kb, kept s b kb -> kept s (a ++ b) (ka ++ kb).
  Proof. induction 1; intros ? ? K; simpl; auto; [eapply kept_yes|eapply kept_no]; eauto. Qed.
  Lemma kept_fun s l k : kept s l k -> forall k', kept s l k' -> k = k'.
  Proof. induction 1; intros k' K; inversion K; subst; auto; try (f_equal; auto); congruence. Qed.
  Lemma all_counted_prefix fill s a b : all_counted fill s (a ++ b) -> all_counted fill s a.
  Proof. intros H l1 i l2 E. apply (H l1 i (l2 ++ b)). rewrite E, <- app_assoc. reflexivity. Qed.

  (** C27, points *)
  Lemma kept_parity s l : directed s l -> all_counted (cfill s) s l ->
    exists k, kept s l k /\ in_result (cop s) (cfill s) s l (Nat.odd (length k)).
  Proof.
    induction l as [|i l IH] using rev_ind; intros D C.
    - exists []. split; [constructor|]. apply in_result_nil.
    - pose proof D as D'. apply directed_app in D' as [D1 D2]. pose proof (all_counted_prefix _ _ _ _ C) as C1.
      destruct (IH D1 C1) as (k & K & R).
      destruct (D2 i (or_introl eq_refl)) as (t & d & (e & m & E & _) & _).
      destruct (in_result_ex (cop s) (cfill s) s (l ++ [i]) D) as [c R'].
      pose proof (contributing_ok s l i e _ c E D (C l i [] eq_refl) R R') as X.
      destruct (xorb (Nat.odd (length k)) c) eqn:Q.
      + exists (k ++ [i]). split; [apply kept_app; auto; eapply kept_yes; eauto; constructor|].
        rewrite app_length, Nat.add_1_r, Nat.odd_succ, <- Nat.negb_odd.
        replace (negb (Nat.odd (length k))) with c by (destruct (Nat.odd (length k)), c; simpl in *; congruence). auto.
      + exists k. split; [|replace (Nat.odd (length k)) with c by (destruct (Nat.odd (length k)), c; simpl in *; congruence); auto].
        rewrite <- (app_nil_r k). apply kept_app; auto. eapply kept_no; eauto. constructor.
  Qed.

  (** What [is_same] tells *)
  Lemma get_seg_runs s e g p : get_seg s e = Ok (Some g, p) -> runs_along s e g.
  Proof.
    unfold get_seg, runs_along, edge_up. intros H. apply bind_ok in H as (v & V & H). apply at_ok in V. exists v. split; auto.
    destruct (e_dx e <? 0)%Z.
    - apply bind_ok in H as (q & Q & H). apply bind_ok in H as (u & U & H). apply at_ok in U. injection H as H _. exists q, u. csplit; auto.
      destruct (v_prev v); cbn in Q; congruence.
    - injection H as H _. auto.
  Qed.
  Lemma runs_fun s e g h : runs_along s e g -> runs_along s e h -> g = h.
  Proof.
    intros (v & V & G) (w & W & H). rewrite V in W. injection W as <-. destruct (e_dx e <? 0)%Z; [|congruence].
    destruct G as (p & u & P & U & G), H as (q & t & Q & S & H). rewrite P in Q. injection Q as <-. congruence.
  Qed.
  Lemma is_same_exact s a b c : is_same s a b = Ok c -> (c = true <-> coincide s a b).
  Proof.
    unfold is_same. intros H. apply bind_ok in H as ((ga & pa) & A & H). apply bind_ok in H as ((gb & pb) & B & H). cbn [fst] in H.
    unfold coincide. destruct (veqb (e_bot a) (e_bot b)), (veqb (e_top a) (e_top b)); cbn [andb] in H;
      try (injection H as <-; split; [discriminate|intros (K1 & K2 & _); discriminate]).
    destruct ga as [g|]; [|discriminate]. destruct gb as [h|]; [|discriminate]. cbn [of_opt bind] in H. apply get_seg_runs in A, B.
    assert (K : c = true <-> match g, h with
      | SLine _, SLine _ => True
      | SCubic a b _, SCubic c d _ => (veqb a c = true /\ veqb b d = true) \/ (veqb b c = true /\ veqb a d = true)
      | _, _ => False end).
    { destruct g, h; injection H as <-; try (split; [discriminate|tauto]); [tauto|]. rewrite orb_true_iff, !andb_true_iff. tauto. }
    rewrite K. split; [intros Q; csplit; auto; exists g, h; auto|].
    intros (_ & _ & g' & h' & G & G' & Q). now rewrite (runs_fun _ _ _ _ A G), (runs_fun _ _ _ _ B G').
  Qed.
  (** What [collect] returns *)
  Lemma cancels_trans s a b : cancels s a b -> forall c, cancels s b c -> cancels s a c.
  Proof. induction 1; intros c K; auto. econstructor; eauto. Qed.
  Lemma collect_ok fuel : forall s c acc r a b k, active s (a ++ b) -> c = hd_or b None ->
    collect fuel s c acc = Ok r -> kept s b k -> cancels s (rev acc ++ k) (rev r).
  Proof.
    induction fuel as [|fuel IH]; intros s c acc r a b k A -> H K; destruct b as [|i b]; cbn [hd_or collect] in H; try discriminate.
    1,2: injection H as <-; inversion K; subst; rewrite app_nil_r; constructor.
    destruct (active_split _ _ _ _ A) as (e & E & _ & Q).
    unfold at_ in H. rewrite E in H. cbn [bind of_opt] in H.
    apply bind_ok in H as (x & X & H). apply bind_ok in H as (acc' & F & H). rewrite Q in H.
    assert (A' : active s ((a ++ [i]) ++ b)) by (rewrite <- app_assoc; exact A).
    inversion K as [|? ? k' ? E' X' K'|? ? ? ? E' X' K']; subst; rewrite E in E'; injection E' as <-; rewrite X in X'; injection X' as ->.
    - specialize (IH s _ acc' r (a ++ [i]) b k' A' eq_refl H K'). destruct acc as [|j acc].
      + injection F as <-. exact IH.
      + apply bind_ok in F as (ej & Ej & F). apply bind_ok in F as (sm & S & F). injection F as <-.
        apply at_ok in Ej. destruct sm.
        * simpl. rewrite <- app_assoc. simpl. eapply cancels_pair; eauto. now apply (is_same_exact _ _ _ _ S).
        * simpl in *. rewrite <- !app_assoc in *. exact IH.
    - injection F as <-. exact (IH s _ acc r (a ++ [i]) b k A' eq_refl H K').
  Qed.
  Lemma no_twins_nil s : no_twins s [].
  Proof. intros [|x a] i j b e f E; discriminate. Qed.
  Lemma no_twins_cut s l i : no_twins s (l ++ [i]) -> no_twins s l.
  Proof. intros H a p q b e f -> E F. apply (H a p q (b ++ [i])); auto. now rewrite <- app_assoc. Qed.
  Lemma no_twins_add s l j i e f : nth_error (edges s) j = Some e -> nth_error (edges s) i = Some f -> no_twins s (l ++ [j]) -> ~ coincide s f e ->
    no_twins s ((l ++ [j]) ++ [i]).
  Proof.
    intros E F H NC a p q b e' f' Q E' F'. destruct b as [|b0 b] using rev_ind.
    - replace (a ++ [p; q]) with ((a ++ [p]) ++ [q]) in Q by now rewrite <- app_assoc. apply app_inj_tail in Q as (Q & <-).
      apply app_inj_tail in Q as (_ & <-). rewrite E in E'. rewrite F in F'. injection E' as <-. injection F' as <-. exact NC.
    - clear IHb. apply (H a p q b e' f'); auto. replace (a ++ p :: q :: b ++ [b0]) with ((a ++ p :: q :: b) ++ [b0]) in Q by now rewrite <- app_assoc.
      now apply app_inj_tail in Q as (Q & _).
  Qed.
  Lemma collect_lone fuel : forall s c acc r, no_twins s (rev acc) -> collect fuel s c acc = Ok r -> no_twins s (rev r).
  Proof.
    induction fuel as [|fuel IH]; intros s c acc r A H; (destruct c as [i|]; cbn [collect] in H; [|injection H as <-; auto]); [discriminate|].
    apply bind_ok in H as (e & E & H). apply at_ok in E. apply bind_ok in H as (x & X & H). apply bind_ok in H as (acc' & F & H).
    apply (IH s (e_next e) acc' r); auto. destruct x; [|now injection F as <-]. destruct acc as [|j acc].
    - injection F as <-. intros [|y [|z a]] p q b f g Q; discriminate.
    - apply bind_ok in F as (ej & J & F). apply at_ok in J. apply bind_ok in F as (sm & S & F). injection F as <-. cbn [rev] in A. apply is_same_exact in S. destruct sm.
      + now apply no_twins_cut in A.
      + cbn [rev]. eapply no_twins_add; eauto. intros K. apply S in K. discriminate.
  Qed.
End Kept.
