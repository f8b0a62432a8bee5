(** The directions of the edges paired by [new_output]. *)
From Coq Require Import ZArith Bool List Permutation Sorted Lia.
From Verif Require Import Outcome Num Order Rmath Segment VState VAel VOut VMain VLemmas VFrame ClipSpec AelSpec
  VAelProofs VEdges VAelRun VRun WindSpec SortProofs VWind VKept.
Import ListNotations.
Local Open Scope out.

Section Alternate.
  Context {T : Type} {N : Num T}.
  Implicit Types s : clipper T.

  (** The directions of [l] alternate, starting with [d]. *)
  Fixpoint alt (es : list (edge T)) (d : Z) (l : list nat) : Prop :=
    match l with
    | [] => True
    | i :: r => (exists e, nth_error es i = Some e /\ e_dx e = d) /\ alt es (- d) r
    end.
  Definition turn (b : bool) (d : Z) : Z := if b then (- d)%Z else d.
  Lemma alt_app es l : forall d r, alt es d (l ++ r) <-> alt es d l /\ alt es (turn (Nat.odd (length l)) d) r.
  Proof.
    induction l as [|i l IH]; intros d r; [simpl; tauto|]. cbn [app alt length]. rewrite IH.
    replace (turn (Nat.odd (S (length l))) d) with (turn (Nat.odd (length l)) (- d)); [tauto|].
    rewrite Nat.odd_succ, <- Nat.negb_odd. unfold turn. destruct (Nat.odd (length l)); simpl; lia.
  Qed.
  Lemma alt_drop es d a i j b : alt es d (a ++ i :: j :: b) -> alt es d (a ++ b).
  Proof.
    rewrite !alt_app. simpl. intros (A & _ & _ & B). split; auto. now rewrite Z.opp_involutive in B.
  Qed.
  Lemma cancels_alt s d k k' : cancels s k k' -> alt (edges s) d k -> alt (edges s) d k'.
  Proof. induction 1; auto. intros H3. apply alt_drop in H3. auto. Qed.
  Lemma alt_rel (R : edge T -> edge T -> Prop) es fs l : (forall e f, R e f -> e_dx f = e_dx e) -> erel R es fs ->
    forall d, alt es d l -> alt fs d l.
  Proof.
    intros HR HE. induction l as [|i l IH]; intros d; simpl; auto. intros ((e & E & D) & K).
    destruct (proj2 HE i e E) as (f & F & X). apply HR in X. split; [exists f; split; congruence|auto].
  Qed.
  Lemma alt_bound es fs d l : erel same_but_bound es fs -> alt es d l -> alt fs d l.
  Proof. intros H. apply (alt_rel same_but_bound); auto. intros e f ->. reflexivity. Qed.

  Definition enter (fill : fill_rule) : Z := match fill with negative => -1 | _ => 1 end.
  (** union or intersection with an oriented rule *)
  Definition oriented (op : clip_type) (fill : fill_rule) : Prop :=
    (op = op_union \/ op = op_intersection) /\ (fill = positive \/ fill = negative).
  Lemma step_dir op fill w v d : oriented op fill -> (d = 1 \/ d = -1)%Z ->
    forall b, bool_op op (in_fill fill w) (in_fill fill v) = b ->
    (bool_op op (in_fill fill (w + d)) (in_fill fill v) = negb b -> d = turn b (enter fill)) /\
    True.
  Proof.
    intros ([-> | ->] & [-> | ->]) D b <-; simpl; (split; [|auto]); unfold turn;
    destruct D as [-> | ->]; repeat match goal with |- context [Z.ltb ?a ?b] => destruct (Z.ltb_spec a b) end; simpl; intros; try discriminate; lia.
  Qed.
  Lemma bool_op_comm op x y : (op = op_union \/ op = op_intersection) -> bool_op op x y = bool_op op y x.
  Proof. intros [-> | ->]; simpl; auto using orb_comm, andb_comm. Qed.
  Lemma boundary_dir op fill s l i t d b : oriented op fill -> edge_is s i t d -> (d = 1 \/ d = -1)%Z ->
    in_result op fill s l b -> in_result op fill s (l ++ [i]) (negb b) -> d = turn b (enter fill).
  Proof.
    intros HO I D (w & v & W & V & B) (w' & v' & W' & V' & B'). destruct t.
    - rewrite (wind_fun _ _ _ _ W' (w + d)%Z), (wind_fun _ _ _ _ V' (v + 0)%Z), Z.add_0_r in B'.
      + eapply step_dir; eauto.
      + apply wind_app; auto. eapply wind_one_other. exact I.
      + apply wind_app; auto. now apply wind_one.
    - rewrite (wind_fun _ _ _ _ W' (w + 0)%Z), (wind_fun _ _ _ _ V' (v + d)%Z), Z.add_0_r in B'.
      + rewrite bool_op_comm in B, B' by apply HO. eapply step_dir; eauto.
      + apply wind_app; auto. now apply wind_one.
      + apply wind_app; auto. eapply wind_one_other. exact I.
  Qed.

  Lemma kept_alt s l : oriented (cop s) (cfill s) -> directed s l -> all_counted (cfill s) s l ->
    forall k, kept s l k -> alt (edges s) (enter (cfill s)) k.
  Proof.
    intros HO. induction l as [|i l IH] using rev_ind; intros D C k K.
    - inversion K. exact I.
    - pose proof D as D'. apply directed_app in D' as [D1 D2]. pose proof (all_counted_prefix _ _ _ _ C) as C1.
      destruct (kept_parity s l D1 C1) as (k0 & K0 & R).
      destruct (D2 i (or_introl eq_refl)) as (t & d & I & Dd). pose proof I as (e & m & E & _ & _ & Ed).
      destruct (in_result_ex (cop s) (cfill s) s (l ++ [i]) D) as [c R'].
      pose proof (contributing_ok s l i e _ c E D (C l i [] eq_refl) R R') as X.
      destruct (xorb (Nat.odd (length k0)) c) eqn:Q.
      + assert (K1 : kept s (l ++ [i]) (k0 ++ [i])) by (apply kept_app; auto; eapply kept_yes; eauto; constructor).
        rewrite (kept_fun _ _ _ K _ K1). apply alt_app. split; auto. simpl. split; auto. exists e. split; auto.
        rewrite Ed. eapply boundary_dir; eauto.
        replace (negb (Nat.odd (length k0))) with c by (destruct (Nat.odd (length k0)), c; simpl in *; congruence). auto.
      + assert (K1 : kept s (l ++ [i]) (k0 ++ [])) by (apply kept_app; auto; eapply kept_no; eauto; constructor).
        rewrite (kept_fun _ _ _ K _ K1), app_nil_r. auto.
  Qed.
End Alternate.

Section Bounds.
  Context {T : Type} {N : Num T}.
  Implicit Types s : clipper T.
  Definition dxs s : list Z := map ob_dx (bounds s).
  Lemma map_upd_same {A B} (h : A -> B) (l : list A) i f : (forall x, h (f x) = h x) -> map h (upd l i f) = map h l.
  Proof. intros H. revert i. induction l; destruct i; simpl; auto; [now rewrite H|now rewrite IHl]. Qed.
  Lemma bmod_dxs s b f s' : (forall x, ob_dx (f x) = ob_dx x) -> bmod s b f = Ok s' -> dxs s' = dxs s.
  Proof. intros H K. apply bmod_ok in K as [_ ->]. unfold dxs. cbn. now apply map_upd_same. Qed.
  Lemma bmod_opt_dxs s b f s' : (forall x, ob_dx (f x) = ob_dx x) -> bmod_opt s b f = Ok s' -> dxs s' = dxs s.
  Proof. intros H. destruct b; simpl; [now apply bmod_dxs|]. intros K. now injection K as <-. Qed.
  Lemma emod_dxs s i f s' : emod s i f = Ok s' -> dxs s' = dxs s.
  Proof. intros K. now apply emod_ok in K as [_ ->]. Qed.
  Lemma emod_opt_dxs s i f s' : emod_opt s i f = Ok s' -> dxs s' = dxs s.
  Proof. destruct i; simpl; [apply emod_dxs|]. intros K. now injection K as <-. Qed.
  Lemma pmod_dxs s i f s' : pmod s i f = Ok s' -> dxs s' = dxs s.
  Proof. intros K. now apply pmod_ok in K as [_ ->]. Qed.
  Lemma delete_obl_bound_dxs s b s' : delete_obl_bound s b = Ok s' -> dxs s' = dxs s.
  Proof.
    unfold delete_obl_bound. intros H. apply bind_ok in H as (x & _ & H). apply bind_ok in H as (s1 & F & H).
    apply bmod_opt_dxs in H; [|reflexivity]. rewrite H.
    destruct (ob_prev x); [apply bmod_dxs in F; [auto|reflexivity]|injection F as <-; reflexivity].
  Qed.
  Lemma absorb_dxs s d r u s' : absorb s d r u = Ok s' -> dxs s' = dxs s.
  Proof.
    unfold absorb. intros H. apply bind_ok in H as (x & _ & H). apply bind_ok in H as (z & _ & H).
    apply bind_ok in H as (s1 & F & H). apply pmod_dxs in H. rewrite H. destruct u;
    apply bind_ok in F as (s2 & F2 & F); apply bind_ok in F as (b & _ & F); apply pmod_dxs in F2;
    apply bmod_dxs in F; try reflexivity; congruence.
  Qed.
  Lemma join_output_dxs s a b y s' : join_output s a b y = Ok s' -> dxs s' = dxs s.
  Proof.
    unfold join_output. intros H. apply bind_ok in H as (ba & _ & H). apply bind_ok in H as (bb & _ & H).
    apply bind_ok in H as (s1 & F1 & H). apply bind_ok in H as (s2 & F2 & H). apply bind_ok in H as (s3 & F3 & H).
    apply bind_ok in H as (s4 & F4 & H). apply bind_ok in H as (ao & _ & H). apply bind_ok in H as (bo & _ & H).
    apply bind_ok in H as (s5 & F5 & H). apply bind_ok in H as (s6 & F6 & H). apply bind_ok in H as (s7 & F7 & H).
    apply delete_obl_bound_dxs in H, F7. apply emod_opt_dxs in F1, F2. apply bmod_dxs in F3; [|reflexivity]. apply bmod_dxs in F4; [|reflexivity].
    assert (G5 : dxs s5 = dxs s4).
    { destruct (n_eqb _ _); [injection F5 as <-; auto|]. destruct (bound_up ba); now apply pmod_dxs in F5. }
    assert (G6 : dxs s6 = dxs s5).
    { destruct (Nat.eqb _ _); [now apply pmod_dxs in F6|]. destruct (Nat.ltb _ _); now apply absorb_dxs in F6. }
    congruence.
  Qed.
  Lemma update_bound_dxs s b e s' : update_bound s b e = Ok s' -> dxs s' = dxs s.
  Proof.
    unfold update_bound. intros H. apply bind_ok in H as (bd & _ & H). apply bind_ok in H as (ed & _ & H).
    apply bind_ok in H as (s1 & F1 & H). apply bind_ok in H as (s2 & F2 & H).
    apply emod_dxs in H. apply bmod_dxs in F2; [|reflexivity]. rewrite H, F2.
    destruct (n_eqb _ _); [injection F1 as <-; auto|]. apply bind_ok in F1 as (o & _ & F1).
    destruct (bound_up bd); now apply pmod_dxs in F1.
  Qed.
  Lemma new_output_dxs s a b s' : new_output s a b = Ok s' ->
    exists ea eb, nth_error (edges s) a = Some ea /\ nth_error (edges s) b = Some eb /\ dxs s' = dxs s ++ [e_dx ea; e_dx eb].
  Proof.
    unfold new_output. intros H. apply bind_ok in H as (ea & Ea & H). apply bind_ok in H as (eb & Eb & H).
    apply at_ok in Ea, Eb. exists ea, eb. csplit; auto.
    apply bind_ok in H as (s1 & F1 & H). apply bind_ok in H as (s2 & F2 & H).
    apply emod_dxs in F1, F2. destruct (edge_up ea); injection H as <-;
    unfold dxs in *; cbn in *; rewrite F2, F1, map_app; reflexivity.
  Qed.
  Lemma link_obl_dxs l : forall s last s', link_obl s last l = Ok s' -> dxs s' = dxs s.
  Proof.
    induction l as [|i r IH]; intros s last s' H; cbn [link_obl] in H; [now injection H as <-|].
    apply bind_ok in H as (e & _ & H). apply bind_ok in H as (s1 & F1 & H). apply bind_ok in H as (nb & _ & H).
    apply bind_ok in H as (s2 & F2 & H). apply IH in H. apply bmod_dxs in F1; [|reflexivity]. apply bmod_dxs in F2; [|reflexivity].
    congruence.
  Qed.
  Lemma rebuild_obl_dxs s l s' : rebuild_obl s l = Ok s' -> dxs s' = dxs s.
  Proof.
    unfold rebuild_obl. destruct l; intros H; [now injection H as <-|].
    apply bind_ok in H as (e & _ & H). apply bind_ok in H as (b & _ & H). apply bind_ok in H as (s1 & F1 & H).
    apply link_obl_dxs in H. apply bmod_dxs in F1; [|reflexivity]. rewrite H, F1. reflexivity.
  Qed.

  Lemma opposite_app a b : opposite_pairs a -> opposite_pairs b -> opposite_pairs (a ++ b).
  Proof.
    revert b. assert (K : forall n a, length a <= n -> forall b, opposite_pairs a -> opposite_pairs b -> opposite_pairs (a ++ b)).
    { induction n; intros [|x [|y r]] L b; simpl in *; try tauto; try lia. intros [A B] C. split; auto. apply IHn; auto. lia. }
    eauto.
  Qed.

  (** Pairs opened at the same x *)
  Lemma open_pairs_dxs n : forall l s d s' r, length l <= n -> alt (edges s) d l -> open_pairs s l = Ok (s', r) ->
    exists ds, dxs s' = dxs s ++ ds /\ opposite_pairs ds /\ alt (edges s') d r /\ subseq r l.
  Proof.
    induction n; intros l s d s' r L A H.
    - destruct l; [|simpl in L; lia]. cbn in H. injection H as <- <-. exists []. rewrite app_nil_r. csplit; simpl; auto. apply subseq_nil.
    - destruct l as [|a [|b l]]; cbn [open_pairs] in H;
        try (injection H as <- <-; exists []; rewrite app_nil_r; csplit; simpl in *; auto; apply subseq_refl).
      simpl in L, A. destruct A as ((ea0 & Ea0 & Da) & (eb0 & Eb0 & Db) & A). rewrite Z.opp_involutive in A.
      apply bind_ok in H as (ea & Ea & H). apply bind_ok in H as (eb & Eb & H). apply at_ok in Ea, Eb.
      rewrite Ea0 in Ea. injection Ea as <-. rewrite Eb0 in Eb. injection Eb as <-.
      destruct (n_eqb (e_x ea0) (e_x eb0)).
      + apply bind_ok in H as (s1 & F & H). pose proof (new_output_eb _ _ _ _ F) as EB.
        apply new_output_dxs in F as (ea & eb & Ea & Eb & F). rewrite Ea0 in Ea. injection Ea as <-. rewrite Eb0 in Eb. injection Eb as <-.
        apply (IHn l s1 d) in H as (ds & K1 & K2 & K3 & K4); [|lia|eapply alt_bound; eauto].
        exists ([e_dx ea0; e_dx eb0] ++ ds). csplit; auto.
        * rewrite K1, F, <- app_assoc. reflexivity.
        * simpl. split; [lia|auto].
        * apply sub_skip, sub_skip. exact K4.
      + apply bind_ok in H as ([s1 l1] & F & H). injection H as <- <-.
        pose proof (open_pairs_eb _ _ _ _ _ (le_n _) F) as EB.
        apply (IHn l s d) in F as (ds & K1 & K2 & K3 & K4); [|lia|auto].
        exists ds. csplit; auto.
        * destruct (proj2 EB a ea0 Ea0) as (fa & Fa & Xa). destruct (proj2 EB b eb0 Eb0) as (fb & Fb & Xb).
          simpl. rewrite Z.opp_involutive. csplit; auto; [exists fa|exists fb]; split; auto;
            [rewrite Xa; exact Da|rewrite Xb; exact Db].
        * apply sub_keep, sub_keep. exact K4.
  Qed.
End Bounds.

Section Match.
  Context {T : Type} {N : Num T}.
  Implicit Types s : clipper T.
  (** the edges among the entries *)
  Definition eds (l : list (bd (T := T))) : list nat :=
    flat_map (fun b => match bd_what b with inl i => [i] | inr _ => [] end) l.
  Lemma eds_app a b : eds (a ++ b) = eds a ++ eds b.
  Proof. apply flat_map_app. Qed.
  Lemma find_other_eds x k l : forall o r, find_other x k l = Some (o, r) -> is_edge o = negb k /\
    if k then eds r = eds l else exists i, bd_what o = inl i /\ eds l = i :: eds r.
  Proof.
    induction l as [|h l IH]; cbn [find_other]; intros o r H; [discriminate|]. destruct (n_eqb _ _); [|discriminate].
    destruct (Bool.eqb (is_edge h) k) eqn:K.
    - apply eqb_prop in K. destruct (find_other x k l) as [[o' r']|]; [|discriminate]. injection H as <- <-.
      destruct (IH _ _ eq_refl) as [E F]. split; auto. unfold is_edge in K. simpl. destruct k.
      + now rewrite F.
      + destruct F as (i & W & F). exists i. split; auto. destruct (bd_what h); [discriminate|]. exact F.
    - injection H as <- <-. apply eqb_false_iff in K. split; [destruct (is_edge h), k; simpl; congruence|].
      unfold is_edge in K. simpl. destruct (bd_what h) as [i|b]; destruct k; try congruence; eauto.
  Qed.
  Lemma connect_dxs s a b y s' : connect s a b y = Ok s' ->
    match bd_what a, bd_what b with
    | inl i, inl j => exists e f, nth_error (edges s) i = Some e /\ nth_error (edges s) j = Some f /\ dxs s' = dxs s ++ [e_dx e; e_dx f]
    | _, _ => dxs s' = dxs s
    end.
  Proof.
    unfold connect. destruct (bd_what a), (bd_what b); intros H.
    - now apply new_output_dxs in H.
    - now apply update_bound_dxs in H.
    - now apply update_bound_dxs in H.
    - now apply join_output_dxs in H.
  Qed.
  Lemma alt_tail (es : list (edge T)) d i l : alt es d (i :: l) -> alt es (- d) l.
  Proof. simpl. tauto. Qed.
  Lemma match_up_dxs fuel : forall s y l d s', alt (edges s) d (eds l) -> match_up fuel s y l = Ok s' ->
    exists ds, dxs s' = dxs s ++ ds /\ opposite_pairs ds.
  Proof.
    induction fuel as [|fuel IH]; intros s y l d s' A H; destruct l as [|it r]; cbn [match_up] in H; try discriminate;
      try (injection H as <-; exists []; rewrite app_nil_r; now split).
    destruct (find_other (bd_x it) (is_edge it) r) as [[o r']|] eqn:F.
    - apply find_other_eds in F as [F1 F2]. apply bind_ok in H as (s1 & C & H). pose proof (connect_eb _ _ _ _ _ C) as EB.
      apply connect_dxs in C. unfold is_edge in F1, F2. simpl in A. destruct (bd_what it) as [i|b] eqn:Wi; destruct (bd_what o) as [j|c] eqn:Wo;
        try discriminate.
      + simpl in A. destruct A as [_ A]. rewrite <- F2 in A. rewrite <- C. eapply IH; [|exact H]. eapply alt_bound; eauto.
      + destruct F2 as (j' & E & F2). injection E as <-. simpl in A. rewrite F2 in A. apply alt_tail in A.
        rewrite <- C. eapply IH; [|exact H]. eapply alt_bound; eauto.
    - destruct r as [|n r]; [discriminate|]. apply bind_ok in H as (s1 & C & H). pose proof (connect_eb _ _ _ _ _ C) as EB.
      apply connect_dxs in C. simpl in A. destruct (bd_what it) as [i|b] eqn:Wi; destruct (bd_what n) as [j|c] eqn:Wo; simpl in A.
      + destruct A as ((ea0 & Ea0 & Da) & (eb0 & Eb0 & Db) & A). destruct C as (ea & eb & Ea & Eb & C).
        rewrite Ea0 in Ea. injection Ea as <-. rewrite Eb0 in Eb. injection Eb as <-.
        destruct (IH s1 y r (- - d)%Z s' (alt_bound _ _ _ _ EB A) H) as (ds & K1 & K2).
        exists ([e_dx ea0; e_dx eb0] ++ ds). split; [rewrite K1, C, <- app_assoc; reflexivity|]. simpl. split; [lia|auto].
      + rewrite <- C. destruct A as [_ A]. eapply IH; [|exact H]. eapply alt_bound; eauto.
      + rewrite <- C. destruct A as [_ A]. eapply IH; [|exact H]. eapply alt_bound; eauto.
      + rewrite <- C. eapply IH; [|exact H]. eapply alt_bound; eauto.
  Qed.

  (** Sorting keeps the order of the edges. *)
  Lemma insert_last {A} (lt : A -> A -> bool) x l : Forall (fun y => lt x y = false) l -> insert_by lt x l = l ++ [x].
  Proof. induction 1 as [|y l H K IH]; simpl; auto. now rewrite H, IH. Qed.
  Lemma sort_acc_same {A} (lt : A -> A -> bool) l : forall acc,
    ForallOrdPairs (fun a b => lt b a = false) (acc ++ l) -> fold_left (fun a x => insert_by lt x a) l acc = acc ++ l.
  Proof.
    induction l as [|x l IH]; simpl; intros acc H; [now rewrite app_nil_r|].
    rewrite insert_last.
    - rewrite IH; rewrite <- app_assoc; auto.
    - apply fop_app in H as (_ & _ & H). apply Forall_forall. intros y Hy. apply H; auto. now left.
  Qed.
  Lemma insert_bound_eds lt x l : is_edge x = false -> eds (insert_by lt x l) = eds l.
  Proof.
    intros E. assert (X : forall r, eds (x :: r) = eds r).
    { intros r. unfold eds. simpl. unfold is_edge in E. destruct (bd_what x); [discriminate|reflexivity]. }
    induction l as [|y l IH]; cbn [insert_by]; auto. destruct (lt x y); auto.
    unfold eds in *. simpl. now rewrite IH.
  Qed.
  Lemma sort_bounds_eds lt l : forall acc, Forall (fun b => is_edge b = false) l ->
    eds (fold_left (fun a x => insert_by lt x a) l acc) = eds acc.
  Proof. induction l as [|x l IH]; simpl; intros acc H; auto. inversion H; subst. rewrite IH, insert_bound_eds; auto. Qed.
  Lemma sort_eds se sb : ForallOrdPairs (fun a b => bd_ltb b a = false) se -> Forall (fun b => is_edge b = false) sb ->
    eds (sort_by bd_ltb (se ++ sb)) = eds se.
  Proof. intros A B. unfold sort_by. rewrite fold_left_app, sort_bounds_eds; auto. rewrite sort_acc_same; auto. Qed.

  Lemma sbl_bounds_kind fuel : forall s c k r, sbl_bounds fuel s c k = Ok r -> Forall (fun b => is_edge b = false) r.
  Proof.
    induction fuel as [|fuel IH]; intros s [i|] k r H; cbn [sbl_bounds] in H; try discriminate; try (injection H as <-; constructor).
    apply bind_ok in H as (b & _ & H). apply bind_ok in H as (t & F & H). injection H as <-. constructor; eauto.
  Qed.
End Match.

Section Pairs.
  Context {T : Type} {N : Num T} {O : OrdNum T}.
  Implicit Types s : clipper T.
  Lemma sbl_edges_ok s l : forall k r, sbl_edges s l k = Ok r -> ordered (edges s) l -> xvalid (edges s) l ->
    eds r = l /\ ForallOrdPairs (fun a b => bd_ltb b a = false) r /\
    (forall b, In b r -> k <= bd_idx b /\ exists i e, In i l /\ nth_error (edges s) i = Some e /\ bd_x b = e_x e).
  Proof.
    induction l as [|i l IH]; intros k r H OR XV; cbn [sbl_edges] in H.
    - injection H as <-. csplit; try constructor; simpl in *; contradiction.
    - apply bind_ok in H as (e & E & H). apply bind_ok in H as (t & F & H). injection H as <-. apply at_ok in E.
      inversion OR as [|? ? O1 O2]; subst. assert (XV' : xvalid (edges s) l) by (intros j f Hj; apply XV; now right).
      destruct (IH _ _ F O2 XV') as (K1 & K2 & K3). csplit.
      + unfold eds in *. simpl. now rewrite K1.
      + constructor; auto. apply Forall_forall. intros b Hb. destruct (K3 b Hb) as (L & j & f & Hj & Ej & X).
        unfold bd_ltb. simpl. rewrite X. destruct (n_eqb (e_x f) (e_x e)) eqn:Q.
        * apply Nat.ltb_ge. lia.
        * rewrite Forall_forall in O1. specialize (O1 j Hj e f E Ej).
          destruct (n_ltb (e_x f) (e_x e)) eqn:LT; auto.
          assert (Ve : nvalid (e_x e)) by (eapply XV; [now left|eauto]).
          assert (Vf : nvalid (e_x f)) by (eapply XV'; eauto).
          rewrite nle_negb, LT in O1 by auto. discriminate.
      + intros b [<-|Hb]; simpl.
        * split; auto. exists i, e. auto.
        * destruct (K3 b Hb) as (L & j & f & Hj & Ej & X). split; [lia|]. exists j, f. auto.
  Qed.
  Lemma cancels_sub s a b : cancels s a b -> subseq b a.
  Proof.
    induction 1; [apply subseq_refl|]. eapply subseq_trans; [|eauto]. clear.
    induction a; simpl; [apply sub_skip, sub_skip, subseq_refl|now apply sub_keep].
  Qed.
  Lemma kept_sub s a b : kept s a b -> subseq b a.
  Proof. induction 1; [constructor|now apply sub_keep|now apply sub_skip]. Qed.
  Lemma subseq_in {A} (a b : list A) : subseq a b -> forall x, In x a -> In x b.
  Proof. induction 1; simpl; auto. intros y [->|H0]; auto. Qed.
  Lemma xvalid_sub es (a b : list nat) : subseq a b -> xvalid es b -> xvalid es a.
  Proof. intros S X i e I. apply X. eapply subseq_in; eauto. Qed.

  Lemma pairs_ok n s y l s' : oriented (cop s) (cfill s) -> active s l -> directed s l -> ordered (edges s) l ->
    xvalid (edges s) l -> all_counted (cfill s) s l -> update_output_bound n s y = Ok s' ->
    exists ds, dxs s' = dxs s ++ ds /\ opposite_pairs ds.
  Proof.
    intros OO A D OR XV C H. unfold update_output_bound in H. destruct (changes s) eqn:CH.
    { injection H as <-. exists []. rewrite app_nil_r. now split. }
    set (s0 := w_changes s []) in *.
    apply bind_ok in H as (be & F1 & H). apply bind_ok in H as ([s1 lft] & F2 & H).
    apply bind_ok in H as (se & F3 & H). apply bind_ok in H as (sb & F4 & H). apply bind_ok in H as (s2 & F5 & H).
    assert (D0 : directed s0 l).
    { eapply directed_same; [|exact D]. eapply same_dirs_eq; reflexivity. }
    assert (C0 : all_counted (cfill s0) s0 l).
    { intros l1 i l2 E. eapply counted_eq; [..|eapply C; exact E]; reflexivity. }
    destruct (kept_parity s0 l D0 C0) as (k & K & _).
    pose proof (kept_alt s0 l OO D0 C0 k K) as AL.
    assert (CA : cancels s0 k (rev be)).
    { refine (collect_ok _ s0 (ael s0) [] be [] l k A _ F1 K). destruct A as (A & _). destruct l; simpl in *; auto; exact A. }
    pose proof (cancels_alt _ _ _ _ CA AL) as AL'.
    pose proof (open_pairs_eb _ _ _ _ _ (le_n _) F2) as EB.
    destruct (open_pairs_dxs _ _ _ _ _ _ (le_n _) AL' F2) as (d1 & D1 & P1 & A1 & S1).
    assert (SB : subseq lft l).
    { eapply subseq_trans; [eapply kept_sub; exact K|]. eapply subseq_trans; [eapply cancels_sub; exact CA|exact S1]. }
    assert (OR1 : ordered (edges s1) lft).
    { refine (ordered_rel same_but_bound (edges s0) (edges s1) lft _ EB _ (fop_subseq _ _ _ SB OR)).
      - intros e f ->. reflexivity.
      - intros j Hj. refine (active_in s l j A _). eapply subseq_in; eauto. }
    assert (XV1 : xvalid (edges s1) lft).
    { refine (xvalid_rel same_but_bound (edges s0) (edges s1) lft _ EB (xvalid_sub _ _ _ SB XV)). intros e f ->. reflexivity. }
    destruct (sbl_edges_ok _ _ _ _ F3 OR1 XV1) as (E1 & E2 & _).
    apply match_up_dxs with (d := enter (cfill s0)) in F5 as (d2 & D2 & P2).
    - apply rebuild_obl_dxs in H. exists (d1 ++ d2). split; [|now apply opposite_app].
      rewrite H, D2, D1, app_assoc. reflexivity.
    - rewrite sort_eds; auto; [|eapply sbl_bounds_kind; eauto]. now rewrite E1.
  Qed.
End Pairs.
