(** A processor that is used again. *)
From Coq Require Import ZArith Bool List Lia Permutation Sorted.
From Verif Require Import Outcome Num Rmath Segment VState VPath VBreak VAel VOut VMain VLemmas Order SortProofs VFrame VRepeat ClimbNone EquiMap ShiftMap ReuseSpec.
Import ListNotations.
Local Open Scope out.

(** *** Sorting twice *)
Lemma insert_end {A} (lt : A -> A -> bool) x l : Forall (fun y => lt x y = false) l -> insert_by lt x l = l ++ [x].
Proof. induction 1 as [|y l H _ IH]; [reflexivity|]. cbn. now rewrite H, IH. Qed.
Lemma sort_fixed {A} (lt : A -> A -> bool) l : StronglySorted (fun a b => lt b a = false) l -> sort_by lt l = l.
Proof.
  unfold sort_by. assert (K : forall l acc, StronglySorted (fun a b => lt b a = false) (acc ++ l) -> fold_left (fun a x => insert_by lt x a) l acc = acc ++ l).
  { clear. induction l as [|x l IH]; intros acc H; cbn; [now rewrite app_nil_r|].
    rewrite insert_end.
    - rewrite IH; rewrite <- app_assoc; auto.
    - clear IH. induction acc as [|a acc IH]; [constructor|]. cbn in H. inversion H as [|? ? H1 H2]; subst. constructor; [|now apply IH].
      rewrite Forall_forall in H2. apply H2. apply in_or_app. right. now left. }
  intros H. now apply K.
Qed.

Section Minima.
  Context {T : Type} {N : Num T} {O : OrdNum T}.
  Implicit Types s : clipper T.
  Definition found s (m : nat) : Prop := exists x v, nth_error (lmins s) m = Some x /\ nth_error (verts s) (lm_vert x) = Some v /\ nvalid (vx (v_pt v)) /\ nvalid (vy (v_pt v)).
  Lemma nlt_not a b : nvalid a -> nvalid b -> n_ltb a b = true -> n_eqb a b = false /\ n_ltb b a = false.
  Proof.
    intros A B H. assert (K : n_ltb b a = false) by (apply nle_not_lt; auto; now apply nlt_le). split; auto.
    rewrite neq_le by auto. destruct (n_leb b a) eqn:E; [|apply andb_false_r]. apply nle_not_lt in E; auto. congruence.
  Qed.
  Definition min_le s (a b : nat) : Prop := exists xa va xb vb, nth_error (lmins s) a = Some xa /\ nth_error (verts s) (lm_vert xa) = Some va /\
    nth_error (lmins s) b = Some xb /\ nth_error (verts s) (lm_vert xb) = Some vb /\
    (n_ltb (vy (v_pt va)) (vy (v_pt vb)) = true \/ n_eqb (vy (v_pt va)) (vy (v_pt vb)) = true /\ nle (vx (v_pt va)) (vx (v_pt vb))).
  Lemma min_le_not s a b : found s a -> found s b -> min_le s a b -> min_ltb s b a = false.
  Proof.
    intros (xa & va & A1 & A2 & A3 & A4) (xb & vb & B1 & B2 & B3 & B4) (xa' & va' & xb' & vb' & C1 & C2 & C3 & C4 & H).
    assert (xa' = xa) as -> by congruence. assert (xb' = xb) as -> by congruence. assert (va' = va) as -> by congruence. assert (vb' = vb) as -> by congruence.
    unfold min_ltb. rewrite A1, B1, A2, B2. destruct H as [H|[E H]].
    - apply nlt_not in H as [K1 K2]; auto. rewrite neq_sym in K1. now rewrite K1.
    - rewrite neq_sym in E. rewrite E. now apply nle_not_lt.
  Qed.
  Lemma min_sorted s l : Forall (found s) l -> StronglySorted (fun a b => min_ltb s b a = false) (sort_by (min_ltb s) l).
  Proof.
    intros F. assert (K : StronglySorted (min_le s) (sort_by (min_ltb s) l)).
    { apply (sort_by_sorted (min_ltb s) (found s)); auto.
      - intros a b c (xa & va & A1 & A2 & A3 & A4) (xb & vb & B1 & B2 & B3 & B4) (xc & vc & C1 & C2 & C3 & C4)
          (xa' & va' & xb' & vb' & D1 & D2 & D3 & D4 & H) (xb'' & vb'' & xc' & vc' & D5 & D6 & D7 & D8 & H').
        assert (xa' = xa) as -> by congruence. assert (xb' = xb) as -> by congruence. assert (xb'' = xb) as -> by congruence. assert (xc' = xc) as -> by congruence.
        assert (va' = va) as -> by congruence. assert (vb' = vb) as -> by congruence. assert (vb'' = vb) as -> by congruence. assert (vc' = vc) as -> by congruence.
        exists xa, va, xc, vc. repeat (split; [assumption|]). destruct H as [H|[E H]], H' as [H'|[E' H']].
        + left. eapply nlt_trans; [..|exact H|exact H']; auto.
        + left. eapply nlt_eq_trans; [..|exact H|exact E']; auto.
        + left. eapply neq_lt_trans; [..|exact E|exact H']; auto.
        + right. split; [eapply neq_trans; eauto|]. eapply nle_trans; [..|exact H|exact H']; auto.
      - intros a b (xa & va & A1 & A2 & A3 & A4) (xb & vb & B1 & B2 & B3 & B4). destruct (min_ltb s a b) eqn:E; unfold min_ltb in E; rewrite A1, B1, A2, B2 in E.
        + exists xa, va, xb, vb. repeat (split; [assumption|]). destruct (n_eqb (vy (v_pt va)) (vy (v_pt vb))) eqn:Q; [right; split; auto; now apply nlt_le|now left].
        + exists xb, vb, xa, va. repeat (split; [assumption|]). destruct (n_eqb (vy (v_pt va)) (vy (v_pt vb))) eqn:Q.
          * right. rewrite neq_sym. split; auto. now apply nle_not_lt.
          * left. apply nle_not_lt in E; auto. apply nle_cases in E as [E|E]; auto. rewrite neq_sym in E. congruence. }
    assert (FS : Forall (found s) (sort_by (min_ltb s) l)) by (eapply Permutation_Forall; [apply sort_by_perm|auto]).
    clear F. induction K as [|a k K IH H]; [constructor|]. inversion FS as [|? ? F1 F2]; subst. constructor; auto.
    rewrite Forall_forall in *. intros b Hb. apply min_le_not; auto.
  Qed.
  Lemma min_sort_twice s l : Forall (found s) l -> sort_by (min_ltb s) (sort_by (min_ltb s) l) = sort_by (min_ltb s) l.
  Proof. intros F. apply sort_fixed. now apply min_sorted. Qed.
End Minima.

(** *** One more run *)
Section Again.
  Context {T : Type} {N : Num T} {O : OrdNum T}.
  Implicit Types s b : clipper T.
  (** Nothing has been run yet. *)
  Definition blank b : Prop := edges b = [] /\ bounds b = [] /\ polys b = [] /\ scans b = [] /\ changes b = [].
  (** [s] has been used on the broken contours of [b], and [L] has been written last. *)
  Definition used b (L : list (call (T := T))) s : Prop :=
    verts s = verts b /\ lmins s = lmins b /\ starts s = starts b /\ sort_by (min_ltb b) (minima s) = sort_by (min_ltb b) (minima b) /\
    scans s = [] /\ changes s = [] /\ flat_map write_poly (polys s) = L.

  Lemma push_minima_links l a o : forall s, push_minima (w_obl (w_ael s a) o) l = omap (fun s => w_obl (w_ael s a) o) (push_minima s l).
  Proof.
    induction l as [|m l IH]; intros s; [reflexivity|]. cbn [push_minima]. cbn [lmins verts w_obl w_ael]. destruct (at_ (lmins s) m) as [x| | |]; try reflexivity. cbn [bind].
    destruct (at_ (verts s) (lm_vert x)) as [v| | |]; try reflexivity. cbn [bind]. apply (IH (insert_scanline s (vy (v_pt v)))).
  Qed.
  Lemma reset_links s a o : reset (w_obl (w_ael s a) o) = reset s.
  Proof.
    unfold reset. cbv zeta. change (minima (w_obl (w_ael s a) o)) with (minima s). change (min_ltb (w_obl (w_ael s a) o)) with (min_ltb s).
    change (w_minima (w_obl (w_ael s a) o) (sort_by (min_ltb s) (minima s)) 0) with (w_obl (w_ael (w_minima s (sort_by (min_ltb s) (minima s)) 0) a) o).
    rewrite push_minima_links. destruct (push_minima _ _); reflexivity.
  Qed.
  Lemma reset_minima s m c : sort_by (min_ltb s) m = sort_by (min_ltb s) (minima s) -> reset (w_minima s m c) = reset s.
  Proof. intros H. unfold reset. cbv zeta. change (minima (w_minima s m c)) with m. change (min_ltb (w_minima s m c)) with (min_ltb s). rewrite H. reflexivity. Qed.
  Lemma reset_used b L s op fill : blank b -> used b L s -> reset (w_op s op fill) = reset (sh (edges s) (bounds s) (polys s) (breaks s) (w_op b op fill)).
  Proof.
    intros (E1 & E2 & E3 & E4 & E5) (U1 & U2 & U3 & U4 & U5 & U6 & U7).
    set (X := sh (edges s) (bounds s) (polys s) (breaks s) (w_op b op fill)).
    replace (w_op s op fill) with (w_obl (w_ael (w_minima X (minima s) (cur s)) (ael s)) (obl s)).
    - rewrite reset_links. apply reset_minima. exact U4.
    - unfold X, w_op, w_obl, w_ael, w_minima, sh. cbn. rewrite E1, E2, E3, E4, E5, U1, U2, U3, U5, U6. cbn. now rewrite !app_nil_r.
  Qed.
  (** What a run leaves behind *)
  Lemma sweep_done n fuel : forall s y s', sweep n fuel s y = Ok s' -> scans s' = [] /\ changes s' = [].
  Proof.
    induction fuel as [|fuel IH]; intros s y s' H; cbn [sweep] in H; [discriminate|]. apply bind_ok in H as (x & E & H).
    destruct (pop_scanline x y) as [[y'|] s1] eqn:P.
    - binvs. now apply IH in H.
    - binvs. unfold scan_at in E. binvs. apply update_output_bound_frame in E as (_ & _ & _ & _ & C).
      unfold pop_scanline in P. destruct (drop_eq y (scans x)); [|discriminate]. injection P as <-. auto.
  Qed.
  Lemma reset_frame s s' : reset s = Ok s' -> verts s' = verts s /\ lmins s' = lmins s /\ starts s' = starts s /\ minima s' = sort_by (min_ltb s) (minima s) /\ changes s' = changes s /\ polys s' = polys s.
  Proof.
    unfold reset. cbv zeta. intros H. binvs. cbn [verts lmins starts minima changes polys w_obl w_ael].
    assert (K : forall l t t', push_minima t l = Ok t' -> verts t' = verts t /\ lmins t' = lmins t /\ starts t' = starts t /\ minima t' = minima t /\ changes t' = changes t /\ polys t' = polys t).
    { clear. induction l as [|m l IH]; intros t t' H; cbn [push_minima] in H; binvs; auto 10. apply IH in H. exact H. }
    apply K in E. exact E.
  Qed.
  Lemma reset_op b op fill : reset (w_op b op fill) = omap (fun s => w_op s op fill) (reset b).
  Proof.
    assert (K : forall l t, push_minima (w_op t op fill) l = omap (fun s => w_op s op fill) (push_minima t l)).
    { induction l as [|m l IH]; intros t; [reflexivity|]. cbn [push_minima]. cbn [lmins verts w_op]. destruct (at_ (lmins t) m) as [x| | |]; try reflexivity. cbn [bind].
      destruct (at_ (verts t) (lm_vert x)) as [v| | |]; try reflexivity. cbn [bind]. apply (IH (insert_scanline t (vy (v_pt v)))). }
    unfold reset. cbv zeta. change (minima (w_op b op fill)) with (minima b). change (min_ltb (w_op b op fill)) with (min_ltb b).
    change (w_minima (w_op b op fill) (sort_by (min_ltb b) (minima b)) 0) with (w_op (w_minima b (sort_by (min_ltb b) (minima b)) 0) op fill).
    rewrite K. destruct (push_minima _ _); reflexivity.
  Qed.
  Lemma pop_op s op fill y : fst (pop_scanline (w_op s op fill) y) = fst (pop_scanline s y).
  Proof. unfold pop_scanline. cbn [scans w_op]. destruct (drop_eq y (scans s)); reflexivity. Qed.
  Lemma reset_sorted b t : minima_valid b -> reset b = Ok t -> sort_by (min_ltb b) (minima t) = sort_by (min_ltb b) (minima b).
  Proof.
    intros V H. destruct (reset_frame _ _ H) as (_ & _ & _ & M & _). rewrite M. apply min_sort_twice. apply Forall_forall. intros m Hm.
    now apply V.
  Qed.
  (** Nothing above the first scan line: nothing is written. *)
  Definition idle b (L : list (call (T := T))) : Prop := forall t, reset b = Ok t -> fst (pop_scanline t (n_neg n_huge)) = None -> L = [].
  Lemma finish_used n b L s op fill s2 l2 : blank b -> minima_valid b -> used b L s -> idle b L ->
    finish n (w_op b op fill) = Ok (s2, l2) ->
    exists s3, finish n (w_op s op fill) = Ok (s3, L ++ l2) /\ used b (L ++ l2) s3 /\ idle b (L ++ l2).
  Proof.
    intros BL V U ID H. unfold finish in *. apply bind_ok in H as (t & R & H).
    rewrite (reset_used b L s op fill BL U). rewrite (reset_sh _ _ _ _ _ _ R). cbn [bind]. rewrite pop_scanline_sh.
    destruct BL as (E1 & E2 & E3 & E4 & E5). destruct U as (U1 & U2 & U3 & U4 & U5 & U6 & U7).
    assert (R' := R). rewrite reset_op in R'. destruct (reset b) as [t0| | |] eqn:R0; try discriminate. cbn [omap] in R'. injection R' as <-.
    destruct (reset_frame _ _ R0) as (F1 & F2 & F3 & F4 & F5 & F6). pose proof (reset_sorted _ _ V R0) as SS.
    pose proof (pop_op t0 op fill (n_neg n_huge)) as PO. destruct (pop_scanline (w_op t0 op fill) (n_neg n_huge)) as [[y|] t1] eqn:P; cbn [fst snd] in *.
    - apply bind_ok in H as (s2' & SW & H). injection H as <- <-. rewrite (sweep_sh _ _ _ _ _ _ _ _ _ SW). cbn [bind].
      eexists. split; [rewrite build_output_sh, U7; reflexivity|]. destruct (sweep_done _ _ _ _ _ SW) as [S1 S2]. apply sweep_frame in SW. apply pop_scanline_frame in P as (P & _).
      rewrite P in SW. unfold VFrame.fin in SW. injection SW as Q1 Q2 Q3 Q4 Q5 Q6 Q7. cbn [w_op verts lmins minima starts] in *. split.
      + unfold used. cbn [sh verts lmins starts minima scans changes polys]. rewrite Q3. repeat split; try congruence.
        change (flat_map write_poly (polys (sh (edges s) (bounds s) (polys s) (breaks s) s2')) = L ++ build_output s2').
        change (build_output (sh (edges s) (bounds s) (polys s) (breaks s) s2') = L ++ build_output s2'). rewrite build_output_sh. now rewrite U7.
      + intros t' Rt Pt. rewrite R0 in Rt. injection Rt as <-. congruence.
    - injection H as <- <-. rewrite app_nil_r. assert (L = []) as EL. { apply (ID t0 R0). now rewrite <- PO. }
      eexists. rewrite EL in *. split; [reflexivity|]. apply pop_scanline_frame in P as P'. destruct P' as (P1 & P2 & _ & _ & _ & P3).
      unfold VFrame.fin in P1. injection P1 as Q1 Q2 Q3 Q4 Q5 Q6 Q7. unfold fout in P2. injection P2 as W1 W2 W3. cbn [w_op verts lmins minima starts polys changes bounds obl] in *. split.
      + unfold used. cbn [sh verts lmins starts minima scans changes polys]. rewrite Q3, W2, F6, E3. cbn [map]. rewrite app_nil_r. repeat split; try congruence.
        unfold pop_scanline in P. destruct (drop_eq _ _); [|discriminate]. injection P as <-. reflexivity.
      + intros t' _ _. reflexivity.
  Qed.
  (** A used processor finds its contours broken. *)
  Lemma process_used en n b L s op fill s2 l2 : blank b -> minima_valid b -> used b L s -> idle b L -> find_breaks en (verts b) (starts b) = Ok [] ->
    finish n (w_op b op fill) = Ok (s2, l2) ->
    exists s3, process en n s op fill = Ok (s3, L ++ l2) /\ used b (L ++ l2) s3 /\ idle b (L ++ l2).
  Proof.
    intros BL V U ID FB H.
    assert (U' : used b L (w_breaks s [])) by exact U.
    destruct (finish_used n b L (w_breaks s []) op fill s2 l2 BL V U' ID H) as (s3 & F & U3 & I3). exists s3. split; auto.
    unfold process, process_intersect. destruct U as (U1 & U2 & U3' & _). cbn [verts starts w_op]. rewrite U1, U3', FB. cbn [bind]. exact F.
  Qed.
  Lemma process_finish en n s op fill b : process_intersect en s = Ok b -> process en n s op fill = finish n (w_op b op fill).
  Proof. intros H. unfold process. now rewrite (process_intersect_op _ _ _ _ _ H). Qed.
  Lemma uses_used en n b js : blank b -> minima_valid b -> find_breaks en (verts b) (starts b) = Ok [] -> forall L s ls, used b L s -> idle b L ->
    Forall2 (fun j l => exists s', finish n (w_op b (fst j) (snd j)) = Ok (s', l)) js ls -> uses en n s js = Ok (totals L ls).
  Proof.
    intros BL V FB. induction js as [|[op fill] js IH]; intros L s ls U ID F; inversion F as [|? l ? ls' (s' & H) F']; subst; [reflexivity|].
    cbn [fst snd] in H. destruct (process_used en n b L s op fill s' l BL V U ID FB H) as (s3 & P & U3 & I3).
    cbn [uses totals]. rewrite P. cbn [bind fst snd]. rewrite (IH _ _ _ U3 I3 F'). reflexivity.
  Qed.
  Definition ctl s := (changes s, starts s).
  Lemma intersect_changes en s b : process_intersect en s = Ok b -> changes b = changes s /\ starts b = starts s.
  Proof.
    assert (SG : forall s p m g s', set_segment s p m g = Ok s' -> ctl s' = ctl s) by (unfold set_segment; intros; dmatch; auto).
    assert (CH : forall gs s c s' e, chain s c gs = Ok (s', e) -> ctl s' = ctl s).
    { induction gs as [|g gs IH]; intros t c t' e H; cbn [chain] in H; [binvs; auto|]. cbn [new_vertex] in H. binv H. apply IH in H. apply SG in E. rewrite H, E. reflexivity. }
    assert (RL : forall s st gs l s', relink s st gs l = Ok s' -> ctl s' = ctl s).
    { unfold relink. intros t st gs l t' H. binv H. binv H. binv H. destruct x1 as [t1 c]. apply CH in E1. binv H. binv H. apply SG in E3. mods. unfold ctl in *. cbn in *. congruence. }
    assert (BA : forall fuel s l s', break_all fuel s l = Ok s' -> ctl s' = ctl s).
    { induction fuel as [|fuel IH]; intros t l t' H; simpl in H; (destruct l as [|k l]; [binvs; auto|]); [discriminate|]. destruct (take_run (br_vert k) (k :: l)) as [r1 r2].
      binv H. apply IH in H. rewrite H. clear H IH. unfold break_vertex in E. binvs. destruct x1; binvs; auto; eapply RL; eauto. }
    unfold process_intersect. intros H. binv H. cbv zeta in H. apply BA in H. unfold ctl in H. cbn in H. injection H; auto.
  Qed.
  Lemma uses_lemma en n s js ls : blank s -> minima_valid s -> quiet en s ->
    Forall2 (fun j l => exists s', process en n s (fst j) (snd j) = Ok (s', l)) js ls -> uses en n s js = Ok (totals [] ls).
  Proof.
    intros BL V Q F. destruct F as [|[op fill] l js ls (s' & H) F]; [reflexivity|]. cbn [fst snd] in H.
    assert (X : exists b, process_intersect en s = Ok b).
    { unfold process in H. apply bind_ok in H as (x & E & _). pose proof (process_intersect_op (cop s) (cfill s) _ _ _ E) as K.
      exists (w_op x (cop s) (cfill s)). rewrite <- K. now destruct s. }
    destruct X as (b & PI). pose proof (Q b PI) as FB. destruct (process_intersect_same _ _ _ PI) as [SM KP]. pose proof (intersect_changes _ _ _ PI) as [CH _].
    destruct BL as (E1 & E2 & E3 & E4 & E5). destruct SM as (SM & SM1 & SM2 & _). unfold store in SM. injection SM as S1 S2 S3 S4 S5 S6.
    assert (BB : blank b) by (repeat split; congruence).
    assert (VB : minima_valid b).
    { intros m Hm. rewrite SM2 in Hm. destruct (V m Hm) as (x & v & A & B & C & D). destruct (KP _ _ B) as (w & W1 & W2). exists x, w. rewrite SM1, W2. auto. }
    assert (UB : used b [] b) by (destruct BB as (? & ? & P & ? & ?); unfold used; rewrite P; repeat split; auto).
    assert (IB : idle b []) by (intros ? ? ?; reflexivity).
    assert (F' : Forall2 (fun j l => exists s', finish n (w_op b (fst j) (snd j)) = Ok (s', l)) js ls).
    { clear - F PI. induction F as [|j k js ls (t & K) F IH]; constructor; auto. exists t. rewrite <- K. symmetry. now apply process_finish. }
    rewrite (process_finish _ _ _ _ _ _ PI) in H. destruct (finish_used n b [] b op fill s' l BB VB UB IB H) as (s3 & P & U3 & I3).
    cbn [uses totals]. rewrite (process_finish _ _ _ _ _ _ PI), P. cbn [bind fst snd]. rewrite (uses_used en n b js BB VB FB _ _ _ U3 I3 F'). reflexivity.
  Qed.
End Again.
