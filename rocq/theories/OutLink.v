(** The order in which edges and bounds are connected, and the new list of open bounds. *)
From Coq Require Import ZArith Bool List Reals Lra Lia Permutation Sorted.
From Verif Require Import Outcome Num Rmath RTac Segment VState VAel VOut VMain VLemmas VFrame AelSpec VAelProofs VEdges VAelRun VRun SortProofs VPairs LensRun PlaneSpec PlaneCount OutSpec OutPath OutAlt OutList OutClose OutMatch.
Import ListNotations.
Local Open Scope Z_scope.
Local Open Scope out.

Section Unique.
  Context {A : Type}.
  Lemma perm_filter (f : A -> bool) l l' : Permutation l l' -> Permutation (filter f l) (filter f l').
  Proof.
    induction 1; cbn; auto.
    - destruct (f x); auto.
    - destruct (f x), (f y); auto. apply perm_swap.
    - etransitivity; eauto.
  Qed.
  Lemma sorted_filter (Q : A -> A -> Prop) f l : StronglySorted Q l -> StronglySorted Q (filter f l).
  Proof. induction 1 as [|a l S IH F]; cbn; [constructor|]. destruct (f a); auto. constructor; auto. rewrite Forall_forall in *. intros x Hx. apply filter_In in Hx as [Hx _]. auto. Qed.
  Lemma sorted_unique (Q : A -> A -> Prop) l : forall l', Permutation l l' -> StronglySorted Q l -> StronglySorted Q l' -> (forall a b, In a l -> In b l -> Q a b -> Q b a -> a = b) -> l = l'.
  Proof.
    induction l as [|a l IH]; intros l' P S S' AS; [apply Permutation_nil in P; auto|].
    destruct l' as [|b l']; [apply Permutation_sym, Permutation_nil in P; discriminate|].
    inversion S as [|? ? S1 S2]; inversion S' as [|? ? S3 S4]; subst. rewrite Forall_forall in *.
    assert (a = b).
    { assert (Ib : In b (a :: l)) by (eapply Permutation_in; [symmetry; exact P|now left]). assert (Ia : In a (b :: l')) by (eapply Permutation_in; [exact P|now left]).
      destruct Ib as [->|Ib]; auto. destruct Ia as [->|Ia]; auto. apply AS; auto; [now left|now right]. }
    subst b. f_equal. apply IH; auto; [eapply Permutation_cons_inv; eauto|]. intros x z Hx Hz. apply AS; now right.
  Qed.
End Unique.

Section Link.
  Implicit Types s : clipper R.
  Variable X : nat -> R.
  Variable D : nat -> Z.
  Variable EX : nat -> R.
  Variable ED : nat -> Z.
  Variable EP : nat -> vec2 R.
  Variable K : list nat.
  Hypothesis K_once : NoDup K.
  Notation mi := (mi X D EX ED EP K).
  Notation conn := (conn ED EP).
  Notation bd := (@bd R).
  Notation eread := (eread EX ED EP).

  Fixpoint enumE (l : list nat) (k : nat) : list bd := match l with [] => [] | i :: r => Bd (inl i) (EX i) k :: enumE r (S k) end.
  Fixpoint enumB (l : list nat) (k : nat) : list bd := match l with [] => [] | i :: r => Bd (inr i) (X i) k :: enumB r (S k) end.
  Lemma sbl_edges_run s l : eread (edges s) l -> forall k, sbl_edges s l k = Ok (enumE l k).
  Proof.
    intros H. induction l as [|i l IH]; intros k; cbn [sbl_edges enumE]; auto. destruct (H i (or_introl eq_refl)) as (e & E & Xe & _).
    rewrite (proj2 (at_ok _ _ _) E). cbn [bind]. rewrite IH by (intros j Hj; apply H; now right). cbn [bind]. now rewrite Xe.
  Qed.
  Lemma enumE_len l : forall k, length (enumE l k) = length l.
  Proof. induction l; cbn; auto. Qed.
  Lemma eds_enumE l : forall k, eds (enumE l k) = l.
  Proof. induction l as [|i l IH]; intros k; auto. cbn. f_equal. apply IH. Qed.
  Lemma bds_enumE l : forall k, bds (enumE l k) = [].
  Proof. induction l as [|i l IH]; intros k; auto. cbn. apply IH. Qed.
  Lemma eds_enumB l : forall k, eds (enumB l k) = [].
  Proof. induction l as [|i l IH]; intros k; auto. cbn. apply IH. Qed.
  Lemma bds_enumB l : forall k, bds (enumB l k) = l.
  Proof. induction l as [|i l IH]; intros k; auto. cbn. f_equal. apply IH. Qed.
  Lemma in_enumE a l : forall k, In a (enumE l k) -> exists i, In i l /\ bd_what a = inl i /\ bd_x a = EX i /\ (k <= bd_idx a < k + length l)%nat.
  Proof. induction l as [|i l IH]; intros k H; cbn in H; [tauto|]. destruct H as [<-|H]; [exists i; cbn; csplit; auto; lia|]. destruct (IH _ H) as (j & A & B & C & E). exists j. cbn. csplit; auto; lia. Qed.
  Lemma in_enumB a l : forall k, In a (enumB l k) -> exists i, In i l /\ bd_what a = inr i /\ bd_x a = X i /\ (k <= bd_idx a < k + length l)%nat.
  Proof. induction l as [|i l IH]; intros k H; cbn in H; [tauto|]. destruct H as [<-|H]; [exists i; cbn; csplit; auto; lia|]. destruct (IH _ H) as (j & A & B & C & E). exists j. cbn. csplit; auto; lia. Qed.
  Definition bli (a b : bd) : Prop := (bd_x a < bd_x b)%R \/ bd_x a = bd_x b /\ (bd_idx a <= bd_idx b)%nat.
  Lemma enumE_sorted l : upward EX l -> forall k, StronglySorted bli (enumE l k).
  Proof.
    induction l as [|i l IH]; intros U k; cbn; constructor; apply upward_tail in U as [U U']; auto. apply Forall_forall. intros a Ha. apply in_enumE in Ha as (j & Hj & _ & Q & L).
    unfold bli. cbn. rewrite Q. specialize (U' j Hj). destruct (Req_EM_T (EX i) (EX j)); [right; split; auto; lia|left; lra].
  Qed.
  Lemma enumB_sorted l : upward X l -> forall k, StronglySorted bli (enumB l k).
  Proof.
    induction l as [|i l IH]; intros U k; cbn; constructor; apply upward_tail in U as [U U']; auto. apply Forall_forall. intros a Ha. apply in_enumB in Ha as (j & Hj & _ & Q & L).
    unfold bli. cbn. rewrite Q. specialize (U' j Hj). destruct (Req_EM_T (X i) (X j)); [right; split; auto; lia|left; lra].
  Qed.
  Lemma enum_idx E B a b : In a (enumE E 0 ++ enumB B (length E)) -> In b (enumE E 0 ++ enumB B (length E)) -> bd_idx a = bd_idx b -> a = b.
  Proof.
    assert (G1 : forall l k a b, In a (enumE l k) -> In b (enumE l k) -> bd_idx a = bd_idx b -> a = b).
    { induction l as [|i l IH]; intros k p q Hp Hq Q; cbn in *; [tauto|]. destruct Hp as [<-|Hp], Hq as [<-|Hq]; auto; [apply in_enumE in Hq as (_ & _ & _ & _ & L)|apply in_enumE in Hp as (_ & _ & _ & _ & L)|eauto]; cbn in Q; lia. }
    assert (G2 : forall l k a b, In a (enumB l k) -> In b (enumB l k) -> bd_idx a = bd_idx b -> a = b).
    { induction l as [|i l IH]; intros k p q Hp Hq Q; cbn in *; [tauto|]. destruct Hp as [<-|Hp], Hq as [<-|Hq]; auto; [apply in_enumB in Hq as (_ & _ & _ & _ & L)|apply in_enumB in Hp as (_ & _ & _ & _ & L)|eauto]; cbn in Q; lia. }
    rewrite !in_app_iff. intros [Ha|Ha] [Hb|Hb] Q; [eauto| | |eauto].
    - apply in_enumE in Ha as (_ & _ & _ & _ & L1). apply in_enumB in Hb as (_ & _ & _ & _ & L2). lia.
    - apply in_enumB in Ha as (_ & _ & _ & _ & L1). apply in_enumE in Hb as (_ & _ & _ & _ & L2). lia.
  Qed.
  Lemma filter_all {A} (f : A -> bool) l : (forall a, In a l -> f a = true) -> filter f l = l.
  Proof. induction l as [|a l IH]; cbn; intros H; auto. rewrite (H a (or_introl eq_refl)), IH; auto. Qed.
  Lemma filter_nil {A} (f : A -> bool) l : (forall a, In a l -> f a = false) -> filter f l = [].
  Proof. induction l as [|a l IH]; cbn; intros H; auto. rewrite (H a (or_introl eq_refl)), IH; auto. Qed.
  Lemma eds_filter (l : list bd) : eds l = eds (filter is_edge l).
  Proof. induction l as [|a l IH]; auto. unfold eds in *. cbn. unfold is_edge at 1. destruct (bd_what a) eqn:W; cbn; rewrite ?W, IH; reflexivity. Qed.
  Lemma bds_filter (l : list bd) : bds l = bds (filter (fun a => negb (is_edge a)) l).
  Proof. induction l as [|a l IH]; auto. unfold bds in *. cbn. unfold is_edge at 1. destruct (bd_what a) eqn:W; cbn; rewrite ?W, IH; reflexivity. Qed.
  Lemma merged E B : upward EX E -> upward X B -> rep X EX (sort_by bd_ltb (enumE E 0 ++ enumB B (length E))) E B.
  Proof.
    intros UE UB. set (L := enumE E 0 ++ enumB B (length E)). pose proof (sort_by_perm bd_ltb L) as P.
    assert (S : StronglySorted bli (sort_by bd_ltb L)).
    { apply (sort_by_sorted bd_ltb (fun _ => True) bli).
      - unfold bli. intros a b c _ _ _ [H|[H H']] [J|[J J']]; [left; lra|left; lra|left; lra|right; split; [lra|lia]].
      - intros a b _ _. unfold bd_ltb, bli. rops. destruct (Reqb (bd_x a) (bd_x b)) eqn:Q; rbool.
        + destruct (Nat.ltb_spec (bd_idx a) (bd_idx b)); right; split; try lra; lia.
        + destruct (Rltb (bd_x a) (bd_x b)) eqn:Q2; rbool; left; lra.
      - apply Forall_forall. auto. }
    assert (AS : forall a b, In a L -> In b L -> bli a b -> bli b a -> a = b).
    { intros a b Ha Hb [H|[H H']] [J|[J J']]; try lra. eapply enum_idx; eauto. lia. }
    assert (FE : filter is_edge L = enumE E 0).
    { unfold L. rewrite filter_app, filter_all, filter_nil, app_nil_r; auto; [intros a Ha; apply in_enumB in Ha as (i & _ & W & _)|intros a Ha; apply in_enumE in Ha as (i & _ & W & _)]; unfold is_edge; now rewrite W. }
    assert (FB : filter (fun a => negb (is_edge a)) L = enumB B (length E)).
    { unfold L. rewrite filter_app, filter_nil, filter_all; auto; [intros a Ha; apply in_enumB in Ha as (i & _ & W & _)|intros a Ha; apply in_enumE in Ha as (i & _ & W & _)]; unfold is_edge; now rewrite W. }
    split; [|split; [|split]].
    - rewrite eds_filter. rewrite <- (sorted_unique bli (filter is_edge L) (filter is_edge (sort_by bd_ltb L))).
      + rewrite FE. apply eds_enumE.
      + now apply perm_filter.
      + rewrite FE. now apply enumE_sorted.
      + now apply sorted_filter.
      + intros a b Ha Hb. apply filter_In in Ha as [Ha _]. apply filter_In in Hb as [Hb _]. auto.
    - rewrite bds_filter. rewrite <- (sorted_unique bli (filter (fun a => negb (is_edge a)) L) (filter (fun a => negb (is_edge a)) (sort_by bd_ltb L))).
      + rewrite FB. apply bds_enumB.
      + now apply perm_filter.
      + rewrite FB. now apply enumB_sorted.
      + now apply sorted_filter.
      + intros a b Ha Hb. apply filter_In in Ha as [Ha _]. apply filter_In in Hb as [Hb _]. auto.
    - assert (IN : forall a, In a (sort_by bd_ltb L) -> In a L) by (intros a Ha; eapply Permutation_in; [symmetry; exact P|auto]).
      clear P AS FE FB UE UB. revert S IN. generalize (sort_by bd_ltb L). intros l0 S IN. induction S as [|a l S IH F]; constructor; [apply IH; intros; apply IN; now right|]. rewrite Forall_forall in *. intros b Hb.
      destruct (F b Hb) as [H|[H H']]; [left; auto|right; split; auto]. intros KA. assert (Ia := IN a (or_introl eq_refl)). assert (Ib := IN b (or_intror Hb)).
      unfold L in Ia, Ib. apply in_app_or in Ia as [Ia|Ia]; [apply in_enumE in Ia as (i & _ & W & _); unfold is_edge in KA; rewrite W in KA; discriminate|].
      apply in_enumB in Ia as (i & _ & _ & _ & L1). apply in_app_or in Ib as [Ib|Ib]; [apply in_enumE in Ib as (j & _ & _ & _ & L2); lia|]. apply in_enumB in Ib as (j & _ & W & _). unfold is_edge. now rewrite W.
    - apply Forall_forall. intros a Ha. assert (Ia : In a L) by (eapply Permutation_in; [symmetry; exact P|auto]). unfold L in Ia. unfold entry.
      apply in_app_or in Ia as [Ia|Ia]; [apply in_enumE in Ia as (i & _ & W & Q & _)|apply in_enumB in Ia as (i & _ & W & Q & _)]; now rewrite W.
  Qed.

  (** *** The new list *)
  Lemma link_run l : forall s a last x bl, Forall2 (fun j c => ebof (edges s) j = Some c) l bl -> NoDup (a ++ last :: bl) -> bseg (bounds s) None a (Some last) -> nth_error (bounds s) last = Some x ->
    ob_prev x = last_or None a -> (forall c, In c bl -> exists z, nth_error (bounds s) c = Some z) ->
    (forall z, nth_error (bounds s) (List.last bl last) = Some z -> ob_next z = None) ->
    exists s', link_obl s last l = Ok s' /\ bseg (bounds s') None (a ++ last :: bl) None /\ brel links_only (bounds s) (bounds s') /\ edges s' = edges s /\ polys s' = polys s /\ obl s' = obl s.
  Proof.
    induction l as [|i l IH]; intros s a last x bl F ND BA El PV EX' LN; inversion F as [|? c ? bl' E F']; subst; cbn [link_obl].
    - exists s. csplit; auto; [|apply brel_refl, links_refl]. apply bseg_app. split; auto. cbn. exists x. csplit; auto.
    - apply ebof_some in E as (e & Ee & Eb). rewrite (proj2 (at_ok _ _ _) Ee). cbn [bind]. rewrite (bmod_run _ _ _ _ El). cbn [bind]. rewrite Eb. cbn [deref of_opt bind].
      assert (Nc : last <> c /\ ~ In c a /\ ~ In last a /\ ~ In last bl' /\ ~ In c bl').
      { pose proof (nodup_app_r _ _ ND) as N1. inversion N1 as [|? ? N2 N3]; subst. inversion N3 as [|? ? N4 N5]; subst. cbn in N2.
        csplit; auto; try (intros ->; tauto); intros K'; eapply nodup_apart; eauto; cbn; auto. }
      destruct Nc as (N1 & N2 & N3 & N4 & N5). destruct (EX' c (or_introl eq_refl)) as (z & Ez).
      assert (Ez' : nth_error (upd (bounds s) last (set_bnext (Some c))) c = Some z) by (rewrite nth_upd_other; auto).
      rewrite (bmod_run _ _ _ _ (Ez' : nth_error (bounds (w_bounds s (upd (bounds s) last (set_bnext (Some c))))) c = Some z)). cbn [bind].
      set (bs2 := upd (upd (bounds s) last (set_bnext (Some c))) c (set_bprev (Some last))).
      set (s2 := w_bounds (w_bounds s (upd (bounds s) last (set_bnext (Some c)))) bs2).
      assert (El2 : nth_error bs2 last = Some (set_bnext (Some c) x)) by (unfold bs2; rewrite nth_upd_other by auto; now apply nth_upd_same).
      assert (Ez2 : nth_error bs2 c = Some (set_bprev (Some last) z)) by (unfold bs2; now apply nth_upd_same).
      destruct (IH s2 (a ++ [last]) c (set_bprev (Some last) z) bl') as (s' & R1 & R2 & R3 & R4 & R5 & R6); auto.
      + rewrite <- app_assoc. exact ND.
      + cbn. apply bseg_app. cbn [hd_or]. split.
        * unfold bs2. apply bseg_upd_out; auto. apply bseg_upd_out; auto.
        * exists (set_bnext (Some c) x). csplit; auto; exact I.
      + now rewrite last_or_snoc.
      + intros k Hk. destruct (EX' k (or_intror Hk)) as (z' & Z). exists z'. cbn. unfold bs2. rewrite !nth_upd_other; auto; intros ->; contradiction.
      + intros z' Z. cbn in Z. destruct bl' as [|k bl'].
        * cbn in Z. rewrite Ez2 in Z. injection Z as <-. cbn. apply LN. exact Ez.
        * assert (IL : In (List.last (k :: bl') c) (k :: bl')) by (clear; revert k; induction bl'; intros k; cbn; auto; right; apply IHbl').
          assert (LD : forall m k0 (d1 d2 : nat), List.last (k0 :: m) d1 = List.last (k0 :: m) d2) by (clear; induction m as [|q m IHm]; intros k0 d1 d2; auto; change (List.last (q :: m) d1 = List.last (q :: m) d2); apply IHm).
          assert (LE : List.last (c :: k :: bl') last = List.last (k :: bl') c) by (change (List.last (k :: bl') last = List.last (k :: bl') c); apply LD).
          apply LN. rewrite LE. unfold bs2 in Z. rewrite !nth_upd_other in Z; auto; (intros QQ; first [apply N4; rewrite QQ; exact IL|apply N5; rewrite QQ; exact IL]).
      + exists s'. csplit; auto; [rewrite <- app_assoc in R2; exact R2|].
        eapply brel_trans; [intros ? ? ?; apply links_trans| |exact R3]. cbn. unfold bs2.
        eapply brel_trans; [intros ? ? ?; apply links_trans| |]; apply brel_upd; auto using links_refl; intros []; reflexivity.
  Qed.
  Lemma forall2_in {A B} (Q : A -> B -> Prop) l l' : Forall2 Q l l' -> forall b, In b l' -> exists a, In a l /\ Q a b.
  Proof. induction 1 as [|a b l l' H _ IH]; intros c Hc; cbn in *; [tauto|]. destruct Hc as [<-|Hc]; [eauto|]. destruct (IH c Hc) as (a' & I & J). eauto. Qed.
  Lemma forall2_in_l {A B} (Q : A -> B -> Prop) l l' : Forall2 Q l l' -> forall a, In a l -> exists b, In b l' /\ Q a b.
  Proof. induction 1 as [|a b l l' H _ IH]; intros c Hc; cbn in *; [tauto|]. destruct Hc as [<-|Hc]; [eauto|]. destruct (IH c Hc) as (a' & I & J). eauto. Qed.
  Lemma conn_list s pos don nb DE d : mi s pos d [] [] nb don DE -> exists bl, Forall2 (conn s pos) K bl /\ (forall c, In c bl <-> In c (don ++ nb)) /\ NoDup bl.
  Proof.
    intros M. pose proof (mi_conn _ _ _ _ _ _ _ _ _ _ _ _ _ _ M) as CN. pose proof (mi_back _ _ _ _ _ _ _ _ _ _ _ _ _ _ M) as BK.
    assert (G : forall l, (forall j, In j l -> In j K) -> exists bl, Forall2 (conn s pos) l bl /\ forall c, In c bl -> In c (don ++ nb)).
    { induction l as [|j l IH]; intros H; [exists []; split; [constructor|intros c []]|]. destruct IH as (bl & F & I); [intros k Hk; apply H; now right|].
      destruct (CN j (H j (or_introl eq_refl)) (fun x => x)) as (c & Hc & C). exists (c :: bl). split; [constructor; auto|]. intros k [<-|Hk]; auto. }
    destruct (G K (fun j H => H)) as (bl & F & I). exists bl. split; auto. split.
    - intros c. split; auto. intros Hc. destruct (BK c Hc) as (j & Hj & Ej). destruct (forall2_in_l _ _ _ F j Hj) as (c' & Hc' & C1 & _). congruence.
    - assert (LK := os_link _ _ _ _ (mi_outs _ _ _ _ _ _ _ _ _ _ _ _ _ _ M)). clear - F LK K_once. induction F as [|j c l bl C F IH]; constructor; inversion K_once as [|? ? N1 N2]; subst; auto.
      intros Hc. destruct (forall2_in _ _ _ F c Hc) as (j' & Hj' & C' & _). destruct C as (C & _). apply LK in C. apply LK in C'. assert (j = j') by congruence. subst. contradiction.
  Qed.
  Lemma paths_same ps bs pos bl bl' : (forall c, In c bl' <-> In c bl) -> paths ps bs pos bl -> paths ps bs pos bl'.
  Proof.
    intros H [A B]. split; [|intros c Hc; apply B, H; auto]. intros o q E. destruct (A o q E) as (F1 & F2 & F). split; auto. split; auto. destruct (o_complete q); auto.
    destruct F as (u & d & bu & bd & D3 & D4 & D5 & D6 & D7 & D8 & D9). exists u, d, bu, bd. csplit; try tauto; apply H; tauto.
  Qed.
  Lemma last_in (c : nat) bl : In (List.last bl c) (c :: bl).
  Proof. revert c. induction bl as [|a bl IH]; intros c; [now left|]. right. destruct bl as [|b bl]; [now left|]. change (List.last (a :: b :: bl) c) with (List.last (b :: bl) c). specialize (IH a). replace (List.last (b :: bl) c) with (List.last (b :: bl) a); auto. clear. revert b. induction bl; intros b; cbn; auto. apply IHbl. Qed.
  Lemma subseq_last (a l : list nat) j : subseq a (l ++ [j]) -> NoDup (l ++ [j]) -> In j a -> exists a0, a = a0 ++ [j].
  Proof.
    revert a. induction l as [|x l IH]; intros a S ND Ij; cbn in *.
    - inversion S as [|? ? ? S1|? ? ? S1]; subst; inversion S1; subst; [destruct Ij|]. exists []. reflexivity.
    - inversion ND as [|? ? N1 N2]; subst. inversion S as [|? ? ? S1|? a1 ? S1]; subst; [eauto|].
      destruct Ij as [->|Ij]; [exfalso; apply N1; apply in_or_app; right; now left|]. destruct (IH a1 S1 N2 Ij) as (a0 & ->). exists (x :: a0). reflexivity.
  Qed.
  Lemma forall2_last {A B} (Q : A -> B -> Prop) l a l' : Forall2 Q (l ++ [a]) l' -> exists l0 b, l' = l0 ++ [b] /\ Q a b.
  Proof. intros H. apply Forall2_app_inv_l in H as (l1 & l2 & _ & H2 & ->). inversion H2 as [|? b ? ? Q1 H3]; subst. inversion H3; subst. eauto. Qed.
  Lemma rebuild_run s pos don nb DE d : mi s pos d [] [] nb don DE ->
    exists s' bl, rebuild_obl s K = Ok s' /\ outs s' pos bl [] /\ Forall2 (conn s' pos) K bl /\ polys s' = polys s.
  Proof.
    intros M. destruct (conn_list _ _ _ _ _ _ M) as (bl & F & I & ND). pose proof (mi_outs _ _ _ _ _ _ _ _ _ _ _ _ _ _ M) as [CH PA LK ON NW LV]. rewrite app_nil_r in *.
    assert (EXI : forall c, In c bl -> exists z, nth_error (bounds s) c = Some z) by (intros c Hc; destruct (forall2_in _ _ _ F c Hc) as (j & _ & _ & _ & z & Z & _); eauto).
    assert (LST : forall K0 j bl0 c, K = K0 ++ [j] -> bl = bl0 ++ [c] -> forall z, nth_error (bounds s) c = Some z -> ob_next z = None).
    { intros K0 j bl0 c KQ BQ z Z. assert (Hc : In c (don ++ nb)) by (apply I; rewrite BQ; apply in_or_app; right; now left).
      assert (Cj : ebof (edges s) j = Some c) by (rewrite KQ in F; destruct (forall2_last _ _ _ _ F) as (l0 & b & Q1 & Q2 & _); rewrite BQ in Q1; apply app_inj_tail in Q1 as [_ ->]; auto).
      apply in_app_or in Hc as [Hc|Hc]; [|eauto].
      pose proof (mi_de _ _ _ _ _ _ _ _ _ _ _ _ _ _ M) as DE2. pose proof (mi_sub _ _ _ _ _ _ _ _ _ _ _ _ _ _ M) as SU. rewrite app_nil_r in SU.
      destruct (forall2_in _ _ _ DE2 c Hc) as (j' & Hj' & Cj'). assert (j = j') by (apply LK in Cj; apply LK in Cj'; congruence). subst j'.
      rewrite KQ in SU. assert (K_once' := K_once). rewrite KQ in K_once'. destruct (subseq_last _ _ _ SU K_once' Hj') as (D0 & ->). destruct (forall2_last _ _ _ _ DE2) as (l0 & b & -> & Q2).
      assert (b = c) by congruence. subst b. destruct (chain_mid s l0 c [] CH) as (x & Ex & N & _). rewrite Z in Ex. injection Ex as <-. exact N. }
    assert (G : exists s', rebuild_obl s K = Ok s' /\ chain s' bl /\ brel links_only (bounds s) (bounds s') /\ edges s' = edges s /\ polys s' = polys s).
    { unfold rebuild_obl. destruct K as [|j K'] eqn:KQ; inversion F as [|? c ? bl' C F']; subst.
      - eexists. split; [reflexivity|]. csplit; auto; [|apply brel_refl, links_refl]. split; [reflexivity|]. split; [exact Logic.I|constructor].
      - destruct C as (C1 & _ & x & Ex & _). apply ebof_some in C1 as (e & Ee & Eb). rewrite (proj2 (at_ok _ _ _) Ee). cbn [bind]. rewrite Eb. cbn [deref of_opt bind].
        rewrite (bmod_run _ _ _ _ (Ex : nth_error (bounds (w_obl s (Some c))) c = Some x)). cbn [bind bounds w_obl].
        set (s1 := w_bounds (w_obl s (Some c)) (upd (bounds s) c (fun z => set_bnext None (set_bprev None z)))).
        inversion ND as [|? ? N1 N2]; subst.
        assert (E1 : nth_error (bounds s1) c = Some (set_bnext None (set_bprev None x))) by (cbn; now rewrite (nth_upd_same _ _ _ _ Ex)).
        destruct (link_run K' s1 [] c (set_bnext None (set_bprev None x)) bl') as (s' & R1 & R2 & R3 & R4 & R5 & R6); auto.
        + clear - F'. induction F' as [|? ? ? ? (C & _) _ IH]; constructor; auto.
        + exact Logic.I.
        + intros k Hk. destruct (EXI k (or_intror Hk)) as (z & Z). cbn. rewrite nth_upd_other by (intros ->; contradiction). eauto.
        + intros z Z. destruct (snoc_cases bl') as [->|(b0 & b & ->)]; [cbn in Z; rewrite (nth_upd_same _ _ _ _ Ex) in Z; now injection Z as <-|].
          rewrite last_last in Z. cbn in Z. rewrite nth_upd_other in Z by (intros ->; apply N1, in_or_app; right; now left).
          apply Forall2_app_inv_r in F' as (K1 & K2 & _ & F2 & ->). inversion F2 as [|j2 ? K3 ? Q2 F3]; subst. inversion F3; subst.
          eapply (LST (j :: K1) j2 (c :: b0) b); eauto.
        + exists s'. csplit; auto.
          * split; [rewrite R6; reflexivity|]. split; auto.
          * eapply brel_trans; [intros ? ? ?; apply links_trans| |exact R3]. cbn. apply brel_upd; auto using links_refl. intros []; reflexivity. }
    destruct G as (s' & R1 & R2 & R3 & R4 & R5). exists s', bl. split; auto. split; [|split; auto].
    - constructor; auto; rewrite ?app_nil_r; auto.
      + rewrite R5. eapply paths_bounds; [|apply (paths_same _ _ _ _ _ I PA)]. intros i b E. destruct (proj2 R3 i b E) as (c & C & L). exists c. split; auto. rewrite L. split; reflexivity.
      + rewrite R4. intros i c. rewrite (LK i c). unfold beof. split.
        * destruct (nth_error (bounds s) c) as [b|] eqn:E; [|discriminate]. destruct (proj2 R3 c b E) as (b' & E' & L). rewrite E', L. auto.
        * destruct (nth_error (bounds s') c) as [b|] eqn:E; [|discriminate]. destruct (brel_back _ _ _ _ _ R3 E) as (b' & E' & L). rewrite E', L. auto.
      + intros c x [].
      + intros i c. rewrite R4. intros H. apply I. eauto.
    - clear - F R3 R4. induction F as [|j c l bl (C1 & C2 & x & Ex & Dx) _ IH]; constructor; auto. split; [congruence|]. split; auto.
      destruct (proj2 R3 c x Ex) as (x' & Ex' & L). exists x'. split; auto. rewrite L. exact Dx.
  Qed.

  Lemma sbl_bounds_run fuel : forall s l p k, bseg (bounds s) p l None -> reads (bounds s) X D l -> runs (length l <= fuel)%nat (fun r => r = enumB l k) (sbl_bounds fuel s (hd_or l None) k).
  Proof.
    induction fuel; intros s l p k C RD; (destruct l as [|i l]; cbn [hd_or sbl_bounds enumB] in *; [reflexivity|]); [cbn; lia|].
    destruct C as (b & E & _ & N & C). destruct (RD i (or_introl eq_refl)) as (b' & E' & Xi & _). rewrite E in E'. injection E' as <-.
    rewrite (proj2 (at_ok _ _ _) E). cbn [bind]. rewrite N. eapply runs_bind; [eapply runs_weak; [eapply IHfuel; [exact C|intros c Hc; apply RD; now right]|intros ? _ Q; exact Q|cbn; lia]|].
    intros t _ Q. hnf in Q. subst t. unfold runs. rewrite Xi. reflexivity.
  Qed.
  Lemma update_post n s y pos d bl be : changes s <> [] -> mi (w_changes s []) pos d K bl [] [] [] -> collect (length (edges s)) (w_changes s []) (ael s) [] = Ok be -> rev be = K ->
    runs (length bl <= n)%nat (fun s' => exists pos' bl', outs s' pos' bl' [] /\ Forall2 (conn s' pos') K bl' /\ (forall x z, tw (polys s') pos' x z = tw (polys s) pos x z)) (update_output_bound n s y).
  Proof.
    intros CH M CO KQ. unfold update_output_bound. destruct (changes s) as [|ch0 chs]; [now elim CH|]. clear CH.
    change (edges (w_changes s [])) with (edges s). change (ael (w_changes s [])) with (ael s). rewrite CO. cbn [bind]. rewrite KQ.
    destruct (open_pairs_ok X D EX ED EP K K_once (length K) (w_changes s []) pos d [] K bl [] [] [] (le_n _) M) as (s1 & pos1 & nb1 & l1 & R1 & M1 & T1 & _). rewrite R1. cbn [bind app] in M1 |- *.
    rewrite sbl_edges_run. 2: { intros i Hi. apply (mi_e _ _ _ _ _ _ _ _ _ _ _ _ _ _ M1). eapply mi_K; eauto. }
    cbn [bind]. rewrite enumE_len.
    pose proof (os_chain _ _ _ _ (mi_outs _ _ _ _ _ _ _ _ _ _ _ _ _ _ M1)) as (C1 & C2 & _). cbn [app] in C1, C2. rewrite C1.
    eapply runs_bind; [exact (sbl_bounds_run n s1 bl None _ C2 (mi_b _ _ _ _ _ _ _ _ _ _ _ _ _ _ M1))|]. intros sb _ ->.
    pose proof (merged l1 bl (mi_eup _ _ _ _ _ _ _ _ _ _ _ _ _ _ M1) (mi_bup _ _ _ _ _ _ _ _ _ _ _ _ _ _ M1)) as RP.
    destruct (match_up_ok X D EX ED EP K K_once _ s1 pos1 d l1 bl nb1 [] [] y _ (le_n _) M1 RP) as (s2 & pos2 & d2 & nb2 & don2 & DE2 & R2 & M2 & T2). rewrite R2. cbn [bind].
    destruct (rebuild_run _ _ _ _ _ _ M2) as (s3 & bl' & R3 & O3 & F3 & P3). rewrite R3. cbn.
    exists pos2, bl'. csplit; auto. intros x z. rewrite P3, T2, T1. reflexivity.
  Qed.
End Link.
