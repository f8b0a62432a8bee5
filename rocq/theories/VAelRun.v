(** The active edge list under re-sorting and during the sweep. *)
From Coq Require Import ZArith Bool List Permutation Lia.
From Verif Require Import Outcome Num Order Rmath Segment VState VAel VOut VMain VLemmas VFrame AelSpec VAelProofs VEdges.
Import ListNotations.
Local Open Scope out.

Lemma subseq_refl {A} (l : list A) : subseq l l.
Proof. induction l; [apply sub_nil|now apply sub_keep]. Qed.
Lemma subseq_nil {A} (l : list A) : subseq [] l.
Proof. induction l; [apply sub_nil|now apply sub_skip]. Qed.

Section Resort.
  Context {T : Type} {N : Num T}.
  Implicit Types s : clipper T.
  Implicit Types es : list (edge T).

  Lemma active_rel (R : edge T -> edge T -> Prop) s s' l :
    (forall e f, R e f -> e_prev f = e_prev e /\ e_next f = e_next e) ->
    erel R (edges s) (edges s') -> ael s' = ael s -> active s l -> active s' l.
  Proof.
    intros HR [_ HE] Ha (A1 & A2 & A3). split; [congruence|split; auto].
    eapply lseg_frame; [|exact A2]. intros i e _ E. apply HE in E as (f & F & K). eauto.
  Qed.
  Lemma active_bound s s' l : erel same_but_bound (edges s) (edges s') -> ael s' = ael s -> active s l -> active s' l.
  Proof. apply active_rel. intros e f ->. auto. Qed.
  Lemma active_count s s' l : erel same_but_count (edges s) (edges s') -> ael s' = ael s -> active s l -> active s' l.
  Proof. apply active_rel. intros e f ->. auto. Qed.

  Lemma bmod_opt_edges s b (f : bound T -> bound T) s' : (match b with Some b => bmod s b f | None => Ok s end) = Ok s' ->
    edges s' = edges s /\ ael s' = ael s.
  Proof. intros H. destruct b; dmatch; auto. Qed.

  Lemma take_changed_ok fuel : forall s xs c acc a b s' r,
    active s (a ++ b) -> c = hd_or b None -> take_changed fuel s xs c acc = Ok (s', r) ->
    exists t k, r = acc ++ t /\ Permutation b (t ++ k) /\ subseq k b /\ subseq t b /\ active s' (a ++ k) /\
      erel same_but_links (edges s) (edges s').
  Proof.
    induction fuel; intros s xs c acc a b s' r HA Hc H.
    { cbn [take_changed] in H. exists [], b. rewrite app_nil_r.
      assert (K : Ok (s, acc) = Ok (s', r)) by (destruct xs; [auto|destruct c; [discriminate|auto]]). binvs.
      csplit; auto using subseq_refl, subseq_nil, erel_refl, pre_links. }
    cbn [take_changed] in H. destruct xs as [|x xs].
    { binvs. exists [], b. rewrite app_nil_r. csplit; auto using subseq_refl, subseq_nil, erel_refl, pre_links. }
    destruct b as [|i b]; cbn [hd_or] in Hc; subst c.
    { binvs. exists [], []. rewrite app_nil_r. csplit; auto using subseq_refl, erel_refl, pre_links. }
    destruct (active_split s a i b HA) as (e & E1 & E2 & E3).
    binv H. apply at_ok in E. rewrite E1 in E. injection E as <-.
    destruct (n_eqb (e_x e) x).
    - apply bind_ok in H as (s1 & F1 & H). apply bind_ok in H as (s2 & F2 & H). apply bind_ok in H as (s3 & F3 & H).
      apply bmod_opt_edges in F1 as [F1 F1a]. apply emod_ok in F2 as [_ ->].
      assert (A2 : active (w_edges s1 (upd (edges s1) i (set_ebound None))) (a ++ i :: b)).
      { apply (active_bound s); auto. cbn. rewrite F1. apply erel_upd; [apply pre_bound|intros []; reflexivity]. }
      apply (take_from_ael_ok _ a i b) in F3 as [F3 F4]; auto.
      rewrite E3 in H. destruct (IHfuel _ _ _ _ _ _ _ _ F3 eq_refl H) as (t & k & K1 & K2 & K3 & K3' & K4 & K5).
      exists (i :: t), k. split; [rewrite K1, <- app_assoc; reflexivity|]. split; [simpl; now constructor|].
      split; [now apply sub_skip|]. split; [now apply sub_keep|]. split; auto.
      eapply erel_trans; [apply pre_links| |exact K5]. destruct F4 as [F4 _].
      eapply erel_trans; [apply pre_links| |eapply erel_mono; [apply edge_links|exact F4]]. cbn. rewrite F1.
      apply erel_upd; [apply pre_links|intros []; reflexivity].
    - destruct (n_ltb x (e_x e)).
      + destruct (IHfuel _ _ _ _ _ _ _ _ HA eq_refl H) as (t & k & K). exists t, k. exact K.
      + rewrite E3 in H. replace (a ++ i :: b) with ((a ++ [i]) ++ b) in HA by (rewrite <- app_assoc; reflexivity).
        destruct (IHfuel _ _ _ _ _ _ _ _ HA eq_refl H) as (t & k & K1 & K2 & K3 & K3' & K4 & K5).
        exists t, (i :: k). rewrite <- app_assoc in K4. csplit; auto.
        * rewrite <- Permutation_middle. now constructor.
        * now apply sub_keep.
        * now apply sub_skip.
  Qed.
  Lemma take_from_ael_fuel s i : take_from_ael s i <> NoFuel.
  Proof. unfold take_from_ael. nofuel. Qed.
  Hint Resolve take_from_ael_fuel : fuel.
  Lemma take_changed_fuel fuel : forall s xs c acc a b,
    active s (a ++ b) -> c = hd_or b None -> length xs + length b <= fuel -> take_changed fuel s xs c acc <> NoFuel.
  Proof.
    induction fuel; intros s xs c acc a b HA Hc Hf.
    { destruct xs; [|simpl in Hf; lia]. destruct b; discriminate. }
    cbn [take_changed]. destruct xs as [|x xs]; [discriminate|]. destruct b as [|i b]; cbn [hd_or] in Hc; subst c; [discriminate|].
    destruct (active_split s a i b HA) as (e & E1 & E2 & E3). simpl in Hf.
    apply bind_fuel; auto with fuel. intros e' E'. apply at_ok in E'. rewrite E1 in E'. injection E' as <-.
    destruct (n_eqb (e_x e) x).
    - apply bind_fuel; [nofuel|]. intros s1 F1. apply bind_fuel; auto with fuel. intros s2 F2.
      apply bind_fuel; auto with fuel. intros s3 F3.
      apply bmod_opt_edges in F1 as [F1 F1a]. apply emod_ok in F2 as [_ ->].
      apply (take_from_ael_ok _ a i b) in F3 as [F3 F4].
      + rewrite E3. apply (IHfuel _ _ _ _ _ _ F3); auto. simpl; lia.
      + apply (active_bound s); auto. cbn. rewrite F1. apply erel_upd; [apply pre_bound|intros []; reflexivity].
    - destruct (n_ltb x (e_x e)).
      + apply (IHfuel _ _ _ _ _ _ HA); auto. simpl; lia.
      + rewrite E3. replace (a ++ i :: b) with ((a ++ [i]) ++ b) in HA by (rewrite <- app_assoc; reflexivity).
        apply (IHfuel _ _ _ _ _ _ HA); auto. simpl; lia.
  Qed.

  Lemma insert_all_ok t : forall s k s', active s k -> NoDup (t ++ k) -> insert_all s t = Ok s' ->
    exists l, Permutation (t ++ k) l /\ active s' l /\ erel same_edge (edges s) (edges s') /\ only_links s s'.
  Proof.
    induction t as [|i t IH]; intros s k s' HA ND H; simpl in H.
    - binvs. exists k. simpl. split; [auto|]. split; auto. split; [apply same_edges_refl|apply only_links_refl].
    - binv H. simpl in ND. inversion ND; subst.
      destruct (insert_into_ael_ok s k i x HA) as (l1 & l2 & nc & K1 & K2 & K3 & _); auto.
      { intros K. apply H2. apply in_or_app; auto. }
      assert (P : Permutation (i :: k) (l1 ++ i :: l2)) by (rewrite K1; apply Permutation_middle).
      destruct (IH x _ s' K2) as (l & L1 & L2 & L3 & L4); auto.
      + eapply Permutation_NoDup; [|exact ND]. rewrite <- P. apply Permutation_middle.
      + exists l. split; [|split; auto; split].
        * rewrite <- L1, <- P. simpl. apply Permutation_middle.
        * eapply same_edges_trans; [apply K3|exact L3].
        * eapply only_links_trans; eauto.
  Qed.
  Lemma insert_all_fuel t : forall s k, active s k -> NoDup (t ++ k) -> insert_all s t <> NoFuel.
  Proof.
    induction t as [|i t IH]; intros s k HA ND; simpl; [discriminate|]. simpl in ND. inversion ND; subst.
    apply bind_fuel; [eapply insert_into_ael_fuel; eauto|]. intros s1 F1.
    destruct (insert_into_ael_ok s k i s1 HA) as (l1 & l2 & nc & K1 & K2 & K3 & _); auto.
    { intros K. apply H1. apply in_or_app; auto. }
    apply (IH s1 _ K2). eapply Permutation_NoDup; [|exact ND]. rewrite K1, app_assoc, Permutation_middle, <- app_assoc. reflexivity.
  Qed.

  Lemma perm_nodup (a b t k : list nat) : Permutation b (t ++ k) -> NoDup (a ++ b) -> NoDup (t ++ a ++ k).
  Proof.
    intros P. apply Permutation_NoDup. rewrite P. rewrite !app_assoc. apply Permutation_app_tail, Permutation_app_comm.
  Qed.

  (** [resort_ael] *)
  Lemma resort_ael_ok s l s' : active s l -> resort_ael s = Ok s' ->
    exists l', Permutation l l' /\ active s' l' /\ erel same_but_links (edges s) (edges s').
  Proof.
    intros HA H. unfold resort_ael in H. binv H. destruct x as [s1 t].
    assert (HA' : active (w_changes s (tidy_changes (changes s))) ([] ++ l)) by exact HA.
    destruct (take_changed_ok _ _ _ _ _ _ _ _ _ HA' (proj1 HA') E) as (t' & k & K1 & K2 & K3 & _ & K4 & K5). simpl in K1; subst t'.
    destruct (insert_all_ok t s1 k s' K4) as (l' & L1 & L2 & L3 & _); auto.
    { eapply Permutation_NoDup; [exact K2|]. apply HA. }
    exists l'. split; [now rewrite K2|]. split; auto.
    eapply erel_trans; [apply pre_links|exact K5|]. eapply erel_mono; [apply edge_links|exact L3].
  Qed.
  Lemma resort_ael_fuel s l : active s l -> resort_ael s <> NoFuel.
  Proof.
    intros HA. unfold resort_ael.
    assert (HA' : active (w_changes s (tidy_changes (changes s))) ([] ++ l)) by exact HA.
    apply bind_fuel.
    - apply (take_changed_fuel _ _ _ _ _ [] l); auto; [apply HA|]. apply active_length in HA. cbn in *. lia.
    - intros [s1 t] F.
      destruct (take_changed_ok _ _ _ _ _ _ _ _ _ HA' (proj1 HA') F) as (t' & k & K1 & K2 & K3 & _ & K4 & K5). simpl in K1; subst t'.
      apply (insert_all_fuel t s1 k); auto. eapply Permutation_NoDup; [exact K2|]. apply HA.
  Qed.

  (** Histories *)
  Lemma members_perm l ops m : members l ops m -> forall l0, Permutation l0 l -> NoDup l0 -> members l0 ops m.
  Proof. intros H l0 P ND. eapply mem_perm; eauto. Qed.
  Lemma ael_run_ok ops l m : members l ops m -> forall s l0 s', Permutation l0 l -> active s l0 -> ael_run s ops = Ok s' ->
    exists m', Permutation m m' /\ active s' m' /\ erel same_but_links (edges s) (edges s').
  Proof.
    induction 1; intros s l0 s' P HA H'; simpl in H'.
    - binvs. exists l0. split; [now symmetry|]. split; auto. apply erel_refl, pre_links.
    - binv H'. destruct (insert_into_ael_ok s l0 i x HA) as (l1 & l2 & nc & K1 & K2 & K3 & _); auto.
      { intros K. apply H. eapply Permutation_in; eauto. }
      destruct (IHmembers x (l1 ++ i :: l2) s') as (m' & M1 & M2 & M3); auto.
      { rewrite <- Permutation_middle, <- K1. now constructor. }
      exists m'. split; auto. split; auto. eapply erel_trans; [apply pre_links| |exact M3].
      eapply erel_mono; [apply edge_links|apply K3].
    - binv H'. assert (I : In i l0) by (eapply Permutation_in; [symmetry; exact P|]; apply in_or_app; simpl; auto).
      apply in_split in I as (a' & b' & ->).
      destruct (take_from_ael_ok s a' i b' x HA E) as [K1 K2].
      destruct (IHmembers x (a' ++ b') s') as (m' & M1 & M2 & M3); auto.
      { apply (Permutation_app_inv _ _ _ _ i). exact P. }
      exists m'. split; auto. split; auto. eapply erel_trans; [apply pre_links| |exact M3].
      eapply erel_mono; [apply edge_links|apply K2].
    - apply bind_ok in H' as (s1 & F & H'). apply bind_ok in F as ([n s2] & E0 & F).
      cbn [snd] in F. injection F as <-.
      assert (I : In i l0) by (eapply Permutation_in; [symmetry; exact P|]; apply in_or_app; simpl; auto).
      apply in_split in I as (a' & b' & ->).
      destruct (delete_active_edge_ok s a' i b' n s2 HA E0) as (_ & K1 & K2).
      destruct (IHmembers s2 (a' ++ b') s') as (m' & M1 & M2 & M3); auto.
      { apply (Permutation_app_inv _ _ _ _ i). exact P. }
      exists m'. split; auto. split; auto. eapply erel_trans; [apply pre_links| |exact M3].
      eapply erel_mono; [apply edge_links|apply K2].
    - binv H'. destruct (resort_ael_ok s l0 x HA E) as (l1 & P1 & A1 & R1).
      destruct (IHmembers x l1 s') as (m' & M1 & M2 & M3); auto.
      { now rewrite <- P1. }
      exists m'. split; auto. split; auto. eapply erel_trans; [apply pre_links|exact R1|exact M3].
    - apply (IHmembers s l0 s'); auto. now rewrite P.
  Qed.
End Resort.

(** *** The order by x *)
Section Ordered.
  Context {T : Type} {N : Num T} {O : OrdNum T}.
  Implicit Types s : clipper T.
  Implicit Types es : list (edge T).

  Lemma fop_app {A} (R : A -> A -> Prop) (a b : list A) :
    ForallOrdPairs R (a ++ b) <-> ForallOrdPairs R a /\ ForallOrdPairs R b /\ (forall x y, In x a -> In y b -> R x y).
  Proof.
    induction a as [|i a IH]; simpl.
    - split; [intros H; repeat split; auto; [constructor|tauto]|tauto].
    - split.
      + intros H. inversion H; subst. apply IH in H3 as (H3 & H4 & H5). rewrite Forall_app in H2. destruct H2 as [H2 H2'].
        repeat split; auto; [now constructor|]. intros x y [<-|Hx] Hy; auto. rewrite Forall_forall in H2'; auto.
      + intros (H1 & H2 & H3). inversion H1; subst. constructor; [|apply IH; repeat split; auto].
        rewrite Forall_app. split; auto. apply Forall_forall. intros; apply H3; auto.
  Qed.
  Lemma fop_subseq {A} (R : A -> A -> Prop) (k b : list A) : subseq k b -> ForallOrdPairs R b -> ForallOrdPairs R k.
  Proof.
    assert (I : forall k b : list A, subseq k b -> forall x, In x k -> In x b).
    { induction 1; simpl; auto. intros y [->|Hy]; auto. }
    induction 1; intros H'; auto; inversion H'; subst; auto. constructor; auto.
    rewrite Forall_forall in *. intros y Hy. apply H2. eapply I; eauto.
  Qed.

  (** the x of the edges [l] are not NaN *)

  Lemma valid_order_le s e f b : nvalid (e_x e) -> nvalid (e_x f) -> valid_order s e f = Ok b ->
    if b then nle (e_x e) (e_x f) else nle (e_x f) (e_x e).
  Proof.
    intros Ve Vf H. unfold valid_order in H.
    destruct (n_eqb (e_x f) (e_x e)) eqn:Q; cbn [negb] in H.
    - rewrite neq_le in Q by auto. apply andb_prop in Q as [Q1 Q2]. destruct b; assumption.
    - injection H as H. destruct (n_ltb (e_x e) (e_x f)) eqn:L; subst b.
      + apply nlt_le; auto.
      + now apply nle_not_lt.
  Qed.

  (** putting an edge between those that are not right of it and those that are
      not left of it *)
  Lemma ordered_between es l1 nw l2 nc :
    ordered es (l1 ++ l2) -> nth_error es nw = Some nc -> xvalid es (l1 ++ l2) -> nvalid (e_x nc) ->
    (match l2 with [] => True | j :: _ => exists e, nth_error es j = Some e /\ nle (e_x nc) (e_x e) end) ->
    (l1 = [] \/ exists a j e, l1 = a ++ [j] /\ nth_error es j = Some e /\ nle (e_x e) (e_x nc)) ->
    (forall j, In j (l1 ++ l2) -> exists e, nth_error es j = Some e) ->
    ordered es (l1 ++ nw :: l2).
  Proof.
    unfold ordered. intros H Hn V Vn B A X. apply fop_app in H as (H1 & H2 & H3). apply fop_app. csplit; auto.
    - constructor; auto. apply Forall_forall. intros k Hk e f E F. rewrite Hn in E. injection E as <-.
      destruct l2 as [|j l2]; [contradiction|]. destruct B as (ej & Ej & B).
      destruct Hk as [->|Hk]; [congruence|]. inversion H2; subst. rewrite Forall_forall in H4.
      eapply nle_trans; [..|exact B|apply (H4 k Hk ej f Ej F)]; auto; eapply V; eauto;
        apply in_or_app; simpl; auto.
    - intros k m Hk Hm. destruct Hm as [<-|Hm]; [|exact (H3 k m Hk Hm)]. intros e f E F. rewrite Hn in F. injection F as <-.
      destruct A as [->|(a & j & ej & -> & Ej & A)]; [contradiction|].
      apply in_app_or in Hk as [Hk|[->|[]]]; [|congruence].
      apply fop_app in H1 as (_ & _ & H1). eapply nle_trans; [..|apply (H1 k j Hk (or_introl eq_refl) e ej E Ej)|exact A]; auto.
      + eapply V; eauto. apply in_or_app; left; apply in_or_app; auto.
      + eapply V; eauto. apply in_or_app; left; apply in_or_app; simpl; auto.
  Qed.

  Lemma ordered_rel (R : edge T -> edge T -> Prop) es fs l :
    (forall e f, R e f -> e_x f = e_x e) -> erel R es fs ->
    (forall j, In j l -> exists e, nth_error es j = Some e) -> ordered es l -> ordered fs l.
  Proof.
    intros HR [_ HE] X H. unfold ordered in *. induction l as [|i l IH]; constructor; inversion H; subst.
    - rewrite Forall_forall in *. intros j Hj e f E F.
      destruct (X i) as [e0 E0]; [simpl; auto|]. destruct (X j) as [f0 F0]; [simpl; auto|].
      destruct (HE i e0 E0) as (e1 & E1 & R1). destruct (HE j f0 F0) as (f1 & F1 & R2).
      apply HR in R1. apply HR in R2. rewrite E in E1. rewrite F in F1. injection E1 as <-. injection F1 as <-.
      rewrite R1, R2. eapply H2; eauto.
    - apply IH; auto. intros; apply X; simpl; auto.
  Qed.
  Lemma xvalid_rel (R : edge T -> edge T -> Prop) es fs l :
    (forall e f, R e f -> e_x f = e_x e) -> erel R es fs -> xvalid es l -> xvalid fs l.
  Proof.
    intros HR HE V i f Hi F. destruct (erel_back _ _ _ _ _ HE F) as (e & E & K). apply HR in K. rewrite K. eauto.
  Qed.
  Lemma same_edge_x (e f : edge T) : same_edge e f -> e_x f = e_x e.
  Proof. intros ->. reflexivity. Qed.
  Lemma same_links_x (e f : edge T) : same_but_links e f -> e_x f = e_x e.
  Proof. intros ->. reflexivity. Qed.

  (** Insertion keeps the list ordered. *)
  Lemma insert_ordered s l nw s' : active s l -> ~ In nw l -> ordered (edges s) l ->
    xvalid (edges s) (nw :: l) -> insert_into_ael s nw = Ok s' ->
    exists l1 l2, l = l1 ++ l2 /\ active s' (l1 ++ nw :: l2) /\ ordered (edges s') (l1 ++ nw :: l2) /\ only_links s s'.
  Proof.
    intros HA Hn HO HV H.
    destruct (insert_into_ael_ok s l nw s' HA Hn H) as (l1 & l2 & nc & -> & K1 & K2 & K3 & K4 & K5).
    exists l1, l2. csplit; auto.
    assert (X : forall j, In j (l1 ++ l2) -> exists e, nth_error (edges s) j = Some e) by (intros; eapply active_in; eauto).
    assert (Vn : nvalid (e_x nc)) by (eapply HV; [|exact K3]; simpl; auto).
    eapply ordered_rel; [apply same_edge_x|apply K2| |].
    { intros j Hj. apply in_app_or in Hj as [Hj|[->|Hj]]; eauto; apply X, in_or_app; auto. }
    eapply ordered_between; eauto.
    - intros i e Hi. apply HV. simpl; auto.
    - destruct l2 as [|j l2]; auto. destruct K5 as (e & E & K5). exists e. split; auto.
      eapply (valid_order_le s e nc false); eauto. eapply HV; [|exact E]. right. apply in_or_app; simpl; auto.
    - destruct (snoc_cases l1) as [->|(a & j & ->)]; auto. right.
      destruct (K4 j) as (e & E & K); [apply in_or_app; simpl; auto|]. exists a, j, e. csplit; auto.
      eapply (valid_order_le s e nc true); eauto. eapply HV; [|exact E]. right. apply in_or_app; left; apply in_or_app; simpl; auto.
  Qed.
  (** The search may start at an edge that is not right of the newcomer. *)
  Lemma insert_after_ordered s a r b nw s' er enw : active s (a ++ r :: b) -> ~ In nw (a ++ r :: b) ->
    ordered (edges s) (a ++ r :: b) -> xvalid (edges s) (nw :: a ++ r :: b) ->
    nth_error (edges s) r = Some er -> nth_error (edges s) nw = Some enw -> nle (e_x er) (e_x enw) ->
    insert_after s r nw = Ok s' ->
    exists b1 b2, r :: b = b1 ++ b2 /\ active s' (a ++ b1 ++ nw :: b2) /\ ordered (edges s') (a ++ b1 ++ nw :: b2) /\ only_links s s'.
  Proof.
    intros HA Hn HO HV Hr Hw Hle H.
    destruct (insert_after_ok s a r b nw s' HA Hn H) as (b1 & b2 & nc & K0 & K0' & K1 & K2 & K3 & K4 & K5).
    rewrite Hw in K3. injection K3 as <-. rewrite K0 in *. rewrite app_assoc in *. exists b1, b2. rewrite app_assoc. csplit; auto.
    assert (X : forall j, In j ((a ++ b1) ++ b2) -> exists e, nth_error (edges s) j = Some e) by (intros; eapply active_in; eauto).
    assert (Vn : nvalid (e_x enw)) by (eapply HV; [|exact Hw]; simpl; auto).
    eapply ordered_rel; [apply same_edge_x|apply K2| |].
    { intros j Hj. apply in_app_or in Hj as [Hj|[->|Hj]]; eauto; apply X, in_or_app; auto. }
    eapply ordered_between; eauto.
    - intros i e Hi. apply HV. simpl; auto.
    - destruct b2 as [|j b2]; auto. destruct K5 as (e & E & K5). exists e. split; auto.
      eapply (valid_order_le s e enw false); eauto. eapply HV; [|exact E]. right. apply in_or_app; simpl; auto.
    - right. destruct b1 as [|x b1]; [congruence|]. simpl in K0, K4. injection K0 as <- K0.
      destruct (snoc_cases b1) as [->|(b1' & j & ->)].
      + exists a, r, er. auto.
      + destruct (K4 j) as (e & E & K); [apply in_or_app; simpl; auto|]. exists (a ++ r :: b1'), j, e.
        csplit; auto; [rewrite <- app_assoc; reflexivity|].
        eapply (valid_order_le s e enw true); eauto. eapply HV; [|exact E]. right.
        apply in_or_app; left; apply in_or_app; right; simpl; right; apply in_or_app; simpl; auto.
  Qed.
  Lemma insert_left_ordered s l1 l2 nw s' : active s (l1 ++ l2) -> ~ In nw (l1 ++ l2) ->
    ordered (edges s) (l1 ++ l2) -> xvalid (edges s) (nw :: l1 ++ l2) ->
    (forall p ep enw, last_or None l1 = Some p -> nth_error (edges s) p = Some ep ->
       nth_error (edges s) nw = Some enw -> nle (e_x ep) (e_x enw)) ->
    insert_into_ael_left s (last_or None l1) nw = Ok s' ->
    exists m1 m2, l1 ++ l2 = m1 ++ m2 /\ active s' (m1 ++ nw :: m2) /\ ordered (edges s') (m1 ++ nw :: m2) /\ only_links s s'.
  Proof.
    intros HA Hn HO HV Hle H. destruct (snoc_cases l1) as [->|(a & p & ->)].
    - destruct (insert_ordered s l2 nw s' HA Hn HO HV H) as (m1 & m2 & K). exists m1, m2. exact K.
    - rewrite last_or_snoc in *. cbn [insert_into_ael_left] in H. rewrite <- app_assoc in *. cbn [app] in *.
      destruct (active_in s _ p HA) as [ep Ep]; [apply in_or_app; simpl; auto|].
      assert (exists enw, nth_error (edges s) nw = Some enw) as [enw Enw].
      { unfold insert_after in H. binvs. eauto. }
      destruct (insert_after_ordered s a p l2 nw s' ep enw) as (b1 & b2 & K1 & K2 & K3 & K4); auto.
      { eapply Hle; eauto. }
      exists (a ++ b1), b2. rewrite <- !app_assoc, K1. auto.
  Qed.

  Lemma insert_all_ordered t : forall s k s', active s k -> NoDup (t ++ k) -> ordered (edges s) k -> xvalid (edges s) (t ++ k) ->
    insert_all s t = Ok s' ->
    exists l, Permutation (t ++ k) l /\ active s' l /\ ordered (edges s') l /\ erel same_edge (edges s) (edges s').
  Proof.
    induction t as [|i t IH]; intros s k s' HA ND HO HV H; simpl in H.
    - binvs. exists k. csplit; auto. apply same_edges_refl.
    - binv H. simpl in ND. inversion ND; subst.
      assert (Hi : ~ In i k) by (intros K; apply H2; apply in_or_app; auto).
      destruct (insert_ordered s k i x HA) as (l1 & l2 & K1 & K2 & K3 & K4); auto.
      { intros j e [->|Hj]; apply HV; simpl; auto. right; apply in_or_app; auto. }
      assert (P : Permutation (i :: k) (l1 ++ i :: l2)) by (rewrite K1; apply Permutation_middle).
      assert (Q : Permutation ((i :: t) ++ k) (t ++ l1 ++ i :: l2)) by (rewrite <- P; simpl; apply Permutation_middle).
      destruct (IH x _ s' K2) as (l & L1 & L2 & L3 & L4); auto.
      + eapply Permutation_NoDup; [|exact ND]. exact Q.
      + eapply xvalid_rel; [apply same_edge_x|apply K4|]. intros j e Hj. apply HV. eapply Permutation_in; [symmetry; exact Q|exact Hj].
      + exists l. csplit; auto.
        * now rewrite Q.
        * eapply same_edges_trans; [apply K4|exact L4].
  Qed.
  Lemma resort_ordered s l s' : active s l -> ordered (edges s) l -> xvalid (edges s) l -> resort_ael s = Ok s' ->
    exists l', Permutation l l' /\ active s' l' /\ ordered (edges s') l'.
  Proof.
    intros HA HO HV H. unfold resort_ael in H. binv H. destruct x as [s1 t].
    assert (HA' : active (w_changes s (tidy_changes (changes s))) ([] ++ l)) by exact HA.
    destruct (take_changed_ok _ _ _ _ _ _ _ _ _ HA' (proj1 HA') E) as (t' & k & K1 & K2 & K3 & _ & K4 & K5). simpl in K1; subst t'.
    assert (S : forall j, In j k -> In j l).
    { intros j Hj. eapply Permutation_in; [symmetry; exact K2|]. apply in_or_app; auto. }
    destruct (insert_all_ordered t s1 k s' K4) as (l' & L1 & L2 & L3 & L4); auto.
    - eapply Permutation_NoDup; [exact K2|]. apply HA.
    - eapply ordered_rel; [apply same_links_x|exact K5| |].
      + intros j Hj. eapply active_in; [exact HA|]. auto.
      + eapply fop_subseq; eauto.
    - eapply xvalid_rel; [apply same_links_x|exact K5|]. intros j e Hj. apply HV. eapply Permutation_in; [symmetry; exact K2|exact Hj].
    - exists l'. csplit; auto. now rewrite K2.
  Qed.
End Ordered.
