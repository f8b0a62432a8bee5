(** Connecting the contributing edges of a scan line with the open bounds. *)
From Coq Require Import ZArith Bool List Reals Lra Lia Permutation Sorted.
From Verif Require Import Outcome Num Rmath RTac Segment VState VAel VOut VMain VLemmas VFrame AelSpec VAelProofs VEdges VAelRun VRun SortProofs VPairs LensRun PlaneSpec PlaneCount OutSpec OutPath OutAlt OutList OutClose.
Import ListNotations.
Local Open Scope Z_scope.
Local Open Scope out.

Lemma subseq_drop {A} (a b : list A) x y : subseq (a ++ b) (a ++ x :: y :: b).
Proof. induction a; cbn; [apply sub_skip, sub_skip, subseq_refl|now apply sub_keep]. Qed.

Section Match.
  Implicit Types s : clipper R.
  (** What stays fixed: x, directions and places of bounds and edges; the contributing edges [K] *)
  Variable X : nat -> R.
  Variable D : nat -> Z.
  Variable EX : nat -> R.
  Variable ED : nat -> Z.
  Variable EP : nat -> vec2 R.
  Variable K : list nat.
  Hypothesis K_once : NoDup K.

  Definition eread (es : list (edge R)) (l : list nat) : Prop := forall i, In i l -> exists e, nth_error es i = Some e /\ e_x e = EX i /\ e_dx e = ED i /\ e_bot e = EP i.
  Lemma eread_bound es es' l : erel same_but_bound es es' -> eread es l -> eread es' l.
  Proof. intros ER H i Hi. destruct (H i Hi) as (e & E & A & B & C). destruct (proj2 ER i e E) as (f & F & S). exists f. rewrite S. csplit; auto. now rewrite <- S. Qed.
  (** Edge and bound [c] are connected. *)
  Definition conn s (pos : nat -> vec2 R) (j c : nat) : Prop :=
    ebof (edges s) j = Some c /\ pos c = EP j /\ exists x, nth_error (bounds s) c = Some x /\ ob_dx x = ED j.
  Record mi s (pos : nat -> vec2 R) (d : Z) (E B nb don DE : list nat) : Prop := {
    mi_outs : outs s pos (don ++ B) nb;
    mi_b : reads (bounds s) X D B;
    mi_e : eread (edges s) K;
    mi_sub : subseq (DE ++ E) K;
    mi_de : Forall2 (fun j c => ebof (edges s) j = Some c) DE don;
    mi_conn : forall j, In j K -> ~ In j E -> exists c, In c (don ++ nb) /\ conn s pos j c;
    mi_back : forall c, In c (don ++ nb) -> exists j, In j K /\ ebof (edges s) j = Some c;
    mi_d : d = 1 \/ d = -1;
    mi_ed : altf ED d E;
    mi_bd : altf D d B;
    mi_eup : upward EX E;
    mi_bup : upward X B;
    mi_par : par EX E X B;
    mi_bb : forall a b, In a B -> In b B -> X a = X b -> pos a = pos b;
    mi_ee : forall e f, In e E -> In f E -> EX e = EX f -> EP e = EP f;
    mi_eb : forall e b, In e E -> In b B -> EX e = X b -> EP e = pos b;
    mi_free : forall e b, In e E -> In b B -> EX e = X b -> beof (bounds s) b = None /\ ebof (edges s) e = None \/ ebof (edges s) e = Some b;
    mi_new : forall e f, In e E -> In f E -> e <> f -> EX e = EX f -> ebof (edges s) e = None }.

  Lemma nodup_sub (a b : list nat) : subseq (a ++ b) K -> NoDup (a ++ b).
  Proof. intros H. eapply subseq_nodup; eauto. Qed.
  Lemma mi_K s pos d E B nb don DE : mi s pos d E B nb don DE -> forall e, In e E -> In e K.
  Proof. intros H e He. eapply subseq_in; [apply (mi_sub _ _ _ _ _ _ _ _ H)|]. apply in_or_app; auto. Qed.

  Lemma mi_new_ok s pos d E1 e f E2 B nb don DE : mi s pos d (E1 ++ e :: f :: E2) B nb don DE -> EX e = EX f ->
    exists s' pos' nb', new_output s e f = Ok s' /\ mi s' pos' d (E1 ++ E2) B nb' don DE /\ (forall x z, tw (polys s') pos' x z = tw (polys s) pos x z).
  Proof.
    intros M Q. pose proof M as [O RB RE SU DE2 CN BK Hd AE AB UE UB PR BB EE EB FR NW]. set (E := E1 ++ e :: f :: E2) in *.
    assert (Ie : In e E) by (apply in_or_app; right; now left). assert (If : In f E) by (apply in_or_app; right; right; now left).
    assert (ND : NoDup E) by (apply nodup_sub in SU; now apply nodup_app_r in SU).
    assert (NE : e <> f) by (intros ->; apply nodup_app_r in ND; inversion ND as [|? ? N _]; apply N; now left).
    assert (KI := mi_K _ _ _ _ _ _ _ _ M).
    destruct (RE e (KI e Ie)) as (ee & Ee & X1 & D1 & P1). destruct (RE f (KI f If)) as (ef & Ef & X2 & D2 & P2).
    destruct (altf_drop _ _ _ _ _ _ AE) as [AE' DD]. pose proof (altf_pm _ _ _ Hd AE e Ie) as PM.
    assert (Ne : e_bound ee = None) by (specialize (NW e f Ie If NE Q); unfold ebof in NW; now rewrite Ee in NW).
    assert (Nf : e_bound ef = None) by (assert (Z' := NW f e If Ie (not_eq_sym NE) (eq_sym Q)); unfold ebof in Z'; now rewrite Ef in Z').
    destruct (new_run s pos (don ++ B) nb e f ee ef (EP e) O Ee Ef NE) as (s' & o & RUN & O' & TW & KP & BS & EBN); auto.
    { unfold edge_up. rewrite D1, D2, DD. destruct PM as [-> | ->]; reflexivity. }
    { rewrite P2. symmetry. auto. }
    set (ia := length (bounds s)) in *. set (pos' := setp (setp pos ia (EP e)) (S ia) (EP e)) in *.
    pose proof (new_output_eb _ _ _ _ RUN) as ER.
    exists s', pos', (nb ++ [ia; S ia]). csplit; auto.
    assert (OLDB : forall c x, nth_error (bounds s) c = Some x -> nth_error (bounds s') c = Some x) by (intros c x Ex; rewrite BS, nth_error_app1; auto; now apply nth_lt in Ex).
    assert (KPB : forall c, In c B -> pos' c = pos c) by (intros c Hc; apply KP; rewrite !in_app_iff; auto).
    assert (INE : forall j, In j (E1 ++ E2) -> In j E /\ j <> e /\ j <> f).
    { intros j Hj. assert (N1 : ~ In e (E1 ++ f :: E2)) by now apply NoDup_remove_2. assert (N2 : ~ In f (E1 ++ E2)) by (apply NoDup_remove_1 in ND; now apply NoDup_remove_2 in ND).
      unfold E. rewrite in_app_iff in *. cbn in *. csplit; [tauto| |]; intros ->; tauto. }
    assert (EBO : forall j, j <> e -> j <> f -> ebof (edges s') j = ebof (edges s) j).
    { intros j J1 J2. rewrite EBN. destruct (Nat.eqb_spec j e); [contradiction|]. destruct (Nat.eqb_spec j f); [contradiction|]. reflexivity. }
    assert (SE : subseq (DE ++ E1 ++ E2) (DE ++ E)) by (unfold E; rewrite !app_assoc; apply subseq_drop).
    assert (NDE : forall j, In j DE -> ~ In j E) by (intros j Hj K'; apply nodup_sub in SU; exact (nodup_apart DE E j SU Hj K')).
    constructor; auto.
    - intros c Hc. destruct (RB c Hc) as (x & Ex & A). exists x. split; auto.
    - eapply eread_bound; eauto.
    - eapply subseq_trans; eauto.
    - clear - DE2 EBO NDE Ie If. induction DE2 as [|j c DE don H _ IH]; constructor.
      + rewrite EBO; auto; intros ->; [exact (NDE e (or_introl eq_refl) Ie)|exact (NDE f (or_introl eq_refl) If)].
      + apply IH. intros k Hk. apply NDE. now right.
    - intros j Hj NI. destruct (Nat.eq_dec j e) as [->|J1]; [|destruct (Nat.eq_dec j f) as [->|J2]].
      + exists ia. split; [rewrite !in_app_iff; cbn; tauto|]. split; [rewrite EBN, Nat.eqb_refl; reflexivity|]. split.
        * unfold pos'. rewrite setp_other by lia. apply setp_same.
        * eexists. rewrite BS, nth_error_app2, Nat.sub_diag by auto. split; [reflexivity|]. exact D1.
      + exists (S ia). split; [rewrite !in_app_iff; cbn; tauto|]. split; [rewrite EBN, (proj2 (Nat.eqb_neq f e)), Nat.eqb_refl by auto; reflexivity|]. split.
        * unfold pos'. rewrite setp_same. auto.
        * eexists. rewrite BS, nth_error_app2 by (unfold ia; lia). replace (S ia - length (bounds s))%nat with 1%nat by (unfold ia; lia). split; [reflexivity|]. exact D2.
      + destruct (CN j Hj) as (c & Hc & C1 & C2 & x & Ex & C3).
        { intros K'. apply NI. unfold E in K'. rewrite in_app_iff in *. cbn in K'. intuition congruence. }
        exists c. split; [rewrite !in_app_iff in *; tauto|]. split; [now rewrite EBO|]. split; [rewrite KP; auto; rewrite !in_app_iff in *; tauto|]. exists x. split; auto.
    - intros c Hc. rewrite app_assoc in Hc. apply in_app_or in Hc as [Hc|[<-|[<-|[]]]].
      + destruct (BK c Hc) as (j & Hj & Ej). exists j. split; auto.
        rewrite EBN. destruct (Nat.eqb_spec j e) as [->|]; [unfold ebof in Ej; rewrite Ee in Ej; congruence|]. destruct (Nat.eqb_spec j f) as [->|]; [unfold ebof in Ej; rewrite Ef in Ej; congruence|]. auto.
      + exists e. split; auto. now rewrite EBN, Nat.eqb_refl.
      + exists f. split; auto. now rewrite EBN, (proj2 (Nat.eqb_neq f e)), Nat.eqb_refl by auto.
    - eapply fop_drop. exact UE.
    - intros x. rewrite <- PR. unfold E. symmetry. now apply below_pair.
    - intros a b Ha Hb. rewrite !KPB by auto. auto.
    - intros a b Ha Hb. apply EE; now apply INE.
    - intros a b Ha Hb. rewrite KPB by auto. apply EB; auto. now apply INE.
    - intros a b Ha Hb Qx. destruct (INE a Ha) as (I1 & I2 & I3). rewrite EBO by auto. destruct (FR a b I1 Hb Qx) as [[F1 F2]|F1]; [left|right; auto]. split; auto.
      unfold beof in *. destruct (RB b Hb) as (x & Ex & _). rewrite Ex in F1. now rewrite (OLDB _ _ Ex).
    - intros a b Ha Hb N Qx. destruct (INE a Ha) as (I1 & I2 & I3). rewrite EBO by auto. apply (NW a b); auto. now apply INE.
  Qed.

  Lemma mi_update_ok s pos d e E b B nb don DE : mi s pos d (e :: E) (b :: B) nb don DE -> EX e = X b ->
    exists s', update_bound s b e = Ok s' /\ mi s' pos (- d) E B nb (don ++ [b]) (DE ++ [e]) /\ polys s' = polys s.
  Proof.
    intros M Q. pose proof M as [O RB RE SU DE2 CN BK Hd AE AB UE UB PR BB EE EB FR NW].
    assert (KI := mi_K _ _ _ _ _ _ _ _ M). destruct (RE e (KI e (or_introl eq_refl))) as (ee & Ee & X1 & D1 & P1). destruct (RB b (or_introl eq_refl)) as (bb & Eb & X2 & D2).
    assert (ND : NoDup (e :: E)) by (apply nodup_sub in SU; now apply nodup_app_r in SU). assert (NDB : NoDup (b :: B)) by (destruct (os_chain _ _ _ _ O) as (_ & _ & N); now apply nodup_app_r in N).
    assert (NB : ~ In b don) by (destruct (os_chain _ _ _ _ O) as (_ & _ & N); intros K'; eapply nodup_apart; [exact N|exact K'|now left]).
    assert (NDE : ~ In e DE) by (apply nodup_sub in SU; intros K'; eapply nodup_apart; [exact SU|exact K'|now left]).
    destruct (update_run s pos (don ++ b :: B) nb b e bb ee O) as (s' & RUN & O' & PS & OB & BS & EBN); auto.
    { apply in_or_app. right. now left. } { congruence. }
    { destruct (FR e b (or_introl eq_refl) (or_introl eq_refl) Q) as [[F1 F2]|F1]; [left|right]; unfold beof, ebof in *; rewrite ?Eb, ?Ee in *; auto. }
    exists s'. csplit; auto. pose proof (update_bound_eb _ _ _ _ RUN) as ER.
    assert (SH : (don ++ [b]) ++ B = don ++ b :: B) by (rewrite <- app_assoc; reflexivity).
    assert (EBO : forall j, j <> e -> ebof (edges s') j = ebof (edges s) j) by (intros j J; rewrite EBN; destruct (Nat.eqb_spec j e); [contradiction|reflexivity]).
    assert (BSO : forall c, c <> b -> nth_error (bounds s') c = nth_error (bounds s) c) by (intros c J; rewrite BS, nth_upd_other; auto).
    inversion ND as [|? ? NeE NDE']; subst. inversion NDB as [|? ? NbB _]; subst.
    constructor; auto.
    - now rewrite SH.
    - intros c Hc. rewrite BSO by (intros ->; contradiction). apply RB. now right.
    - eapply eread_bound; eauto.
    - rewrite <- app_assoc. exact SU.
    - apply Forall2_app.
      + clear - DE2 EBO NDE. induction DE2 as [|j c DE don H _ IH]; constructor; [rewrite EBO; auto; intros ->; apply NDE; now left|apply IH; intros K'; apply NDE; now right].
      + constructor; [|constructor]. now rewrite EBN, Nat.eqb_refl.
    - intros j Hj NI. destruct (Nat.eq_dec j e) as [->|J1].
      + exists b. split; [rewrite !in_app_iff; cbn; tauto|]. split; [now rewrite EBN, Nat.eqb_refl|]. split; [symmetry; apply EB; auto; now left|].
        exists (set_bedge (Some e) bb). rewrite BS, (nth_upd_same _ _ _ _ Eb). split; auto. cbn in AE, AB |- *. destruct AE, AB. congruence.
      + destruct (CN j Hj) as (c & Hc & C1 & C2 & x & Ex & C3); [intros [<-|K']; contradiction|].
        exists c. split; [rewrite !in_app_iff in *; cbn; tauto|]. split; [now rewrite EBO|]. split; auto.
        destruct (Nat.eq_dec c b) as [->|Nc]; [|exists x; rewrite BSO by auto; auto]. exists (set_bedge (Some e) bb). rewrite BS, (nth_upd_same _ _ _ _ Eb). split; auto. cbn. congruence.
    - intros c Hc. rewrite <- app_assoc in Hc. apply in_app_or in Hc as [Hc|[<-|Hc]].
      + destruct (BK c) as (j & Hj & Ej); [apply in_or_app; auto|]. exists j. split; auto. destruct (Nat.eq_dec j e) as [->|J1]; [|now rewrite EBO]. exfalso.
        destruct (FR e b (or_introl eq_refl) (or_introl eq_refl) Q) as [[F1 F2]|F1]; [congruence|]. rewrite Ej in F1. injection F1 as ->. contradiction.
      + exists e. split; [apply KI; now left|]. now rewrite EBN, Nat.eqb_refl.
      + destruct (BK c) as (j & Hj & Ej); [apply in_or_app; auto|]. exists j. split; auto. destruct (Nat.eq_dec j e) as [->|J1]; [|now rewrite EBO]. exfalso.
        destruct (FR e b (or_introl eq_refl) (or_introl eq_refl) Q) as [[F1 F2]|F1]; [congruence|]. rewrite Ej in F1. injection F1 as ->.
        pose proof (os_once _ _ _ _ O) as N1. eapply nodup_apart; [exact N1| |exact Hc]. apply in_or_app. right. now left.
    - lia.
    - apply AE.
    - apply AB.
    - now apply upward_tail in UE.
    - now apply upward_tail in UB.
    - eapply par_both; eauto.
    - intros a c Ha Hc. apply BB; now right.
    - intros a c Ha Hc. apply EE; now right.
    - intros a c Ha Hc. apply EB; now right.
    - intros a c Ha Hc Qx. assert (Na : a <> e) by (intros ->; contradiction). rewrite EBO by auto. assert (Nc : c <> b) by (intros ->; contradiction). unfold beof. rewrite BSO by auto. apply FR; auto; now right.
    - intros a c Ha Hc N Qx. assert (Na : a <> e) by (intros ->; contradiction). rewrite EBO by auto. apply (NW a c); auto; now right.
  Qed.

  Lemma mi_join_ok s pos d E a b B nb don DE y : mi s pos d E (a :: b :: B) nb don DE -> X a = X b ->
    exists s', join_output s a b y = Ok s' /\ mi s' pos d E B nb don DE /\ (forall x z, tw (polys s') pos x z = tw (polys s) pos x z).
  Proof.
    intros M Q. pose proof M as [O RB RE SU DE2 CN BK Hd AE AB UE UB PR BB EE EB FR NW].
    destruct (RB a (or_introl eq_refl)) as (ba & Ea & X1 & D1). destruct (RB b (or_intror (or_introl eq_refl))) as (bb & Eb & X2 & D2).
    assert (AB' := AB). cbn in AB'. destruct AB' as (A1 & A2 & A3). rewrite Z.opp_involutive in A3.
    destruct (join_run s pos don a b B nb ba bb y O Ea Eb) as (s' & RUN & O' & TW & KP & EBN & LN).
    { congruence. } { apply (dx_up ba bb d); auto; congruence. } { apply BB; auto; [now left|right; now left]. }
    exists s'. csplit; auto. pose proof (join_output_eb _ _ _ _ _ RUN) as ER.
    assert (ND := os_once _ _ _ _ O).
    assert (NO : forall c, In c (don ++ nb) -> c <> a /\ c <> b).
    { intros c Hc. rewrite <- app_assoc in ND. cbn in ND. pose proof (NoDup_remove_2 _ _ _ ND) as N1. apply NoDup_remove_1 in ND. pose proof (NoDup_remove_2 _ _ _ ND) as N2.
      rewrite !in_app_iff in *. cbn in *. rewrite !in_app_iff in *. split; intros ->; tauto. }
    assert (NOB : forall c, In c B -> c <> a /\ c <> b).
    { intros c Hc. rewrite <- app_assoc in ND. cbn in ND. pose proof (NoDup_remove_2 _ _ _ ND) as N1. apply NoDup_remove_1 in ND. pose proof (NoDup_remove_2 _ _ _ ND) as N2.
      rewrite !in_app_iff in *. cbn in *. rewrite !in_app_iff in *. split; intros ->; tauto. }
    assert (NN : forall j, ebof (edges s) j = None -> ebof (edges s') j = None).
    { intros j H. destruct (ebof (edges s') j) as [c|] eqn:Y; auto. apply EBN in Y as [Y _]. congruence. }
    constructor; auto.
    - eapply reads_keep; [| |exact RB]; [intros c Hc; right; now right|]. intros c Hc. apply KP; now apply NOB.
    - eapply eread_bound; eauto.
    - assert (L : forall c, In c don -> c <> a /\ c <> b) by (intros c Hc; apply NO, in_or_app; auto). clear - DE2 EBN L.
      induction DE2 as [|j c DE don H _ IH]; constructor; [apply EBN; split; auto; apply L; now left|apply IH; intros k Hk; apply L; now right].
    - intros j Hj NI. destruct (CN j Hj NI) as (c & Hc & C1 & C2 & x & Ex & C3). exists c. split; auto. destruct (NO c Hc) as [N1 N2]. split; [apply EBN; auto|]. split; auto.
      destruct (KP c N1 N2 x Ex) as (x' & Ex' & _ & _ & S3). exists x'. split; congruence.
    - intros c Hc. destruct (BK c Hc) as (j & Hj & Ej). exists j. split; auto. apply EBN. destruct (NO c Hc). auto.
    - apply upward_tail in UB as [UB _]. now apply upward_tail in UB.
    - intros x. rewrite PR. apply (below_pair X a b [] B x). auto.
    - intros p q Hp Hq. apply BB; right; now right.
    - intros p q Hp Hq. apply EB; auto. right; now right.
    - intros p q Hp Hq Qx. destruct (NOB q Hq) as [N1 N2]. destruct (FR p q Hp) as [[F1 F2]|F1]; auto; [right; now right| |].
      + left. split; auto. unfold beof in *. destruct (RB q) as (x & Ex & _); [right; now right|]. rewrite Ex in F1. destruct (KP q N1 N2 x Ex) as (x' & Ex' & S1 & _). now rewrite Ex', S1.
      + right. apply EBN. auto.
    - intros p q Hp Hq N Qx. apply NN. eauto.
  Qed.

  (** *** Pairs of edges that start together *)
  Lemma open_pairs_ok n : forall s pos d E1 l B nb don DE, (length l <= n)%nat -> mi s pos d (E1 ++ l) B nb don DE ->
    exists s' pos' nb' l', open_pairs s l = Ok (s', l') /\ mi s' pos' d (E1 ++ l') B nb' don DE /\ (forall x z, tw (polys s') pos' x z = tw (polys s) pos x z) /\ obl s' = obl s.
  Proof.
    induction n; intros s pos d E1 l B nb don DE L M; [destruct l; [|simpl in L; lia]; exists s, pos, nb, []; csplit; auto|].
    destruct l as [|e [|f l]]; cbn [open_pairs]; try (eexists s, pos, nb, _; csplit; [reflexivity|auto|auto|auto]).
    assert (RE := mi_e _ _ _ _ _ _ _ _ M). assert (KI := mi_K _ _ _ _ _ _ _ _ M).
    destruct (RE e) as (ee & Ee & X1 & _); [apply KI, in_or_app; right; now left|]. destruct (RE f) as (ef & Ef & X2 & _); [apply KI, in_or_app; right; right; now left|].
    rewrite (proj2 (at_ok _ _ _) Ee), (proj2 (at_ok _ _ _) Ef). cbn [bind]. destruct (n_eqb (e_x ee) (e_x ef)) eqn:Q.
    - assert (Qx : EX e = EX f) by (rops; rbool; congruence).
      destruct (mi_new_ok _ _ _ _ _ _ _ _ _ _ _ M Qx) as (s1 & pos1 & nb1 & RUN & M1 & TW1). rewrite RUN. cbn [bind].
      destruct (IHn s1 pos1 d E1 l B nb1 don DE) as (s' & pos' & nb' & l' & R2 & M2 & TW2 & OB2); auto; [simpl in L; lia|].
      exists s', pos', nb', l'. csplit; auto; [intros x z; rewrite TW2; apply TW1|]. rewrite OB2.
      pose proof (os_chain _ _ _ _ (mi_outs _ _ _ _ _ _ _ _ M)) as (C1 & _). pose proof (os_chain _ _ _ _ (mi_outs _ _ _ _ _ _ _ _ M1)) as (C2 & _). congruence.
    - assert (SH : E1 ++ e :: f :: l = (E1 ++ [e; f]) ++ l) by (rewrite <- app_assoc; reflexivity). rewrite SH in M.
      destruct (IHn s pos d (E1 ++ [e; f]) l B nb don DE) as (s' & pos' & nb' & l' & R2 & M2 & TW2 & OB2); auto; [simpl in L; lia|].
      rewrite R2. cbn [bind]. exists s', pos', nb', (e :: f :: l'). csplit; auto. rewrite <- app_assoc in M2. exact M2.
  Qed.

  (** *** The merged list *)
  Notation bd := (@bd R).
  Definition ble (a b : bd) : Prop := (bd_x a < bd_x b)%R \/ bd_x a = bd_x b /\ (is_edge a = false -> is_edge b = false).
  Definition bds (l : list bd) : list nat := flat_map (fun b => match bd_what b with inl _ => [] | inr i => [i] end) l.
  Definition entry (a : bd) : Prop := match bd_what a with inl e => bd_x a = EX e | inr b => bd_x a = X b end.
  Definition rep (l : list bd) (E B : list nat) : Prop := eds l = E /\ bds l = B /\ StronglySorted ble l /\ Forall entry l.
  Lemma in_eds (l : list bd) e : In e (eds l) <-> exists a, In a l /\ bd_what a = inl e.
  Proof. unfold eds. rewrite in_flat_map. split; intros (a & Ha & H); exists a; split; auto; destruct (bd_what a); cbn in *; [destruct H as [->|[]]; auto|tauto|left; congruence|discriminate]. Qed.
  Lemma in_bds (l : list bd) e : In e (bds l) <-> exists a, In a l /\ bd_what a = inr e.
  Proof. unfold bds. rewrite in_flat_map. split; intros (a & Ha & H); exists a; split; auto; destruct (bd_what a); cbn in *; [tauto|destruct H as [->|[]]; auto|discriminate|left; congruence]. Qed.
  Lemma find_edge (r : list bd) : forall E B x, rep r E B -> (forall a, In a r -> (x <= bd_x a)%R) ->
    match find_other x true r with
    | Some (o, r') => exists b B', B = b :: B' /\ X b = x /\ bd_what o = inr b /\ rep r' E B' /\ (length r' < length r)%nat /\ (forall a, In a r' -> In a r)
    | None => forall b, In b B -> (x < X b)%R
    end.
  Proof.
    induction r as [|h r IH]; intros E B x (R1 & R2 & R3 & R4) LE; cbn [find_other].
    { subst B. intros b []. }
    inversion R3 as [|? ? S1 S2]; subst. inversion R4 as [|? ? T1 T2]; subst.
    assert (Lh : (x <= bd_x h)%R) by (apply LE; now left). rops. destruct (Reqb (bd_x h) x) eqn:Q; rbool.
    - destruct (is_edge h) eqn:KH; cbn [Bool.eqb].
      + assert (W : exists e, bd_what h = inl e) by (unfold is_edge in KH; destruct (bd_what h); [eauto|discriminate]). destruct W as (e & W).
        assert (B1 : bds (h :: r) = bds r) by (unfold bds; cbn; now rewrite W).
        assert (E1 : eds (h :: r) = e :: eds r) by (unfold eds; cbn; now rewrite W).
        specialize (IH (eds r) (bds r) x). destruct (find_other x true r) as [[o r']|].
        * destruct IH as (b & B' & I1 & I2 & I3 & (I4 & I5 & I6 & I7) & I8 & I9); [split; auto|intros a Ha; apply LE; now right|].
          exists b, B'. rewrite B1, E1. csplit; auto.
          -- split; [unfold eds in *; cbn; rewrite W; cbn; now rewrite I4|]. split; [unfold bds in *; cbn; rewrite W; cbn; auto|]. split; constructor; auto.
             rewrite Forall_forall in *. intros a Ha. apply S2. auto.
          -- cbn. lia.
          -- intros a [<-|Ha]; [now left|right; auto].
        * rewrite B1. apply IH; [split; auto|]. intros a Ha. apply LE. now right.
      + assert (W : exists b, bd_what h = inr b) by (unfold is_edge in KH; destruct (bd_what h); [discriminate|eauto]). destruct W as (b & W).
        exists b, (bds r). unfold entry in T1. rewrite W in T1. csplit; auto; try congruence.
        * unfold bds. cbn. now rewrite W.
        * split; [unfold eds; cbn; now rewrite W|]. split; auto.
        * intros a Ha. now right.
    - intros b Hb. apply in_bds in Hb as (a & Ha & Wa).
      assert (En : entry a) by (rewrite Forall_forall in R4; auto). unfold entry in En. rewrite Wa in En. rewrite <- En.
      destruct Ha as [<-|Ha]; [lra|]. rewrite Forall_forall in S2. destruct (S2 a Ha) as [L|[L _]]; lra.
  Qed.
  Lemma find_bound (r : list bd) x : (forall a, In a r -> bd_x a = x -> is_edge a = false) -> find_other x false r = None.
  Proof.
    induction r as [|h r IH]; intros H; cbn [find_other]; auto. rops. destruct (Reqb (bd_x h) x) eqn:Q; rbool; auto.
    rewrite (H h (or_introl eq_refl) Q). cbn. rewrite IH; auto. intros a Ha. apply H. now right.
  Qed.
  Lemma match_up_ok fuel : forall s pos d E B nb don DE y (l : list bd), (length l <= fuel)%nat -> mi s pos d E B nb don DE -> rep l E B ->
    exists s' pos' d' nb' don' DE', match_up fuel s y l = Ok s' /\ mi s' pos' d' [] [] nb' don' DE' /\ (forall x z, tw (polys s') pos' x z = tw (polys s) pos x z).
  Proof.
    induction fuel; intros s pos d E B nb don DE y l L M R.
    { destruct l; [|simpl in L; lia]. destruct R as (<- & <- & _). exists s, pos, d, nb, don, DE. csplit; auto. }
    destruct l as [|it r]. { destruct R as (<- & <- & _). exists s, pos, d, nb, don, DE. csplit; auto. }
    cbn [match_up]. destruct R as (R1 & R2 & R3 & R4). inversion R3 as [|? ? S1 S2]; subst. inversion R4 as [|? ? T1 T2]; subst. rewrite Forall_forall in S2.
    simpl in L. destruct (bd_what it) as [e|b] eqn:W.
    - (* an edge *)
      assert (EQ : eds (it :: r) = e :: eds r) by (unfold eds; cbn; now rewrite W). assert (BQ : bds (it :: r) = bds r) by (unfold bds; cbn; now rewrite W).
      rewrite EQ, BQ in M. unfold entry in T1. rewrite W in T1. assert (KI : is_edge it = true) by (unfold is_edge; now rewrite W). rewrite KI.
      pose proof (find_edge r (eds r) (bds r) (bd_x it)) as F. destruct (find_other (bd_x it) true r) as [[o r']|].
      + destruct F as (b & B' & F1 & F2 & F3 & F4 & F5 & F6); [split; auto|intros a Ha; destruct (S2 a Ha) as [Q|[Q _]]; lra|].
        rewrite F1 in M. destruct (mi_update_ok _ _ _ _ _ _ _ _ _ _ M) as (s1 & RUN & M1 & PS); [congruence|].
        unfold connect. rewrite W, F3, RUN. cbn [bind].
        destruct (IHfuel s1 pos (- d) (eds r) B' nb (don ++ [b]) (DE ++ [e]) y r') as (s' & pos' & d' & nb' & don' & DE' & H1 & H2 & H3); auto; [lia|].
        exists s', pos', d', nb', don', DE'. csplit; auto. intros x z. rewrite H3, PS. reflexivity.
      + assert (F' : forall b, In b (bds r) -> (bd_x it < X b)%R) by (apply F; [split; auto|intros a Ha; destruct (S2 a Ha) as [Q|[Q _]]; lra]). clear F.
        destruct (par_second EX e (eds r) X (bds r)) as (f & E' & Q1 & Q2 & _).
        { apply (mi_eup _ _ _ _ _ _ _ _ M). } { apply (mi_par _ _ _ _ _ _ _ _ M). } { intros b Hb. rewrite <- T1. auto. }
        assert (If : In f (eds r)) by (rewrite Q1; now left). apply in_eds in If as (af & Iaf & Waf).
        destruct r as [|n r]; [destruct Iaf|]. 
        assert (Xf : bd_x af = bd_x it) by (rewrite Forall_forall in T2; specialize (T2 af Iaf); unfold entry in T2; rewrite Waf in T2; congruence).
        assert (Xn : bd_x n = bd_x it).
        { assert (bd_x it <= bd_x n)%R by (destruct (S2 n (or_introl eq_refl)) as [?|[? _]]; lra). destruct Iaf as [<-|Iaf]; auto. inversion S1 as [|? ? _ S3]; subst. rewrite Forall_forall in S3. destruct (S3 af Iaf) as [?|[? _]]; lra. }
        assert (Wn : bd_what n = inl f).
        { inversion T2 as [|? ? T3 _]; subst. unfold entry in T3. destruct (bd_what n) as [f'|b] eqn:Wn.
          - unfold eds in Q1. cbn in Q1. rewrite Wn in Q1. cbn in Q1. congruence.
          - exfalso. assert (bd_x it < X b)%R by (apply F'; apply in_bds; exists n; split; auto; now left). lra. }
        unfold connect. rewrite W, Wn. rewrite Q1 in M.
        destruct (mi_new_ok s pos d [] e f E' (bds (n :: r)) nb don DE M) as (s1 & pos1 & nb1 & RUN & M1 & TW1); [congruence|]. rewrite RUN. cbn [bind].
        assert (EQ2 : eds r = E') by (unfold eds in Q1 |- *; cbn in Q1; rewrite Wn in Q1; cbn in Q1; congruence). assert (BQ2 : bds (n :: r) = bds r) by (unfold bds; cbn; now rewrite Wn).
        destruct (IHfuel s1 pos1 d E' (bds (n :: r)) nb1 don DE y r) as (s' & pos' & d' & nb' & don' & DE' & H1 & H2 & H3); auto; [simpl in L; lia| |].
        { inversion S1; subst. inversion T2; subst. split; auto. }
        exists s', pos', d', nb', don', DE'. csplit; auto. intros x z. rewrite H3. apply TW1.
    - (* a bound *)
      assert (EQ : eds (it :: r) = eds r) by (unfold eds; cbn; now rewrite W). assert (BQ : bds (it :: r) = b :: bds r) by (unfold bds; cbn; now rewrite W).
      rewrite EQ, BQ in M. unfold entry in T1. rewrite W in T1. assert (KI : is_edge it = false) by (unfold is_edge; now rewrite W). rewrite KI.
      rewrite find_bound. 2: { intros a Ha Q. destruct (S2 a Ha) as [?|[_ Q2]]; [lra|auto]. }
      assert (F' : forall e, In e (eds r) -> (bd_x it < EX e)%R).
      { intros e He. apply in_eds in He as (a & Ha & Wa). rewrite Forall_forall in T2. specialize (T2 a Ha). unfold entry in T2. rewrite Wa in T2. rewrite <- T2.
        destruct (S2 a Ha) as [?|[_ Q2]]; auto. specialize (Q2 KI). unfold is_edge in Q2. rewrite Wa in Q2. discriminate. }
      destruct (par_second X b (bds r) EX (eds r)) as (f & B' & Q1 & Q2 & _).
      { apply (mi_bup _ _ _ _ _ _ _ _ M). } { apply par_sym, (mi_par _ _ _ _ _ _ _ _ M). } { intros e He. rewrite <- T1. auto. }
      assert (If : In f (bds r)) by (rewrite Q1; now left). apply in_bds in If as (af & Iaf & Waf).
      destruct r as [|n r]; [destruct Iaf|].
      assert (Xf : bd_x af = bd_x it) by (rewrite Forall_forall in T2; specialize (T2 af Iaf); unfold entry in T2; rewrite Waf in T2; congruence).
      assert (Xn : bd_x n = bd_x it).
      { assert (bd_x it <= bd_x n)%R by (destruct (S2 n (or_introl eq_refl)) as [?|[? _]]; lra). destruct Iaf as [<-|Iaf]; auto. inversion S1 as [|? ? _ S3]; subst. rewrite Forall_forall in S3. destruct (S3 af Iaf) as [?|[? _]]; lra. }
      assert (Wn : bd_what n = inr f).
      { destruct (bd_what n) as [e|f'] eqn:Wn.
        - exfalso. assert (In e (eds (n :: r))) by (apply in_eds; exists n; split; auto; now left). specialize (F' e H).
          inversion T2 as [|? ? T3 _]; subst. unfold entry in T3. rewrite Wn in T3. lra.
        - unfold bds in Q1. cbn in Q1. rewrite Wn in Q1. cbn in Q1. congruence. }
      unfold connect. rewrite W, Wn. rewrite Q1 in M.
      destruct (mi_join_ok s pos d (eds (n :: r)) b f B' nb don DE y M) as (s1 & RUN & M1 & TW1); [congruence|]. rewrite RUN. cbn [bind].
      assert (BQ2 : bds r = B') by (unfold bds in Q1 |- *; cbn in Q1; rewrite Wn in Q1; cbn in Q1; congruence). assert (EQ2 : eds (n :: r) = eds r) by (unfold eds; cbn; now rewrite Wn).
      destruct (IHfuel s1 pos d (eds (n :: r)) B' nb don DE y r) as (s' & pos' & d' & nb' & don' & DE' & H1 & H2 & H3); auto; [simpl in L; lia| |].
      { inversion S1; subst. inversion T2; subst. split; auto. }
      exists s', pos', d', nb', don', DE'. csplit; auto. intros x z. rewrite H3. apply TW1.
  Qed.
End Match.
