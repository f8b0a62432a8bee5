(** From a local minimum a ring climbs on both sides. *)
From Coq Require Import ZArith Bool List Lia.
From Verif Require Import Outcome Num Order Rmath Segment Path PathSpec VState VPath VLemmas AelSpec VAelRun RingSpec MarkProofs VRing VBuild MarkSpec ClimbSpec.
Import ListNotations.

Lemma app_split {A} (b : list A) : forall a pre post i, b ++ a = pre ++ i :: post ->
  (exists b2, b = pre ++ i :: b2 /\ post = b2 ++ a) \/ (exists a1, pre = b ++ a1 /\ a = a1 ++ i :: post).
Proof.
  induction b as [|x b IH]; intros a pre post i E; cbn [app] in E; [right; exists pre; auto|].
  destruct pre as [|p pre]; cbn [app] in E; injection E as -> E.
  - left. exists b. auto.
  - destruct (IH _ _ _ _ E) as [(b2 & -> & ->)|(a1 & -> & ->)]; [left; exists b2|right; exists a1]; auto.
Qed.
Lemma turned_on l m rest pre i post : turned l m rest -> rest = pre ++ i :: post -> turned l i (post ++ m :: pre).
Proof.
  intros (a & b & -> & ->) E. apply app_split in E as [(b2 & -> & ->)|(a1 & -> & ->)].
  - exists (a ++ m :: pre), b2. rewrite <- !app_assoc. auto.
  - exists a1, (post ++ m :: b). rewrite <- !app_assoc. auto.
Qed.

Section Strand.
  Context {T : Type}.
  Implicit Types vs : list (vertex T).
  Lemma strand_split vs l1 : forall a l2 gs, strand vs a (l1 ++ l2) gs -> exists g1 g2, gs = g1 ++ g2 /\ strand vs a l1 g1 /\ strand vs (last l1 a) l2 g2.
  Proof.
    induction l1 as [|b l1 IH]; intros a l2 gs H; [exists [], gs; cbn; auto|]. destruct gs as [|g gs]; [contradiction|].
    cbn [app strand] in H. destruct H as [H1 H2]. apply IH in H2 as (g1 & g2 & -> & K1 & K2).
    exists (g :: g1), g2. rewrite last_cons. cbn [strand]. auto.
  Qed.
  Lemma strand_join vs a l1 g1 l2 g2 : strand vs a l1 g1 -> strand vs (last l1 a) l2 g2 -> strand vs a (l1 ++ l2) (g1 ++ g2).
  Proof. intros H1 H2. apply strand_app; auto. eapply strand_len; eauto. Qed.
  (** The ring seen from another vertex *)
  Lemma ring_from vs l gs m rest : ring vs l gs -> turned l m rest -> exists gs', strand vs m (rest ++ [m]) gs'.
  Proof.
    intros R (a & b & -> & ->). destruct a as [|f a].
    - cbn in R. destruct R as [_ R]. rewrite app_nil_r. eauto.
    - cbn [app ring] in R. destruct R as [_ R]. rewrite <- app_assoc in R. cbn [app] in R.
      replace (a ++ m :: b ++ [f]) with ((a ++ [m]) ++ (b ++ [f])) in R by now rewrite <- app_assoc.
      apply strand_split in R as (g1 & g2 & _ & R1 & R2). rewrite last_last in R2.
      exists (g2 ++ g1). replace ((b ++ f :: a) ++ [m]) with ((b ++ [f]) ++ (a ++ [m])) by now rewrite <- !app_assoc.
      apply strand_join; auto. now rewrite last_last.
  Qed.
  Lemma strand_links vs m rest gs pre i post : strand vs m (rest ++ [m]) gs -> rest = pre ++ i :: post ->
    (exists g, link vs (last pre m) i g) /\ exists g, link vs i (hd m post) g.
  Proof.
    intros S ->. rewrite <- app_assoc in S. apply strand_split in S as (g1 & g2 & _ & _ & S).
    destruct g2 as [|g g2]; [contradiction|]. cbn [app strand] in S. destruct S as [S1 S2]. split; eauto.
    destruct post as [|j post]; destruct g2 as [|h g2]; try contradiction; destruct S2 as [S2 _]; eauto.
  Qed.
End Strand.

Section Climb.
  Context {T : Type} {N : Num T} {O : OrdNum T}.
  Variable vs : list (vertex T).
  Variable L : list nat.
  Notation Y := (height vs).
  Hypothesis ok : forall i, In i L -> nvalid (Y i).
  Hypothesis marked : forall i v, In i L -> nth_error vs i = Some v -> (v_max v = true <-> highest Y L i).
  Variable gs : list (seg T).
  Hypothesis R : ring vs L gs.
  Variable m : nat.
  Variable rest : list nat.
  Hypothesis TR : turned L m rest.
  Lemma in_rest i : In i (m :: rest) -> In i L.
  Proof. destruct TR as (a & b & -> & ->). cbn. rewrite !in_app_iff. cbn. tauto. Qed.
  Lemma ok_rest i : In i (m :: rest) -> nvalid (Y i).
  Proof. intros H. apply ok. now apply in_rest. Qed.
  Lemma links pre i post : rest = pre ++ i :: post ->
    (exists g, link vs (last pre m) i g) /\ exists g, link vs i (hd m post) g.
  Proof. intros E. destruct (ring_from _ _ _ _ _ R TR) as [g S]. eapply strand_links; eauto. Qed.
  Lemma rest_parts pre i post : rest = pre ++ i :: post -> In i (m :: rest) /\ In (hd m post) (m :: rest) /\ In (last pre m) (m :: rest).
  Proof.
    intros ->. csplit.
    - right. apply in_or_app. right. now left.
    - destruct post as [|j post]; [now left|]. right. apply in_or_app. right. right. now left.
    - destruct (last_in pre m) as [<-|K]; [now left|]. right. apply in_or_app. now left.
  Qed.
  Lemma not_lt_le a b : nvalid a -> nvalid b -> n_ltb b a <> true -> n_leb a b = true.
  Proof. intros A B H. apply nle_not_lt; auto. now destruct (n_ltb b a). Qed.
  (** A vertex whose successor is lower, reached from below, is marked. *)
  Lemma is_marked pre i post v : rest = pre ++ i :: post -> nth_error vs i = Some v -> n_ltb (Y (hd m post)) (Y i) = true ->
    arrives Y false i (rev pre ++ [m]) -> v_max v = true.
  Proof.
    intros E Hv Lt A. pose proof (turned_on _ _ _ _ _ _ TR E) as TI. pose proof (rest_parts _ _ _ E) as (P1 & _).
    apply (marked i v); auto; [now apply in_rest|].
    destruct post as [|j post]; cbn [hd app] in *.
    - exists m, pre. csplit; auto.
    - exists j, (post ++ m :: pre). csplit; auto. rewrite app_comm_cons, rev_app_distr. cbn [rev]. rewrite <- app_assoc.
      rewrite app_assoc. now apply arrives_more.
  Qed.
  Lemma forward_climbs post : forall pre i, rest = pre ++ i :: post -> n_ltb (Y m) (Y i) = true -> arrives Y false i (rev pre ++ [m]) ->
    climbs vs true i.
  Proof.
    induction post as [|j post IH]; intros pre i E Lm A.
    all: pose proof (rest_parts _ _ _ E) as (P1 & P2 & P3); destruct (links _ _ _ E) as [_ (g & vi & vj & H1 & H2 & H3 & H4 & _)];
      destruct (v_max vi) eqn:M; [now apply (climbs_top _ _ _ vi)|].
    - rewrite (is_marked pre i [] vi) in M; auto; discriminate.
    - cbn [hd] in *. assert (Le : n_leb (Y i) (Y j) = true).
      { apply not_lt_le; try (apply ok_rest; assumption). intros K. rewrite (is_marked pre i (j :: post) vi) in M; auto; discriminate. }
      assert (Vi : nvalid (Y i)) by (apply ok_rest; auto). assert (Vj : nvalid (Y j)) by (apply ok_rest; auto).
      assert (Vm : nvalid (Y m)) by (apply ok_rest; now left).
      apply (climbs_step _ _ i vi j vj); auto.
      + rewrite <- (height_some _ _ _ H1), <- (height_some _ _ _ H2). exact Le.
      + apply (IH (pre ++ [i])); auto.
        * rewrite E, <- app_assoc. reflexivity.
        * apply (nlt_le_trans _ (Y i)); auto.
        * rewrite rev_app_distr. cbn [rev app].
          assert (OKP : forall k, In k (rev pre ++ [m]) -> nvalid (Y k)).
          { intros k Hk. apply ok_rest. rewrite E. apply in_app_or in Hk as [Hk|[<-|[]]]; [|now left]. right. apply in_or_app. left. now apply in_rev. }
          pose proof (arrives_step Y false i j _ Vi Vj OKP A) as A'. apply nle_not_lt in Le; auto. rewrite Le in A'.
          rewrite andb_false_r in A'. exact A'.
  Qed.
  Definition unmarked i := forall v, nth_error vs i = Some v -> v_max v = false.
  Lemma backward_climbs k : forall pre i e post, length pre <= k -> rest = pre ++ i :: e ++ post -> n_ltb (Y m) (Y i) = true ->
    Forall (fun j => n_eqb (Y j) (Y i) = true /\ unmarked j) e -> n_ltb (Y (hd m post)) (Y i) = true -> climbs vs false i.
  Proof.
    induction k as [|k IH]; intros pre i e post Lk E Lm F Lt.
    all: pose proof (rest_parts _ _ _ E) as (P1 & P2 & P3); destruct (links _ _ _ E) as [(g & vp & vi & H1 & H2 & H3 & H4 & _) _];
      destruct (v_max vi) eqn:M; [now apply (climbs_top _ _ _ vi)|].
    all: assert (Vi : nvalid (Y i)) by (apply ok_rest; auto); assert (Vp : nvalid (Y (last pre m))) by (apply ok_rest; auto);
      assert (Vm : nvalid (Y m)) by (apply ok_rest; now left).
    all: assert (UI : unmarked i) by (intros v Hv; congruence).
    all: assert (Le : n_leb (Y i) (Y (last pre m)) = true).
    1, 3: apply not_lt_le; auto; intros K.
    1, 2: assert (X : exists e' h, i :: e = e' ++ [h]) by (destruct (exists_last (l := i :: e)) as (e' & h & ->); [discriminate|eauto]);
      destruct X as (e' & h & X);
      assert (Hh : n_eqb (Y h) (Y i) = true /\ unmarked h) by
        (assert (In h (i :: e)) as [<-|Hh] by (rewrite X; apply in_or_app; right; now left);
           [split; auto; apply (MarkSpec.neq_refl (Y i)); auto|rewrite Forall_forall in F; auto]);
      assert (Eh : rest = (pre ++ e') ++ h :: post) by
        (rewrite E; change (i :: e ++ post) with ((i :: e) ++ post); rewrite X, <- !app_assoc; reflexivity);
      pose proof (rest_parts _ _ _ Eh) as (Q1 & Q2 & Q3);
      assert (Vh : nvalid (Y h)) by (apply ok_rest; auto);
      assert (Vx : nvalid (Y (hd m post))) by (apply ok_rest; auto);
      destruct Hh as [Hh1 Hh2];
      destruct (links _ _ _ Eh) as [(g' & vp' & vh & H1' & H2' & _) _];
      pose proof (Hh2 _ H2') as Uh.
    1, 2: rewrite (is_marked (pre ++ e') h post vh) in Uh; auto; try discriminate;
      [apply (nlt_eq_trans (Y (hd m post)) (Y i) (Y h)); auto; now rewrite neq_sym|].
    1, 2: assert (Fe : Forall (fun j => n_eqb (Y j) (Y h) = true) e') by
       (apply Forall_forall; intros j Hj; assert (Hj' : In j (i :: e)) by (rewrite X; apply in_or_app; now left);
        assert (Vj : nvalid (Y j)) by (apply ok_rest; rewrite Eh; right; apply in_or_app; left; apply in_or_app; now right);
        destruct Hj' as [<-|Hj']; [now rewrite neq_sym|]; rewrite Forall_forall in F; apply F in Hj' as [Hj' _];
        apply (neq_trans _ (Y i)); auto; now rewrite neq_sym).
    1, 2: assert (Lp : n_ltb (Y (last pre m)) (Y h) = true) by (apply (nlt_eq_trans _ (Y i)); auto; now rewrite neq_sym).
    1, 2: rewrite rev_app_distr, <- app_assoc; 
       assert (Fe' : Forall (fun j => n_eqb (Y j) (Y h) = true) (rev e')) by (apply Forall_forall; intros j Hj; rewrite Forall_forall in Fe; apply Fe; now apply in_rev);
       destruct (list_eq_nil pre) as [->|NE];
       [exists (rev e'), m, []; auto|
        destruct (exists_last NE) as (q & p & ->); rewrite last_last in Lp; exists (rev e'), p, (rev q ++ [m]); rewrite rev_app_distr; auto].
    - destruct pre; [|cbn in Lk; lia]. cbn [last] in Le. apply nle_not_lt in Le; auto. congruence.
    - destruct (list_eq_nil pre) as [->|NE]; [cbn [last] in Le; apply nle_not_lt in Le; auto; congruence|].
      destruct (exists_last NE) as (q & p & ->). rewrite last_last in *.
      assert (Ep : rest = q ++ p :: i :: e ++ post) by (rewrite E, <- app_assoc; reflexivity).
      apply (climbs_step _ _ i vi p vp); auto.
      + rewrite <- (height_some _ _ _ H1), <- (height_some _ _ _ H2). exact Le.
      + rewrite app_length in Lk. cbn in Lk. pose proof (nlt_le_trans _ _ _ Vm Vi Vp Lm Le) as Lmp.
        apply nle_cases in Le as [Lip|Eip]; auto.
        * apply (IH q p [] (i :: e ++ post)); auto. lia.
        * apply (IH q p (i :: e) post); auto; [lia| |].
          -- constructor; auto. apply Forall_forall. intros j Hj. rewrite Forall_forall in F.
             assert (Vj : nvalid (Y j)) by (apply ok_rest; rewrite Ep; right; apply in_or_app; right; right; right; apply in_or_app; now left).
             destruct (F j Hj). split; auto. apply (neq_trans _ (Y i)); auto.
          -- assert (Vx : nvalid (Y (hd m post))).
             { apply ok_rest. rewrite Ep. destruct post as [|x post]; [now left|]. right. apply in_or_app. right. right. right. apply in_or_app. right. now left. }
             apply (nlt_eq_trans _ (Y i)); auto.
  Qed.
  Lemma valley_forward n r : rest = n :: r -> n_ltb (Y m) (Y n) = true -> leaves vs true m.
  Proof.
    intros E Lt. destruct (links [] n r E) as [(g & vm & vn & H1 & H2 & H3 & H4 & _) _]. cbn [last] in *.
    apply (leaves_rise _ _ m vm n vn); auto.
    - rewrite <- (height_some _ _ _ H1), <- (height_some _ _ _ H2). exact Lt.
    - apply (forward_climbs r []); auto. exists [], m, []. auto.
  Qed.
  Lemma valley_backward : arrives Y true m (rev rest) -> leaves vs false m.
  Proof.
    intros (e & p & q & E & F & Lt).
    assert (Er : rest = rev q ++ p :: rev e).
    { rewrite <- (rev_involutive rest), E, rev_app_distr. cbn [rev]. now rewrite <- app_assoc. }
    assert (Vm : nvalid (Y m)) by (apply ok_rest; now left).
    assert (Vin : forall j, In j (p :: rev e) -> nvalid (Y j)).
    { intros j Hj. apply ok_rest. right. rewrite Er. apply in_or_app. now right. }
    assert (C : climbs vs false p).
    { apply (backward_climbs (length (rev q)) (rev q) p [] (rev e)); auto.
      destruct (rev e) as [|x t] eqn:X; cbn [hd]; auto.
      assert (Hx : In x e) by (apply in_rev; rewrite X; now left). rewrite Forall_forall in F.
      apply (neq_lt_trans (Y x) (Y m) (Y p)); auto; apply Vin; [right; now left|now left]. }
    assert (K : forall t i, (exists u, rest = rev q ++ p :: rev t ++ u /\ e = rev u ++ t /\ i = hd m u) -> n_eqb (Y i) (Y m) = true -> leaves vs false i).
    { induction t as [|j t IH]; intros i (u & K1 & K2 & Hi) Ei.
      - cbn [rev app] in K1. destruct (links _ _ _ K1) as [_ (g & vp & vi & H1 & H2 & H3 & H4 & _)]. rewrite <- Hi in *.
        apply (leaves_rise _ _ i vi p vp); auto. rewrite <- (height_some _ _ _ H1), <- (height_some _ _ _ H2).
        apply (neq_lt_trans _ (Y m)); auto; apply ok_rest; pose proof (rest_parts _ _ _ K1) as (P1 & P2 & _); auto. now rewrite Hi.
      - cbn [rev] in K1. rewrite <- app_assoc in K1. cbn [app] in K1.
        assert (K1' : rest = (rev q ++ p :: rev t) ++ j :: u) by (rewrite K1, <- app_assoc; reflexivity).
        destruct (links _ _ _ K1') as [_ (g & vj & vi & H1 & H2 & H3 & H4 & _)]. rewrite <- Hi in *.
        pose proof (rest_parts _ _ _ K1') as (P1 & P2 & _). rewrite <- Hi in P2.
        assert (Ej : n_eqb (Y j) (Y m) = true). { rewrite Forall_forall in F. apply F. rewrite K2. apply in_or_app. right. now left. }
        apply (leaves_flat _ _ i vi j vj); auto.
        + rewrite <- (height_some _ _ _ H1), <- (height_some _ _ _ H2). apply (neq_trans _ (Y m)); auto; try (apply ok_rest; assumption). now rewrite neq_sym.
        + apply IH; auto. exists (j :: u). csplit; auto. rewrite K2. cbn [rev]. now rewrite <- app_assoc. }
    apply (K e m); [|apply MarkSpec.neq_refl; auto]. exists []. rewrite app_nil_r. auto.
  Qed.
End Climb.

Lemma lowest_valley {T} {N : Num T} {O : OrdNum T} (vs : list (vertex T)) L gs :
  (forall i, In i L -> nvalid (height vs i)) -> (forall i v, In i L -> nth_error vs i = Some v -> (v_max v = true <-> highest (height vs) L i)) ->
  ring vs L gs -> forall m, lowest (height vs) L m -> valley vs m.
Proof.
  intros OK MK R m (n & r & TR & Lt & A). split.
  - eapply (valley_forward vs L); eauto.
  - eapply (valley_backward vs L); eauto.
Qed.
