(** From one scan line to the next: which sides it meets. *)
From Coq Require Import ZArith Bool List Permutation Lia.
From Verif Require Import Outcome Num Order OrdTac Rmath Segment VState VLemmas RingSpec SpanSpec SpanRing SpanTop.
Import ListNotations.

Section Step.
  Context {T : Type} {N : Num T} {O : OrdNum T}.
  Variable vs : list (vertex T).
  Notation Y := (height vs).
  Variables P M : nat -> Prop.
  Hypothesis MK : marked vs P M.
  Let valid := mk_valid _ _ _ MK.
  Let sP := side_P vs P M MK.
  Let sP' := side_P' vs P M MK.
  Hint Resolve valid sP sP' : nv.

  (** After and before the new minima *)
  Definition met (y : T) (u : bool * nat) : Prop :=
    exists j, P j /\ side vs (fst u) j (snd u) /\ n_leb (Y j) y = true /\ n_ltb y (Y (snd u)) = true.
  Definition came (y : T) (u : bool * nat) : Prop :=
    exists j, P j /\ side vs (fst u) j (snd u) /\ n_ltb y (Y (snd u)) = true /\
      (n_ltb (Y j) y = true \/ (n_eqb (Y j) y = true /\ comes vs true (fst u) j)).
  Definition exactly (Q : bool * nat -> Prop) (K : list (bool * nat)) : Prop := NoDup K /\ forall u, In u K <-> Q u.

  Lemma in_moved y K K' : moved vs y K K' -> (forall u, In u K -> P (snd u)) -> forall u, In u K' <->
    (In u K /\ n_eqb (Y (snd u)) y = false) \/ exists k, In (fst u, k) K /\ n_eqb (Y k) y = true /\ adv vs (fst u) k (Some (snd u)).
  Proof.
    induction 1 as [|u0 K K' A B IH|fwd k k' K K' A B C IH|fwd k K K' A B C IH]; intros PK u; cbn [In].
    - split; [contradiction|]. intros [[[] _]|(k & [] & _)].
    - rewrite IH by (intros; apply PK; now right). split.
      + intros [->|[[H1 H2]|(k & H1 & H2)]]; eauto 6.
      + intros [[[->|H1] H2]|(k & [->|H1] & H2 & H3)]; eauto 6. cbn [snd] in A. congruence.
    - rewrite IH by (intros; apply PK; now right). split.
      + intros [<-|[[H1 H2]|(j & H1 & H2)]]; eauto 6.
      + intros [[[<-|H1] H2]|(j & [H1|H1] & H2 & H3)]; eauto 6; [cbn [snd] in H2; congruence|].
        injection H1 as E1 E2. left. destruct u as [f r]. cbn [fst snd] in *. subst f j.
        pose proof (adv_fun vs P M MK _ _ _ _ B (PK _ (or_introl eq_refl)) H3). congruence.
    - rewrite IH by (intros; apply PK; now right). split.
      + intros [[H1 H2]|(j & H1 & H2)]; eauto 6.
      + intros [[[<-|H1] H2]|(j & [H1|H1] & H2 & H3)]; eauto 6; [cbn [snd] in H2; congruence|].
        injection H1 as E1 E2. destruct u as [f r]. cbn [fst snd] in *. subst f j.
        pose proof (adv_fun vs P M MK _ _ _ _ B (PK _ (or_introl eq_refl)) H3). discriminate.
  Qed.
  (** The ends of the sides in the list *)
  Definition rises (y : T) (u : bool * nat) : Prop :=
    exists i, P i /\ side vs (fst u) i (snd u) /\ n_ltb (Y i) y = true /\ n_ltb (Y i) (Y (snd u)) = true.
  Lemma rises_P y u : rises y u -> P (snd u).
  Proof. intros (i & A & B & _). eauto with nv. Qed.
  Lemma moved_keep_next y u k : nvalid y -> rises y u -> P k -> n_eqb (Y k) y = true -> adv vs (fst u) k (Some (snd u)) -> False.
  Proof.
    intros Vy (i & Pi & A & B & C) Pk E D. apply adv_level in D as (j & F & G & H). rewrite <- (side_inj _ _ _ _ _ A G) in *.
    pose proof (level_eq _ _ _ MK _ _ _ F Pk). ord.
  Qed.
  Lemma moved_nodup y K K' : nvalid y -> moved vs y K K' -> (forall u, In u K -> rises y u) -> NoDup K -> NoDup K'.
  Proof.
    intros Vy. induction 1 as [|u0 K K' A B IH|fwd k k' K K' A B C IH|fwd k K K' A B C IH]; intros R ND.
    - constructor.
    - inversion ND as [|? ? N1 N2]; subst. assert (R' : forall u, In u K -> rises y u) by (intros; apply R; now right).
      constructor; [|auto]. intros I. apply (in_moved y K K' B) in I; [|intros u Hu; eapply rises_P; eauto].
      destruct I as [[I _]|(j & I & D & E)]; [contradiction|].
      apply (moved_keep_next y u0 j); auto; [apply R; now left|]. exact (rises_P _ _ (R' _ I)).
    - inversion ND as [|? ? N1 N2]; subst. assert (R' : forall u, In u K -> rises y u) by (intros; apply R; now right).
      constructor; [|auto]. intros I. apply (in_moved y K K' C) in I; [|intros u Hu; eapply rises_P; eauto]. cbn [fst snd] in I.
      pose proof (R _ (or_introl eq_refl)) as Rk. pose proof (rises_P _ _ Rk) as Pk.
      destruct I as [[I _]|(j & I & D & E)].
      + apply (moved_keep_next y (fwd, k') k); auto.
      + destruct Rk as (i & Pi & Si & Li & Ri). destruct (R' _ I) as (i' & Pi' & Si' & Li' & Ri'). cbn [fst snd] in *.
        assert (k = j) as -> by (apply (adv_unique vs P M MK fwd i i' k j k'); auto). contradiction.
    - inversion ND; subst. apply IH; auto. intros; apply R; now right.
  Qed.
  Lemma step_top y y' K K' : nvalid y -> nvalid y' -> n_ltb y y' = true -> (forall x, P x -> n_ltb y (Y x) = true -> n_leb y' (Y x) = true) ->
    exactly (met y) K -> moved vs y' K K' -> exactly (came y') K'.
  Proof.
    intros Vy Vy' L NB [ND EX] MV.
    assert (R : forall u, In u K -> rises y' u).
    { intros u Hu. apply EX in Hu as (j & Pj & S & A & B). assert (P (snd u)) by eauto with nv. exists j. csplit; auto; ord. }
    assert (RP : forall u, In u K -> P (snd u)) by (intros u Hu; eapply rises_P; eauto).
    split; [eapply moved_nodup; eauto|]. intros [fwd k]. rewrite (in_moved y' K K' MV RP). cbn [fst snd]. split.
    - intros [[I E]|(k0 & I & E & A)].
      + apply EX in I as (j & Pj & S & A & B). cbn [fst snd] in *. assert (Pk : P k) by eauto with nv. pose proof (NB k Pk B).
        exists j. cbn [fst snd]. csplit; auto; [ord|]. left. ord.
      + apply EX in I as (i & Pi & S & B & C). cbn [fst snd] in *. assert (Pk : P k0) by eauto with nv.
        apply adv_level in A as (j & D & F & G). pose proof (level_P _ _ _ MK _ _ _ D Pk) as Pj. pose proof (level_eq _ _ _ MK _ _ _ D Pk).
        assert (P k) by eauto with nv.
        exists j. cbn [fst snd]. csplit; auto; [ord|]. right. split; [ord|]. apply comes_level with k0; auto. apply comes_here with i; auto. ord.
    - intros (j & Pj & S & A & [B|[B C]]); cbn [fst snd] in *; assert (Pk : P k) by eauto with nv.
      + left. split; [|ord]. apply EX. exists j. cbn [fst snd]. csplit; auto; [|ord].
        destruct (n_leb (Y j) y) eqn:E; auto. exfalso. assert (n_ltb y (Y j) = true) as E' by ord. pose proof (NB j Pj E'). ord.
      + right. apply comes_foot in C as (i & k0 & D & F & G). pose proof (level_P' _ _ _ MK _ _ _ G Pj) as Pk0. pose proof (level_eq _ _ _ MK _ _ _ G Pk0) as H.
        assert (Pi : P i) by eauto with nv.
        exists k0. csplit.
        * apply EX. exists i. cbn [fst snd]. csplit; auto; [|ord].
          destruct (n_leb (Y i) y) eqn:E; auto. exfalso. assert (n_ltb y (Y i) = true) as E' by ord. pose proof (NB i Pi E'). ord.
        * ord.
        * apply (adv_level' vs P M MK fwd k0 j k); auto; [|ord]. apply comes_here with i; auto.
  Qed.

  (** The two ways up from each minimum *)
  Inductive started : list nat -> list (bool * nat) -> Prop :=
  | started_nil : started [] []
  | started_cons m a b ds K : start vs false m a -> start vs true m b -> started ds K -> started (m :: ds) ((false, a) :: (true, b) :: K).
  Lemma in_started ds K : started ds K -> (forall m, In m ds -> M m) -> forall u, In u K <-> exists m, In m ds /\ start vs (fst u) m (snd u).
  Proof.
    induction 1 as [|m a b ds K A B C IH]; intros MD u; cbn [In].
    - split; [contradiction|]. intros (m & [] & _).
    - rewrite IH by (intros; apply MD; now right). split.
      + intros [<-|[<-|(m' & D & E)]]; eauto.
      + intros (m' & [<-|D] & E); [|eauto]. pose proof (start_P _ _ _ MK _ (MD m (or_introl eq_refl))) as Pm.
        destruct u as [[|] k]; cbn [fst snd] in E; [pose proof (start_fun _ _ _ MK _ _ _ _ Pm B E)|pose proof (start_fun _ _ _ MK _ _ _ _ Pm A E)]; subst; auto.
  Qed.
  Lemma started_nodup ds K : started ds K -> (forall m, In m ds -> M m) -> NoDup ds -> NoDup K.
  Proof.
    induction 1 as [|m a b ds K A B C IH]; intros MD ND; [constructor|]. inversion ND as [|? ? N1 N2]; subst.
    assert (MD' : forall m, In m ds -> M m) by (intros; apply MD; now right). pose proof (MD m (or_introl eq_refl)) as Mm.
    constructor; [|constructor; auto].
    - intros [E|I]; [discriminate|]. apply (in_started ds K C MD') in I as (m' & I & E). cbn [fst snd] in E.
      rewrite (start_unique vs P M MK false m m' a) in N1; auto.
    - intros I. apply (in_started ds K C MD') in I as (m' & I & E). cbn [fst snd] in E.
      rewrite (start_unique vs P M MK true m m' b) in N1; auto.
  Qed.
  Lemma step_min y K ds KS : nvalid y -> exactly (came y) K -> started ds KS -> NoDup ds -> (forall m, In m ds <-> M m /\ n_eqb (Y m) y = true) ->
    exactly (met y) (K ++ KS).
  Proof.
    intros Vy [ND EX] ST NDd DS.
    assert (MD : forall m, In m ds -> M m) by (intros m Hm; now apply DS in Hm).
    pose proof (in_started ds KS ST MD) as IS.
    split.
    - assert (D : forall u, In u K -> ~ In u KS).
      { intros u Hu HS. apply EX in Hu as (j & Pj & A & B & C). apply IS in HS as (m & Hm & S). apply DS in Hm as [Mm Em].
        pose proof (start_P _ _ _ MK _ Mm) as Pm. apply start_level in S as (j' & D & E & F). rewrite <- (side_inj _ _ _ _ _ A E) in *.
        pose proof (level_eq _ _ _ MK _ _ _ D Pm) as G. destruct C as [C|[C1 C2]]; [ord|].
        pose proof (comes_level vs _ _ _ _ D (start_comes _ _ _ MK (fst u) m Mm)) as C3.
        pose proof (comes_fun _ _ _ MK _ _ _ _ C2 Pj C3). discriminate. }
      clear - ND D ST MD NDd MK. pose proof (started_nodup ds KS ST MD NDd) as NS. induction K as [|u K IH]; cbn; auto.
      inversion ND as [|? ? N1 N2]; subst. constructor; [|apply IH; auto; intros; apply D; now right]. rewrite in_app_iff. intros [I|I]; auto. apply (D u); auto. now left.
    - intros [fwd k]. rewrite in_app_iff, EX, IS. cbn [fst snd]. split.
      + intros [(j & Pj & A & B & C)|(m & Hm & S)].
        * exists j. csplit; auto. cbn [fst snd] in *. destruct C as [C|[C _]]; ord.
        * apply DS in Hm as [Mm Em]. pose proof (start_P _ _ _ MK _ Mm) as Pm. apply start_level in S as (j & D & E & F).
          pose proof (level_eq _ _ _ MK _ _ _ D Pm) as G. pose proof (level_P _ _ _ MK _ _ _ D Pm) as Pj. assert (P k) by eauto with nv.
          exists j. cbn [fst snd]. csplit; auto; ord.
      + intros (j & Pj & A & B & C). cbn [fst snd] in *. assert (Pk : P k) by eauto with nv. destruct (n_ltb (Y j) y) eqn:L.
        * left. exists j. cbn [fst snd]. auto.
        * assert (E : n_eqb (Y j) y = true) by ord. destruct (mk_comes _ _ _ MK fwd j Pj) as [[|] Cj].
          -- left. exists j. cbn [fst snd]. csplit; auto.
          -- right. assert (Lk : n_ltb (Y j) (Y k) = true) by ord. destruct (comes_start vs P M MK fwd j k Pj A Lk Cj) as (m & Mm & S & Lv).
             exists m. split; auto. apply DS. split; auto. pose proof (start_P _ _ _ MK _ Mm) as Pm. pose proof (level_eq _ _ _ MK _ _ _ Lv Pm). clear C B. ord.
  Qed.
  (** The first scan line *)
  Lemma step_first y : nvalid y -> (forall x, P x -> n_leb y (Y x) = true) -> exactly (came y) [].
  Proof.
    intros Vy H. split; [constructor|]. intros [fwd k]. cbn [In]. split; [contradiction|]. intros (j & Pj & A & B & [C|[C D]]); cbn [fst snd] in *.
    - pose proof (H j Pj). ord.
    - apply comes_foot in D as (i & k0 & E & F & G). pose proof (level_P' _ _ _ MK _ _ _ G Pj) as Pk0. pose proof (level_eq _ _ _ MK _ _ _ G Pk0).
      assert (Pi : P i) by eauto with nv. pose proof (H i Pi). ord.
  Qed.
  Lemma way_up fwd m : M m -> exists k, start vs fwd m k.
  Proof.
    intros H. pose proof (start_comes _ _ _ MK (negb fwd) m H) as C. clear H. remember false as up. induction C as [i p A B|i p A B C IH]; subst.
    - exists p. apply start_rise; auto. apply side_sym in A. now rewrite negb_involutive in A.
    - destruct IH as [k K]; auto. exists k. apply start_flat with p; auto; [apply side_sym in A; now rewrite negb_involutive in A|now rewrite neq_sym].
  Qed.
End Step.
