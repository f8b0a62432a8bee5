(** Straight pieces add no extrema. *)
From Coq Require Import ZArith Bool List Sorted Lia.
From Verif Require Import Outcome Num Order Rmath Segment Path PathSpec VState VPath VLemmas AelSpec VAelRun RingSpec MarkProofs VRing VBuild MarkSpec BreakSpec ClimbSpec ClimbRing.
Import ListNotations.

Section Straight.
  Context {T : Type} {N : Num T} {O : OrdNum T}.
  Variable Y : nat -> T.
  Notation ok l := (forall i, In i l -> nvalid (Y i)).
  (** Between [i] and [j] the vertices [b] are all level, or all on the way up, or all on the way down. *)
  Definition onway (i : nat) (b : list nat) (j : nat) : Prop :=
    Forall (fun x => n_eqb (Y x) (Y j) = true) (i :: b) \/
    StronglySorted (fun x y => n_ltb (Y x) (Y y) = true) (i :: b ++ [j]) \/
    StronglySorted (fun x y => n_ltb (Y y) (Y x) = true) (i :: b ++ [j]).
  Notation cmpk k x c := ((if k then n_ltb (Y x) (Y c) else n_ltb (Y c) (Y x)) = true).
  (** Lowest or highest *)
  Definition extreme (k : bool) (l : list nat) (v : nat) : Prop :=
    exists n r, turned l v (n :: r) /\ cmpk k v n /\ arrives Y k v (rev (n :: r)).
  Lemma lowest_extreme l v : lowest Y l v <-> extreme true l v.
  Proof. reflexivity. Qed.
  Lemma highest_extreme l v : highest Y l v <-> extreme false l v.
  Proof. reflexivity. Qed.

  Lemma arrives_skip (g : bool) (v : nat) (b : list nat) : forall r, nvalid (Y v) -> ok b -> Forall (fun i => n_eqb (Y i) (Y v) = true) b ->
    (arrives Y g v (b ++ r) <-> arrives Y g v r).
  Proof.
    induction b as [|x b IH]; intros r V OK F; [reflexivity|]. apply Forall_cons_iff in F as [F1 F2].
    assert (Vx : nvalid (Y x)) by (apply OK; now left).
    cbn [app]. rewrite <- (IH r) by (auto; intros i Hi; apply OK; now right). split.
    - intros (e & p & q & E & Fe & L). destruct e as [|y e]; cbn in E; injection E as -> E.
      + apply eq_not_lt in F1 as [F3 F4]; auto. destruct g; congruence.
      + exists e, p, q. apply Forall_cons_iff in Fe as [_ Fe]. auto.
    - intros (e & p & q & E & Fe & L). exists (x :: e), p, q. rewrite E. csplit; auto.
  Qed.
  Lemma arrives_head (g : bool) (v x : nat) (r : list nat) (h : bool) : nvalid (Y v) -> ok (x :: r) -> cmpk h v x -> (arrives Y g v (x :: r) <-> g = h).
  Proof.
    intros V OK C. assert (A : arrives Y h v (x :: r)) by (exists [], x, r; auto). split; [|now intros ->].
    intros B. apply (arrives_fun Y g h v (x :: r)); auto.
  Qed.
  Definition back_new (news : nat -> list nat) (l : list nat) : list nat := flat_map (fun i => rev (news i) ++ [i]) l.
  Lemma rev_with_new news l : rev (with_new news l) = back_new news (rev l).
  Proof.
    unfold with_new, back_new. induction l as [|i l IH]; [reflexivity|]. cbn [flat_map rev]. rewrite rev_app_distr. cbn [rev].
    rewrite IH, flat_map_app. cbn [flat_map]. now rewrite app_nil_r.
  Qed.
  (** The vertices in [pre] (nearest first), each followed by onway steps *)
  Fixpoint steps (news : nat -> list nat) (v : nat) (pre : list nat) : Prop :=
    match pre with
    | [] => True
    | p :: r => onway p (news p) v /\ steps news p r
    end.
  Lemma sorted_ends {A} (R : A -> A -> Prop) i b j : StronglySorted R (i :: b ++ [j]) -> R i j /\ Forall (R i) b /\ Forall (fun x => R x j) b.
  Proof.
    intros S. apply StronglySorted_inv in S as [S F]. apply Forall_app in F as [F1 F2]. inversion F2; subst. csplit; auto.
    clear F1 F2. induction b as [|x b IH]; [constructor|]. cbn [app] in S. apply StronglySorted_inv in S as [S F]. constructor; auto.
    apply Forall_app in F as [_ F]. inversion F; subst. auto.
  Qed.
  Lemma arrives_steps g news pre : forall v0 v, nvalid (Y v0) -> nvalid (Y v) -> n_eqb (Y v) (Y v0) = true -> ok pre -> ok (back_new news pre) ->
    steps news v pre -> (arrives Y g v0 (back_new news pre) <-> arrives Y g v0 pre).
  Proof.
    induction pre as [|p pre IH]; intros v0 v V0 V E OK OK' S; [reflexivity|]. destruct S as [S1 S2]. cbn [back_new flat_map] in *.
    fold (back_new news pre) in *.
    assert (Vp : nvalid (Y p)) by (apply OK; now left).
    assert (OKn : ok (rev (news p))) by (intros i Hi; apply OK'; apply in_or_app; left; apply in_or_app; now left).
    destruct S1 as [S1|S1].
    - apply Forall_cons_iff in S1 as [S1 S3].
      assert (Ep : n_eqb (Y p) (Y v0) = true) by (apply (neq_trans _ (Y v)); auto).
      assert (Fb : Forall (fun i => n_eqb (Y i) (Y v0) = true) (rev (news p) ++ [p])).
      { apply Forall_app. split; [|now constructor]. apply Forall_forall. intros i Hi. rewrite Forall_forall in S3.
        apply (neq_trans _ (Y v)); auto. apply S3. now apply in_rev. }
      rewrite (arrives_skip g v0 _ (back_new news pre)); auto.
      2: { intros i Hi. apply OK'. apply in_or_app. now left. }
      change (p :: pre) with ([p] ++ pre). rewrite (arrives_skip g v0 [p] pre); auto.
      2: { intros i [<-|[]]. auto. }
      apply (IH v0 p); auto.
      + intros i Hi. apply OK. now right.
      + intros i Hi. apply OK'. apply in_or_app. now right.
    - assert (K : exists (h : bool) x r, rev (news p) ++ [p] = x :: r /\ cmpk h v0 x /\ cmpk h v0 p).
      { assert (X : exists x r, rev (news p) ++ [p] = x :: r /\ (In x (news p) \/ x = p)).
        { destruct (rev (news p)) as [|x r] eqn:R; [exists p, []; auto|]. exists x, (r ++ [p]). split; auto. left. apply in_rev. rewrite R. now left. }
        destruct X as (x & r & X & Hx).
        assert (Vx : nvalid (Y x)). { apply OK'. apply in_or_app. left. rewrite X. now left. }
        destruct S1 as [S1|S1]; apply sorted_ends in S1 as (S1 & _ & S3); rewrite Forall_forall in S3.
        - exists false, x, r. csplit; auto.
          + assert (L : n_ltb (Y x) (Y v) = true) by (destruct Hx as [Hx| ->]; auto). apply (nlt_eq_trans _ (Y v)); auto.
          + apply (nlt_eq_trans _ (Y v)); auto.
        - exists true, x, r. csplit; auto.
          + assert (L : n_ltb (Y v) (Y x) = true) by (destruct Hx as [Hx| ->]; auto). apply (neq_lt_trans _ (Y v)); auto. now rewrite neq_sym.
          + apply (neq_lt_trans _ (Y v)); auto. now rewrite neq_sym. }
      destruct K as (h & x & r & X & K1 & K2). rewrite X in *. cbn [app] in *.
      rewrite (arrives_head g v0 x _ h), (arrives_head g v0 p pre h); auto. reflexivity.
  Qed.

  (** *** Rings *)
  Variable news : nat -> list nat.
  Variable l : list nat.
  Notation L := (with_new news l).
  Hypothesis ND : NoDup L.
  Hypothesis OK : ok L.
  Hypothesis ST : forall i j r, turned l i (j :: r) -> onway i (news i) j.
  Lemma with_new_app a b : with_new news (a ++ b) = with_new news a ++ with_new news b.
  Proof. apply flat_map_app. Qed.
  Lemma turned_new i rest : turned l i rest -> turned L i (news i ++ with_new news rest).
  Proof.
    intros (a & b & -> & ->). exists (with_new news a), (news i ++ with_new news b). rewrite !with_new_app. cbn [with_new flat_map]. split.
    - reflexivity.
    - now rewrite app_assoc.
  Qed.
  Lemma nodup_split {A} (a b a' b' : list A) x : NoDup (a ++ x :: b) -> a ++ x :: b = a' ++ x :: b' -> a = a' /\ b = b'.
  Proof.
    revert a'. induction a as [|y a IH]; intros a' H E; destruct a' as [|y' a']; cbn in *.
    - injection E as ->. auto.
    - injection E as <- ->. inversion H; subst. exfalso. apply H2. apply in_or_app. right. now left.
    - injection E as -> E. inversion H; subst. exfalso. apply H2. apply in_or_app. right. now left.
    - injection E as -> E. inversion H; subst. destruct (IH a') as [-> ->]; auto.
  Qed.
  Lemma turned_unique (k : list nat) v r1 r2 : NoDup k -> turned k v r1 -> turned k v r2 -> r1 = r2.
  Proof.
    intros H (a & b & E1 & ->) (a' & b' & E2 & ->). rewrite E1 in H, E2. destruct (nodup_split _ _ _ _ _ H E2) as [-> ->]. reflexivity.
  Qed.
  Lemma turned_steps rest : forall i, turned l i rest -> steps news i (rev rest).
  Proof.
    assert (K : forall pre i post, turned l i (rev pre ++ post) -> steps news (hd i post) pre).
    { induction pre as [|p pre IH]; intros i post H; [exact I|]. cbn [rev steps] in *. rewrite <- app_assoc in H. cbn [app] in H. split.
      - pose proof (turned_on _ _ _ _ _ _ H eq_refl) as H'. destruct post as [|j post]; cbn [hd app] in *; eapply ST; eauto.
      - apply (IH i (p :: post)). exact H. }
    intros i H. apply (K (rev rest) i []). rewrite rev_involutive, app_nil_r. exact H.
  Qed.
  Lemma old_in i : In i l -> In i L.
  Proof. intros H. apply in_flat_map. exists i. split; auto. now left. Qed.
  Lemma turned_in i rest j : turned l i rest -> In j (i :: rest) -> In j l.
  Proof. intros (a & b & -> & ->) H. cbn in H. rewrite in_app_iff in *. cbn. tauto. Qed.
  Lemma extreme_old k i j r : turned l i (j :: r) -> (extreme k L i <-> extreme k l i).
  Proof.
    intros TR. pose proof (turned_new _ _ TR) as TN.
    assert (NDl : NoDup l).
    { clear - ND. unfold with_new in ND. induction l as [|x t IH]; [constructor|]. cbn [flat_map app] in ND. inversion ND as [|? ? A B]; subst. constructor.
      - intros H. apply A. apply in_or_app. right. apply in_flat_map. exists x. split; auto. now left.
      - apply IH. clear - B. induction (news x); auto. inversion B; auto. }
    assert (Oi : nvalid (Y i)) by (apply OK, old_in, (turned_in _ _ _ TR); now left).
    assert (Oj : nvalid (Y j)) by (apply OK, old_in, (turned_in _ _ _ TR); right; now left).
    assert (Hn : forall x, In x (news i) -> nvalid (Y x)).
    { intros x Hx. apply OK. apply in_flat_map. exists i. split; [apply (turned_in _ _ _ TR); now left|now right]. }
    assert (NX : exists n q, news i ++ with_new news (j :: r) = n :: q /\ (cmpk k i n <-> cmpk k i j)).
    { pose proof (ST _ _ _ TR) as S. cbn [with_new flat_map app]. destruct (news i) as [|x b]; [eexists _, _; split; [reflexivity|]; reflexivity|].
      eexists _, _. split; [reflexivity|]. assert (Vx : nvalid (Y x)) by (apply Hn; now left). destruct S as [S|[S|S]].
      - apply Forall_cons_iff in S as [S1 S]. apply Forall_cons_iff in S as [S2 _].
        assert (E : n_eqb (Y i) (Y x) = true) by (apply (neq_trans _ (Y j)); auto; now rewrite neq_sym).
        apply eq_not_lt in E as [E1 E2]; auto. apply eq_not_lt in S1 as [S3 S4]; auto. destruct k; rewrite ?E1, ?E2, ?S3, ?S4; reflexivity.
      - apply sorted_ends in S as (S1 & S2 & _). inversion S2; subst. destruct k; [tauto|].
        rewrite (lt_asym (Y i) (Y x)), (lt_asym (Y i) (Y j)); auto. reflexivity.
      - apply sorted_ends in S as (S1 & S2 & _). inversion S2; subst. destruct k; [|tauto].
        rewrite (lt_asym (Y x) (Y i)), (lt_asym (Y j) (Y i)); auto. reflexivity. }
    assert (AR : arrives Y k i (rev (news i ++ with_new news (j :: r))) <-> arrives Y k i (rev (j :: r))).
    { rewrite rev_app_distr, rev_with_new.
      assert (Okp : ok (rev (j :: r))). { intros x Hx. apply OK, old_in, (turned_in _ _ _ TR). right. now apply in_rev. }
      assert (Okb : ok (back_new news (rev (j :: r)))).
      { intros x Hx. rewrite <- rev_with_new in Hx. apply in_rev in Hx. apply OK. apply in_flat_map in Hx as (y & H1 & H2). apply in_flat_map.
        exists y. split; auto. apply (turned_in _ _ _ TR). now right. }
      rewrite <- (arrives_steps k news (rev (j :: r)) i i) by (auto using neq_refl, turned_steps).
      split; [|apply arrives_more]. intros A.
      destruct (forallb (fun x => n_eqb (Y x) (Y i)) (back_new news (rev (j :: r)))) eqn:F.
      - apply (arrives_less Y k i _ (rev (news i))); auto.
        + rewrite forallb_forall in F. assert (Ej : n_eqb (Y j) (Y i) = true).
          { apply F. rewrite <- rev_with_new. apply -> in_rev. cbn [with_new flat_map]. now left. }
          pose proof (ST _ _ _ TR) as S. destruct S as [S|[S|S]].
          * apply Forall_cons_iff in S as [S1 S2]. apply Forall_forall. intros x Hx. rewrite Forall_forall in S2.
            apply in_rev in Hx. apply (neq_trans _ (Y j)); auto.
          * apply sorted_ends in S as (S1 & _). apply eq_not_lt in Ej as [E1 E2]; auto. congruence.
          * apply sorted_ends in S as (S1 & _). apply eq_not_lt in Ej as [E1 E2]; auto. congruence.
        + intros x Hx. apply Hn. now apply in_rev.
      - now apply (arrives_prefix Y k i (rev (news i))). }
    destruct NX as (n & q & NX & C). rewrite NX in *. split.
    - intros (n' & r' & T1 & T2 & T3). pose proof (turned_unique _ _ _ _ ND T1 TN) as E. injection E as -> ->.
      exists j, r. tauto.
    - intros (n' & r' & T1 & T2 & T3). pose proof (turned_unique _ _ _ _ NDl T1 TR) as E. injection E as -> ->.
      exists n, q. tauto.
  Qed.
  Lemma extreme_new k i j r x : turned l i (j :: r) -> In x (news i) -> ~ extreme k L x.
  Proof.
    intros TR Hx (n & q & T1 & T2 & T3). apply in_split in Hx as (b1 & b2 & Hb).
    pose proof (turned_new _ _ TR) as TN. rewrite Hb, <- app_assoc in TN. cbn [app] in TN.
    pose proof (turned_on _ _ _ _ _ _ TN eq_refl) as TX. pose proof (turned_unique _ _ _ _ ND T1 TX) as E.
    assert (Hin : forall y, In y (i :: news i ++ [j]) -> nvalid (Y y)).
    { intros y [<-|Hy]; [apply OK, old_in, (turned_in _ _ _ TR); now left|]. apply in_app_or in Hy as [Hy|[<-|[]]].
      - apply OK. apply in_flat_map. exists i. split; [apply (turned_in _ _ _ TR); now left|now right].
      - apply OK, old_in, (turned_in _ _ _ TR). right. now left. }
    assert (Vx : nvalid (Y x)) by (apply Hin; right; apply in_or_app; left; rewrite Hb; apply in_or_app; right; now left).
    assert (Hn : n = hd j b2) by (destruct b2; cbn in E; injection E as -> _; reflexivity).
    assert (Hnin : In n (i :: news i ++ [j])).
    { rewrite Hn, Hb. right. destruct b2; cbn [hd]; apply in_or_app; [right; now left|left; apply in_or_app; right; right; now left]. }
    assert (Hp : exists q', rev (n :: q) = last b1 i :: q').
    { rewrite E, rev_app_distr. cbn [rev]. destruct (list_eq_nil b1) as [->|NE]; [eexists; reflexivity|].
      destruct (exists_last NE) as (b & p & ->). rewrite last_last, rev_app_distr. eexists. reflexivity. }
    destruct Hp as (q' & Hp). rewrite Hp in T3.
    assert (Hpin : In (last b1 i) (i :: news i ++ [j])).
    { destruct (last_in b1 i) as [<-|K]; [now left|]. right. rewrite Hb. apply in_or_app. left. apply in_or_app. now left. }
    assert (A : forall h : bool, cmpk h x (last b1 i) -> k = h).
    { intros h Hh. apply (arrives_head k x (last b1 i) q' h); auto.
      intros y Hy. rewrite <- Hp in Hy. apply in_rev in Hy. destruct T1 as (a & b & T1 & T1'). apply OK. rewrite T1. rewrite T1' in Hy.
      rewrite in_app_iff in *. cbn. tauto. }
    assert (Vp := Hin _ Hpin). assert (Vn := Hin _ Hnin).
    destruct (ST _ _ _ TR) as [S|S].
    - assert (En : forall y, In y (i :: news i) -> n_eqb (Y y) (Y j) = true) by (intros y; rewrite Forall_forall in S; auto).
      assert (Ex : n_eqb (Y x) (Y j) = true) by (apply En; right; rewrite Hb; apply in_or_app; right; now left).
      assert (E' : n_eqb (Y x) (Y n) = true).
      { destruct b2 as [|y b2]; cbn in Hn; subst n; auto. assert (Vj : nvalid (Y j)) by (apply Hin; right; apply in_or_app; right; now left).
        apply (neq_trans _ (Y j)); auto.
        rewrite neq_sym. apply En. right. rewrite Hb. apply in_or_app. right. right. now left. }
      apply eq_not_lt in E' as [E1 E2]; auto. destruct k; congruence.
    - assert (P : forall (R : nat -> nat -> Prop), StronglySorted R (i :: news i ++ [j]) -> R (last b1 i) x /\ R x n).
      { intros R HS. rewrite Hb, <- app_assoc, app_comm_cons in HS. cbn [app] in HS.
        assert (P1 : forall a x t, StronglySorted R (a ++ x :: t) -> a <> [] -> R (last a i) x /\ (forall z, In z t -> R x z)).
        { induction a as [|y a IH]; intros z t HS' NE; [congruence|]. cbn [app] in HS'. apply StronglySorted_inv in HS' as [S1 S2].
          destruct a as [|w a].
          - cbn. cbn in S1, S2. inversion S2; subst. split; auto. apply StronglySorted_inv in S1 as [_ S3]. rewrite Forall_forall in S3. auto.
          - rewrite last_cons. destruct (IH z t) as [I1 I2]; auto; [discriminate|]. rewrite last_cons in *. split; auto. }
        destruct (P1 (i :: b1) x (b2 ++ [j]) HS) as [P2 P3]; [discriminate|]. rewrite last_cons in P2. split; auto. apply P3.
        rewrite Hn. destruct b2; cbn; auto. }
      destruct S as [S|S]; apply P in S as [S1 S2].
      + assert (k = false) as -> by (apply A; exact S1). apply lt_asym in S2; auto. congruence.
      + assert (k = true) as -> by (apply A; exact S1). apply lt_asym in S2; auto. congruence.
  Qed.
End Straight.
