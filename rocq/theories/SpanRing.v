(** The ways up along marked contours. *)
From Coq Require Import ZArith Bool List Lia.
From Verif Require Import Outcome Num Order OrdTac Rmath Segment VState VPath VLemmas VAel RingSpec AelSpec ClimbSpec SpanSpec.
Import ListNotations.

Section Ways.
  Context {T : Type} {N : Num T} {O : OrdNum T}.
  Variable vs : list (vertex T).
  Notation Y := (height vs).
  (** Walking against [fwd] from a vertex, the first one at another height is lower
      ([up]: the contour comes up to the vertex) or higher. *)
  Inductive comes (up fwd : bool) : nat -> Prop :=
  | comes_here i p : side vs fwd p i -> (if up then n_ltb (Y p) (Y i) else n_ltb (Y i) (Y p)) = true -> comes up fwd i
  | comes_flat i p : side vs fwd p i -> n_eqb (Y p) (Y i) = true -> comes up fwd p -> comes up fwd i.
  (** The vertices on the contours [P], those where the sweep starts [M] *)
  Record marked (P M : nat -> Prop) : Prop := {
    mk_some : forall i, P i -> exists v, nth_error vs i = Some v;
    mk_side : forall fwd i, P i -> exists j, P j /\ side vs fwd i j;
    mk_valid : forall i, P i -> nvalid (Y i);
    mk_comes : forall fwd i, P i -> exists up, comes up fwd i;
    mk_max : forall i v, P i -> nth_error vs i = Some v -> v_max v = true -> comes true true i /\ comes true false i;
    mk_min : forall i, M i <-> P i /\ comes false true i /\ exists n, side vs true i n /\ n_ltb (Y i) (Y n) = true
  }.
  (** From [k], at the height of the scan line: the next vertex that is higher, or
      none if a maximum comes first *)
  Inductive adv (fwd : bool) : nat -> option nat -> Prop :=
  | adv_gone k v : nth_error vs k = Some v -> v_max v = true -> adv fwd k None
  | adv_rise k v k' : nth_error vs k = Some v -> v_max v = false -> side vs fwd k k' -> n_ltb (Y k) (Y k') = true -> adv fwd k (Some k')
  | adv_flat k v k' r : nth_error vs k = Some v -> v_max v = false -> side vs fwd k k' -> n_eqb (Y k) (Y k') = true -> adv fwd k' r -> adv fwd k r.
  (** The same without looking at the marks *)
  Inductive start (fwd : bool) : nat -> nat -> Prop :=
  | start_rise k k' : side vs fwd k k' -> n_ltb (Y k) (Y k') = true -> start fwd k k'
  | start_flat k k' r : side vs fwd k k' -> n_eqb (Y k) (Y k') = true -> start fwd k' r -> start fwd k r.
  (** A level way *)
  Inductive level (fwd : bool) : nat -> nat -> Prop :=
  | level_here k : level fwd k k
  | level_step k k' j : side vs fwd k k' -> n_eqb (Y k) (Y k') = true -> level fwd k' j -> level fwd k j.

  Lemma side_sym fwd j k : side vs fwd j k -> side vs (negb fwd) k j.
  Proof. intros (v & w & A & B & C & D). exists w, v. rewrite negb_involutive. auto. Qed.
  Lemma side_fun fwd j k k' : side vs fwd j k -> side vs fwd j k' -> k = k'.
  Proof. intros (v & w & A & _ & B & _) (v' & w' & A' & _ & B' & _). congruence. Qed.
  Lemma side_inj fwd j j' k : side vs fwd j k -> side vs fwd j' k -> j = j'.
  Proof. intros A B. apply side_sym in A, B. eapply side_fun; eauto. Qed.

  Variables P M : nat -> Prop.
  Hypothesis MK : marked P M.
  Lemma side_P fwd i j : P i -> side vs fwd i j -> P j.
  Proof. intros A B. destruct (mk_side _ _ MK fwd i A) as (j' & C & D). rewrite (side_fun _ _ _ _ B D). auto. Qed.
  Lemma side_P' fwd i j : P j -> side vs fwd i j -> P i.
  Proof. intros A B. apply side_sym in B. eapply side_P; eauto. Qed.
  Let valid := mk_valid _ _ MK.
  Hint Resolve valid side_P side_P' : nv.

  Lemma comes_fun up up' fwd i : comes up fwd i -> P i -> comes up' fwd i -> up = up'.
  Proof.
    induction 1 as [i p A B|i p A B _ IH]; intros Pi H; assert (Pp : P p) by eauto with nv.
    - inversion H as [? p' A' B'|? p' A' B' _]; subst; rewrite <- (side_inj _ _ _ _ A A') in *;
        destruct up; try destruct up'; auto; exfalso; ord.
    - inversion H as [? p' A' B'|? p' A' B' C]; subst; rewrite <- (side_inj _ _ _ _ A A') in *; auto.
      destruct up'; exfalso; ord.
  Qed.
  Lemma level_P fwd i j : level fwd i j -> P i -> P j.
  Proof. induction 1; eauto with nv. Qed.
  Lemma level_P' fwd i j : level fwd i j -> P j -> P i.
  Proof. induction 1; eauto with nv. Qed.
  Lemma level_eq fwd i j : level fwd i j -> P i -> n_eqb (Y i) (Y j) = true.
  Proof.
    induction 1 as [k|k k' j A B L IH]; intros Pi; [ord|]. assert (Pk : P k') by eauto with nv. pose proof (level_P _ _ _ L Pk).
    specialize (IH Pk). ord.
  Qed.
  Lemma level_trans fwd i j k : level fwd i j -> level fwd j k -> level fwd i k.
  Proof. induction 1; intros; auto. eapply level_step; eauto. Qed.
  Lemma level_snoc fwd i j k : level fwd i j -> side vs fwd j k -> n_eqb (Y j) (Y k) = true -> level fwd i k.
  Proof. intros A B C. eapply level_trans; [exact A|]. eapply level_step; eauto. apply level_here. Qed.
  Lemma level_sym fwd i j : level fwd i j -> level (negb fwd) j i.
  Proof. induction 1; [apply level_here|]. eapply level_snoc; eauto; [now apply side_sym|]. now rewrite neq_sym. Qed.
  Lemma level_last fwd i j : level fwd i j -> i = j \/ exists p, level fwd i p /\ side vs fwd p j /\ n_eqb (Y p) (Y j) = true.
  Proof.
    induction 1 as [k|k k' j A B L IH]; auto. right. destruct IH as [->|(p & C & D & E)].
    - exists k. csplit; auto. apply level_here.
    - exists p. csplit; auto. eapply level_step; eauto.
  Qed.
  Lemma comes_level up fwd i j : level fwd i j -> comes up fwd i -> comes up fwd j.
  Proof. induction 1; intros C; auto. apply IHlevel. eapply comes_flat; eauto. Qed.
  Lemma comes_back up fwd i j : level fwd i j -> comes up fwd j -> P i -> comes up fwd i.
  Proof.
    induction 1 as [|k k' j A B L IH]; intros C Pk; auto. assert (Pk' : P k') by eauto with nv.
    specialize (IH C Pk'). inversion IH as [? p A' B'|? p A' B' D]; subst; rewrite <- (side_inj _ _ _ _ A A') in *; auto.
    destruct up; exfalso; ord.
  Qed.
  (** Two level ways to one vertex: one is part of the other. *)
  Lemma level_join fwd i i' j : level fwd i j -> level fwd i' j -> level fwd i i' \/ level fwd i' i.
  Proof.
    intros A. revert i'. induction A as [k|k k' j A B L IH]; intros i' H; auto.
    apply IH in H as [H|H]; [left; eapply level_step; eauto|].
    destruct (level_last _ _ _ H) as [->|(p & C & D & E)]; [left; eapply level_step; eauto; apply level_here|].
    rewrite (side_inj _ _ _ _ D A) in *. auto.
  Qed.

  Lemma adv_fun fwd k r r' : adv fwd k r -> P k -> adv fwd k r' -> r = r'.
  Proof.
    induction 1 as [k v A B|k v k' A B C D|k v k' r A B C D E IH]; intros Pk H;
      inversion H as [? v' A' B'|? v' j' A' B' C' D'|? v' j' r0 A' B' C' D' E']; subst; rewrite A in A'; injection A' as <-; try congruence.
    all: rewrite <- (side_fun _ _ _ _ C C') in *; assert (P k') by eauto with nv; auto; exfalso; ord.
  Qed.
  Lemma adv_level fwd k k' : adv fwd k (Some k') -> exists j, level fwd k j /\ side vs fwd j k' /\ n_ltb (Y j) (Y k') = true.
  Proof.
    intros H. remember (Some k') as r. induction H as [|k v j A B C D|k v j r A B C D E IH]; try discriminate.
    - injection Heqr as ->. exists k. csplit; auto. apply level_here.
    - destruct (IH Heqr) as (i & F & G & K). exists i. csplit; auto. eapply level_step; eauto.
  Qed.
  Lemma start_level fwd k k' : start fwd k k' <-> exists j, level fwd k j /\ side vs fwd j k' /\ n_ltb (Y j) (Y k') = true.
  Proof.
    split.
    - induction 1 as [k k' A B|k k' r A B C (i & F & G & K)].
      + exists k. csplit; auto. apply level_here.
      + exists i. csplit; auto. eapply level_step; eauto.
    - intros (j & A & B & C). induction A; [eapply start_rise; eauto|eapply start_flat; eauto].
  Qed.
  (** Up, level and up again: no maximum on the way. *)
  Lemma adv_level' fwd k j k' : P k -> comes true fwd k -> level fwd k j -> side vs fwd j k' -> n_ltb (Y j) (Y k') = true ->
    adv fwd k (Some k').
  Proof.
    intros Pk Ck A B D. induction A as [k|k m j A E L IH].
    - destruct (mk_some _ _ MK k Pk) as [v V]. destruct (v_max v) eqn:X; [exfalso|eapply adv_rise; eauto].
      destruct (mk_max _ _ MK k v Pk V X) as [X1 X2].
      assert (comes false (negb fwd) k) as X3 by (apply comes_here with k'; auto; now apply side_sym).
      destruct fwd; cbn in X3; [pose proof (comes_fun _ _ _ _ X3 Pk X2)|pose proof (comes_fun _ _ _ _ X3 Pk X1)]; discriminate.
    - assert (Pm : P m) by eauto with nv. destruct (mk_some _ _ MK k Pk) as [v V]. destruct (v_max v) eqn:X.
      + exfalso. destruct (mk_max _ _ MK k v Pk V X) as [X1 X2].
        assert (comes false (negb fwd) k) as X3.
        { apply comes_level with j; [apply level_sym; eapply level_step; eauto|]. apply comes_here with k'; auto. now apply side_sym. }
        destruct fwd; cbn in X3; [pose proof (comes_fun _ _ _ _ X3 Pk X2)|pose proof (comes_fun _ _ _ _ X3 Pk X1)]; discriminate.
      + eapply adv_flat; eauto. apply IH; auto. eapply comes_flat; eauto.
  Qed.
  (** The foot of a level way that is entered from below *)
  Lemma comes_foot fwd j : comes true fwd j -> exists i k, side vs fwd i k /\ n_ltb (Y i) (Y k) = true /\ level fwd k j.
  Proof.
    intros H. remember true as up eqn:U in H. induction H as [j p A B|j p A B C IH]; subst.
    - exists p, j. csplit; auto. apply level_here.
    - destruct IH as (i & k & D & E & F); auto. exists i, k. csplit; auto. eapply level_snoc; eauto.
  Qed.
  (** and from above: there is a start on it. *)
  Lemma comes_start fwd j k : P j -> side vs fwd j k -> n_ltb (Y j) (Y k) = true -> comes false fwd j -> exists m, M m /\ start fwd m k /\ level fwd m j.
  Proof.
    intros Pj A B C. destruct fwd.
    - exists j. csplit; [|eapply start_rise; eauto|apply level_here]. apply (mk_min _ _ MK). csplit; eauto.
    - assert (X : comes false true j) by (apply comes_here with k; auto; now apply side_sym in A).
      assert (K : exists m, M m /\ level false m j).
      { clear A B k. remember false as up in C at 1. induction C as [j p A B|j p A B C IH]; subst.
        - exists j. split; [|apply level_here]. apply (mk_min _ _ MK). csplit; auto. exists p. split; auto. now apply side_sym in A.
        - assert (Pp : P p) by eauto with nv. destruct IH as (m & D & E); auto.
          + apply comes_flat with j; auto; [now apply side_sym in A|now rewrite neq_sym].
          + exists m. split; auto. eapply level_snoc; eauto. }
      destruct K as (m & Mm & L). exists m. csplit; auto. apply start_level. eauto.
  Qed.
  Lemma start_comes fwd m : M m -> comes false fwd m.
  Proof.
    intros H. apply (mk_min _ _ MK) in H as (A & B & n & C & D). destruct fwd; auto. apply comes_here with n; auto. now apply side_sym in C.
  Qed.
  Lemma start_P m : M m -> P m.
  Proof. intros H. now apply (mk_min _ _ MK) in H. Qed.
  (** Different starts have different ways up. *)
  Lemma start_unique fwd m m' k : M m -> M m' -> start fwd m k -> start fwd m' k -> m = m'.
  Proof.
    intros A B C D. pose proof (start_P _ A) as Pm. pose proof (start_P _ B) as Pm'.
    apply (mk_min _ _ MK) in A as (_ & _ & n & A1 & A2). apply (mk_min _ _ MK) in B as (_ & _ & n' & B1 & B2).
    apply start_level in C as (j & C1 & C2 & C3). apply start_level in D as (j' & D1 & D2 & D3).
    rewrite <- (side_inj _ _ _ _ C2 D2) in *.
    assert (K : forall m m' n n', P m -> P m' -> side vs true m n -> n_ltb (Y m) (Y n) = true -> side vs true m' n' -> n_ltb (Y m') (Y n') = true ->
      level fwd m m' -> m = m').
    { clear - MK valid O. intros m m' n n' Pm Pm' A1 A2 B1 B2 L. destruct fwd.
      - inversion L as [|? p ? E F G]; auto. subst. rewrite (side_fun _ _ _ _ E A1) in *. assert (P n) by eauto with nv. exfalso. ord.
      - destruct (level_last _ _ _ L) as [->|(p & _ & E & F)]; auto. apply side_sym in E. cbn in E. rewrite (side_fun _ _ _ _ E B1) in *.
        assert (P n') by eauto with nv. exfalso. ord. }
    destruct (level_join _ _ _ _ C1 D1) as [L|L]; [eapply K; eauto|symmetry; eapply K with (m := m') (m' := m); eauto].
  Qed.
  Lemma start_fun fwd m k k' : P m -> start fwd m k -> start fwd m k' -> k = k'.
  Proof.
    intros Pm A. revert Pm. induction A as [m k A B|m k r A B C IH]; intros Pm H;
      inversion H as [? j A' B'|? j ? A' B' C']; subst; rewrite <- (side_fun _ _ _ _ A A') in *; assert (P k) by eauto with nv; auto; exfalso; ord.
  Qed.
  (** Different edges go on to different vertices. *)
  Lemma adv_unique fwd i i' k k' r : P i -> P i' -> side vs fwd i k -> side vs fwd i' k' -> n_ltb (Y i) (Y k) = true -> n_ltb (Y i') (Y k') = true ->
    adv fwd k (Some r) -> adv fwd k' (Some r) -> k = k'.
  Proof.
    intros Pi Pi' A A' B B' C C'. apply adv_level in C as (j & C1 & C2 & C3). apply adv_level in C' as (j' & D1 & D2 & D3).
    rewrite <- (side_inj _ _ _ _ C2 D2) in *.
    assert (K : forall i i' k k', P i -> P i' -> side vs fwd i k -> side vs fwd i' k' -> n_ltb (Y i) (Y k) = true -> n_ltb (Y i') (Y k') = true ->
      level fwd k k' -> k = k').
    { clear - MK valid O. intros i i' k k' Pi Pi' A A' B B' L. destruct (level_last _ _ _ L) as [->|(p & _ & E & F)]; auto.
      rewrite (side_inj _ _ _ _ E A') in *. assert (P k') by eauto with nv. exfalso. ord. }
    destruct (level_join _ _ _ _ C1 D1) as [L|L]; [apply (K i i' k k'); auto|symmetry; apply (K i' i k' k); auto].
  Qed.
  Lemma adv_start fwd i k m r : P i -> side vs fwd i k -> n_ltb (Y i) (Y k) = true -> adv fwd k (Some r) -> M m -> start fwd m r -> False.
  Proof.
    intros Pi A B C D E. apply adv_level in C as (j & C1 & C2 & C3). apply start_level in E as (j' & E1 & E2 & E3).
    rewrite <- (side_inj _ _ _ _ C2 E2) in *. assert (Pk : P k) by eauto with nv.
    assert (X1 : comes true fwd j) by (eapply comes_level; [exact C1|]; eapply comes_here; eauto).
    assert (X2 : comes false fwd j) by (eapply comes_level; [exact E1|]; now apply start_comes).
    pose proof (comes_fun _ _ _ _ X1 (level_P _ _ _ C1 Pk) X2). discriminate.
  Qed.

  (** Nothing lies between two scan lines: [lo] are the vertices above the old one. *)
  Variable lo : nat -> bool.
  Variable z : T.
  Hypothesis Vz : nvalid z.
  Hypothesis lo_eq : forall i j, P i -> P j -> n_eqb (Y i) (Y j) = true -> lo i = true -> lo j = true.
  Hypothesis lo_min : forall m, M m -> lo m = true -> n_leb z (Y m) = true.
  Hypothesis lo_side : forall fwd i k, P i -> side vs fwd i k -> n_ltb (Y i) (Y k) = true -> lo i = false -> lo k = true -> n_leb z (Y k) = true.
  Definition below (x : nat) : list nat := filter (fun i => match nth_error vs i with Some v => n_ltb (vy (v_pt v)) (Y x) | None => false end) (seq 0 (length vs)).
  Lemma filter_le {A} (f g : A -> bool) l : (forall x, In x l -> f x = true -> g x = true) -> length (filter f l) <= length (filter g l).
  Proof.
    induction l as [|x l IH]; intros H; cbn; [lia|]. assert (IH' := IH (fun y Hy => H y (or_intror Hy))).
    destruct (f x) eqn:F; [rewrite (H x (or_introl eq_refl) F); cbn; lia|]. destruct (g x); cbn; lia.
  Qed.
  Lemma filter_lt {A} (f g : A -> bool) l x : In x l -> f x = false -> g x = true -> (forall x, In x l -> f x = true -> g x = true) ->
    length (filter f l) < length (filter g l).
  Proof.
    induction l as [|y l IH]; intros I F G H; [contradiction|]. cbn. destruct I as [->|I].
    - rewrite F, G. cbn. apply le_n_S. apply filter_le. intros; apply H; auto. now right.
    - assert (IH' := IH I F G (fun y Hy => H y (or_intror Hy))). destruct (f y) eqn:FY; [rewrite (H y (or_introl eq_refl) FY); cbn; lia|]. destruct (g y); cbn; lia.
  Qed.
  Hypothesis all_valid : forall v, In v vs -> nvalid (vy (v_pt v)).
  Lemma below_lt i x : P i -> P x -> n_ltb (Y i) (Y x) = true -> length (below i) < length (below x).
  Proof.
    intros Pi Px L. destruct (mk_some _ _ MK i Pi) as [v V]. assert (Ei : Y i = vy (v_pt v)) by (unfold height; now rewrite V).
    apply (filter_lt _ _ _ i).
    - apply in_seq. apply nth_lt in V. lia.
    - rewrite V, <- Ei. apply nlt_irrefl.
    - rewrite V, <- Ei. exact L.
    - intros k _ K. destruct (nth_error vs k) as [w|] eqn:W; auto. apply nth_error_In in W. apply all_valid in W. ord.
  Qed.
  Lemma nothing_below : forall x, P x -> lo x = true -> n_leb z (Y x) = true.
  Proof.
    assert (K : forall n x, length (below x) <= n -> P x -> lo x = true -> n_leb z (Y x) = true).
    { induction n as [n IH] using lt_wf_ind. intros x L Px Lx.
      assert (Dn : forall fwd, comes true fwd x -> n_leb z (Y x) = true).
      { intros fwd C. destruct (comes_foot _ _ C) as (i & k & A & B & D). pose proof (level_P' _ _ _ D Px) as Pk.
        assert (Pi : P i) by eauto with nv. pose proof (level_eq _ _ _ D Pk) as E.
        assert (Lk : lo k = true) by (apply (lo_eq x k); auto; now rewrite neq_sym).
        assert (n_leb z (Y k) = true); [|ord]. destruct (lo i) eqn:Li.
        - assert (n_ltb (Y i) (Y x) = true) as Lt by ord. pose proof (below_lt i x Pi Px Lt) as S.
          assert (n_leb z (Y i) = true) by (apply (IH (length (below i))); auto; lia). ord.
        - eapply lo_side; eauto. }
      destruct (mk_comes _ _ MK true x Px) as [[|] Ct]; [eauto|]. destruct (mk_comes _ _ MK false x Px) as [[|] Cf]; [eauto|].
      assert (X : exists m, M m /\ level false m x).
      { clear - MK Ct Cf Px. remember false as up in Cf at 1. induction Cf as [j p A B|j p A B C IH]; subst.
        - exists j. split; [|apply level_here]. apply (mk_min _ _ MK). csplit; auto. exists p. split; auto. now apply side_sym in A.
        - assert (Pp : P p) by (eapply side_P'; eauto). destruct IH as (m & D & E); auto.
          + apply comes_flat with j; auto; [now apply side_sym in A|now rewrite neq_sym].
          + exists m. split; auto. eapply level_snoc; eauto. }
      destruct X as (m & Mm & L'). pose proof (start_P _ Mm) as Pm. pose proof (level_eq _ _ _ L' Pm) as E.
      assert (lo m = true) by (apply (lo_eq x m); auto; now rewrite neq_sym). pose proof (lo_min m Mm H). ord. }
    intros x. now apply (K (length (below x))).
  Qed.
End Ways.
