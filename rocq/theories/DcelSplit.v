(** Splitting faces at repeated points. *)
From Coq Require Import ZArith Bool List Permutation Lia.
From Verif Require Import Outcome Num Order Rmath RectSpec ScanLine VState VLemmas VAelProofs SortProofs MarkProofs.
From Verif Require Import Dcel DcelSpec DcelBase DcelBreak DcelFace DcelLink.
Import ListNotations.
Local Open Scope out.

Lemma forall2_len {A B} (P : A -> B -> Prop) l l' : Forall2 P l l' -> length l = length l'.
Proof. induction 1; cbn; auto. Qed.
Lemma snoc_app {A} (l1 : list A) x l2 : l1 ++ x :: l2 = (l1 ++ [x]) ++ l2.
Proof. now rewrite <- app_assoc. Qed.

Section Split.
  Context {T : Type} {N : Num T}.
  Implicit Types d : dcel T.

  (** decl.cpp:450-464: the state after the split *)
  Definition resplit d (e1 e2 e3 e4 : nat) : dcel T :=
    let d := wd_halves d (upd (d_halves d) e1 (option_map (set_next (Some e4)))) in
    let d := wd_halves d (upd (d_halves d) e4 (option_map (set_prev (Some e1)))) in
    let d := wd_fpool d (d_fpool d ++ [e2]) in
    let d := wd_halves d (upd (d_halves d) e2 (option_map (set_prev (Some e3)))) in
    wd_halves d (upd (d_halves d) e3 (option_map (set_next (Some e2)))).
  Lemma resplit_hv d e1 e2 e3 e4 i : hv (resplit d e1 e2 e3 e4) i =
    option_map (fun h => (if Nat.eqb e3 i then set_next (Some e2) else fun x => x)
      ((if Nat.eqb e2 i then set_prev (Some e3) else fun x => x)
      ((if Nat.eqb e4 i then set_prev (Some e1) else fun x => x)
      ((if Nat.eqb e1 i then set_next (Some e4) else fun x => x) h)))) (hv d i).
  Proof.
    unfold resplit. rewrite hv_upd.
    match goal with |- context [hv (wd_halves ?x _) i] => set (D := x) end. rewrite hv_upd.
    unfold D. match goal with |- context [hv (wd_fpool ?x ?y) i] => change (hv (wd_fpool x y) i) with (hv x i) end.
    rewrite !hv_upd. destruct (hv d i); [|now destruct (Nat.eqb e3 i), (Nat.eqb e2 i), (Nat.eqb e4 i), (Nat.eqb e1 i)].
    now destruct (Nat.eqb e3 i), (Nat.eqb e2 i), (Nat.eqb e4 i), (Nat.eqb e1 i).
  Qed.
  Lemma resplit_nx d e1 e2 e3 e4 i : e1 <> e3 -> nx (resplit d e1 e2 e3 e4) i =
    option_map (fun v => if Nat.eqb e1 i then Some e4 else if Nat.eqb e3 i then Some e2 else v) (nx d i).
  Proof.
    intros NE. unfold nx. rewrite resplit_hv. destruct (hv d i); auto. cbn.
    destruct (Nat.eqb e1 i) eqn:E1, (Nat.eqb e3 i) eqn:E3, (Nat.eqb e2 i), (Nat.eqb e4 i); auto;
      apply Nat.eqb_eq in E1, E3; congruence.
  Qed.
  Lemma resplit_pv d e1 e2 e3 e4 i : e2 <> e4 -> pv (resplit d e1 e2 e3 e4) i =
    option_map (fun v => if Nat.eqb e4 i then Some e1 else if Nat.eqb e2 i then Some e3 else v) (pv d i).
  Proof.
    intros NE. unfold pv. rewrite resplit_hv. destruct (hv d i); auto. cbn.
    destruct (Nat.eqb e4 i) eqn:E1, (Nat.eqb e2 i) eqn:E3, (Nat.eqb e1 i), (Nat.eqb e3 i); auto;
      apply Nat.eqb_eq in E1, E3; congruence.
  Qed.
  Lemma resplit_sbl d e1 e2 e3 e4 : same_but_links d (resplit d e1 e2 e3 e4).
  Proof.
    unfold same_but_links; csplit; auto.
    - cbn. now rewrite !length_upd.
    - intros i. rewrite resplit_hv. destruct (hv d i) as [h|]; cbn; auto.
      now destruct (Nat.eqb e3 i), (Nat.eqb e2 i), (Nat.eqb e4 i), (Nat.eqb e1 i).
  Qed.
  Lemma resplit_run d e1 e2 e3 e4 : (exists h, live d e1 h) -> (exists h, live d e2 h) -> (exists h, live d e3 h) ->
    (exists h, live d e4 h) ->
    (do d <- hmod d e1 (set_next (Some e4)) ;;
     do d <- hmod d e4 (set_prev (Some e1)) ;;
     let d := wd_fpool d (d_fpool d ++ [e2]) in
     do d <- hmod d e2 (set_prev (Some e3)) ;;
     do d <- hmod d e3 (set_next (Some e2)) ;;
     Ok (d, Some (length (d_fpool d)))) = Ok (resplit d e1 e2 e3 e4, Some (S (length (d_fpool d)))).
  Proof.
    intros (h1 & L1) L2 L3 L4.
    rewrite (hmod_run d e1 _ h1 L1). cbn [bind].
    set (d1 := wd_halves d (upd (d_halves d) e1 (option_map (set_next (Some e4))))).
    assert (S1 : same_but_links d d1) by (apply sbl_upd; auto).
    destruct (proj1 (sbl_live _ _ e4 S1) L4) as (h4 & L4'). rewrite (hmod_run d1 e4 _ h4 L4'). cbn [bind].
    set (d2 := wd_halves d1 (upd (d_halves d1) e4 (option_map (set_prev (Some e1))))).
    assert (S2 : same_but_links d d2) by (eapply sbl_trans; [exact S1|apply sbl_upd; auto]).
    destruct (proj1 (sbl_live _ _ e2 S2) L2) as (h2 & L2').
    set (d2' := wd_fpool d2 (d_fpool d2 ++ [e2])).
    rewrite (hmod_run d2' e2 _ h2 L2'). cbn [bind].
    set (d3 := wd_halves d2' (upd (d_halves d2') e2 (option_map (set_prev (Some e3))))).
    assert (S3 : same_but_links d2' d3) by (apply sbl_upd; auto).
    destruct (proj1 (sbl_live _ _ e3 S2) L3) as (h3 & L3').
    destruct (proj1 (sbl_live _ _ e3 S3)) as (h3' & L3''); [exists h3; exact L3'|].
    rewrite (hmod_run d3 e3 _ h3' L3''). cbn [bind]. unfold resplit. cbn. rewrite app_length. cbn. do 3 f_equal. lia.
  Qed.

  Definition end_is d (e k : nat) : Prop := exists h, live d e h /\ h_end h = k.
  Lemma idx_find_spec ks : forall pre k e, length ks = length pre -> NoDup ks ->
    (idx_find k (rev (combine ks pre)) = Some e <-> In (k, e) (combine ks pre)).
  Proof.
    intros pre k e LN ND.
    assert (G : forall l : list (nat * nat), NoDup (map fst l) -> (idx_find k l = Some e <-> In (k, e) l)).
    { induction l as [|[i x] r IH]; intros H; cbn; [split; [discriminate|intros []]|]. inversion H; subst.
      destruct (Nat.eqb i k) eqn:E.
      - apply Nat.eqb_eq in E; subst i. split; [intros Q; injection Q as <-; auto|]. intros [Q|Q]; [congruence|].
        exfalso. apply H2. apply in_map_iff. exists (k, e). auto.
      - apply Nat.eqb_neq in E. rewrite IH by auto. split; auto. intros [Q|Q]; auto. congruence. }
    rewrite G.
    - symmetry. apply in_rev.
    - rewrite map_rev. eapply Permutation_NoDup; [apply Permutation_rev|].
      replace (map fst (combine ks pre)) with ks; auto. clear -LN. revert pre LN.
      induction ks; destruct pre; cbn; intros; try discriminate; auto. f_equal. auto.
  Qed.
  Lemma idx_find_none ks : forall pre k, length ks = length pre ->
    idx_find k (rev (combine ks pre)) = None -> ~ In k ks.
  Proof.
    intros pre k LN H I.
    assert (G : forall l : list (nat * nat), idx_find k l = None -> ~ In k (map fst l)).
    { induction l as [|[i x] r IH]; cbn; auto. destruct (Nat.eqb i k) eqn:E; [discriminate|]. apply Nat.eqb_neq in E.
      intros Q [K|K]; [congruence|]. now apply IH. }
    apply G in H. apply H. rewrite map_rev. apply in_rev. rewrite rev_involutive.
    replace (map fst (combine ks pre)) with ks; auto. clear -LN. revert pre LN.
    induction ks; destruct pre; cbn; intros; try discriminate; auto. f_equal. auto.
  Qed.

  (** One face: [l] is its closed walk. *)
  Inductive split_result d (l : list nat) : dcel T * option nat -> Prop :=
  | not_split : simple_cycle d l -> split_result d l (d, None)
  | was_split a e1 b e3 c e2 e4 k :
      l = a ++ e1 :: b ++ e3 :: c -> end_is d e1 k -> end_is d e3 k ->
      follows_half d e1 e2 -> follows_half d e3 e4 ->
      split_result d l (resplit d e1 e2 e3 e4, Some (length (d_fpool d))).

  Lemma combine_in_split : forall ks pre (k e : nat), In (k, e) (combine ks pre) -> length ks = length pre ->
    exists a b, pre = a ++ e :: b.
  Proof.
    intros ks pre k e I _. apply in_combine_r in I. apply in_split in I. eauto.
  Qed.
  Lemma split_walk_run : forall fuel d l pre c rest ks, goes_round d l -> NoDup l -> l = pre ++ c :: rest ->
    Forall2 (end_is d) pre ks -> NoDup ks -> length rest < fuel ->
    exists r, split_walk fuel d (hd 0 l) c (rev (combine ks pre)) = Ok r /\ split_result d l r.
  Proof.
    induction fuel as [|fuel IH]; intros d l pre c rest ks HG ND El HE NK HF; [lia|].
    assert (Ic : In c l) by (rewrite El; apply in_or_app; right; now left).
    destruct (round_next d l c HG Ic) as (n & In_ & Fn). pose proof Fn as (hc & hn & Lc & Ln & En & Pn & Sn).
    assert (LK : length ks = length pre) by (symmetry; eapply forall2_len; eauto).
    cbn [split_walk]. rewrite (proj2 (half_at_ok d c hc) Lc). cbn [bind].
    destruct (idx_find (h_end hc) (rev (combine ks pre))) as [e1|] eqn:EI.
    - apply (idx_find_spec ks pre _ _ LK NK) in EI.
      destruct (combine_in_split _ _ _ _ EI LK) as (a & b & Ep).
      assert (E1 : end_is d e1 (h_end hc)).
      { clear -HE EI. revert ks HE EI. induction pre as [|x pre IH]; intros [|k ks] HE EI; cbn in EI; try contradiction.
        inversion HE; subst. destruct EI as [EI|EI]; [injection EI as -> ->; auto|eauto]. }
      assert (I1 : In e1 l) by (rewrite El, Ep; apply in_or_app; left; apply in_or_app; right; now left).
      destruct (round_next d l e1 HG I1) as (e2 & I2 & F1). pose proof F1 as (h1 & h2 & L1 & L2 & N1 & _).
      rewrite (proj2 (half_at_ok d e1 h1) L1). cbn [bind]. rewrite N1, En. cbn [deref of_opt bind].
      assert (RR := resplit_run d e1 e2 c n (ex_intro _ _ L1) (ex_intro _ _ L2) (ex_intro _ _ Lc) (ex_intro _ _ Ln)).
      exists (resplit d e1 e2 c n, Some (length (d_fpool d))). split.
      + revert RR.
        destruct (hmod d e1 (set_next (Some n))) as [x1| | |]; cbn [bind]; try discriminate.
        destruct (hmod x1 n (set_prev (Some e1))) as [x2| | |]; cbn [bind]; try discriminate.
        destruct (hmod (wd_fpool x2 (d_fpool x2 ++ [e2])) e2 (set_prev (Some c))) as [x3| | |]; cbn [bind]; try discriminate.
        destruct (hmod x3 c (set_next (Some e2))) as [x4| | |]; cbn [bind]; try discriminate. intros R; injection R as <- _. auto.
      + apply (was_split d l a e1 b c rest e2 n (h_end hc)); auto.
        * rewrite El, Ep, <- app_assoc. reflexivity.
        * exists hc. auto.
    - rewrite En. cbn [deref of_opt bind].
      assert (HN : (rest = [] /\ n = hd 0 l) \/ exists rest', rest = n :: rest').
      { destruct rest as [|x rest'].
        - left. split; auto. destruct HG as (G1 & G2). rewrite El in G2 |- *.
          rewrite last_last in G2. destruct pre as [|y pre]; cbn in G2 |- *; destruct G2 as (F & _);
            destruct F as (u & v & U1 & U2 & U3 & _); rewrite (live_inj _ _ _ _ U1 Lc) in U3; congruence.
        - right. exists rest'. f_equal. destruct HG as (_ & G2). rewrite El in G2.
          rewrite snoc_app in G2. apply run_app in G2 as (_ & G2). rewrite last_last in G2. destruct G2 as (F & _).
          destruct F as (u & v & U1 & U2 & U3 & _); rewrite (live_inj _ _ _ _ U1 Lc) in U3; congruence. }
      assert (HE' : Forall2 (end_is d) (pre ++ [c]) (ks ++ [h_end hc])).
      { apply Forall2_app; auto. constructor; [|constructor]. exists hc. auto. }
      assert (NK' : NoDup (ks ++ [h_end hc])) by (apply nodup_snoc; auto; eapply idx_find_none; eauto).
      destruct HN as [(-> & ->)|(rest' & ->)].
      + rewrite Nat.eqb_refl. exists (d, None). split; auto. constructor. rewrite El. exists (ks ++ [h_end hc]). auto.
      + assert (NE : Nat.eqb n (hd 0 l) = false).
        { apply Nat.eqb_neq. intros E. rewrite El in ND, E. destruct pre as [|y pre]; cbn in E, ND.
          - subst n. inversion ND; subst. apply H1. now left.
          - subst n. inversion ND; subst. apply H1. apply in_or_app. right. right. now left. }
        rewrite NE. destruct (IH d l (pre ++ [c]) n rest' (ks ++ [h_end hc])) as (r & R & SR); auto.
        * rewrite El, <- app_assoc. reflexivity.
        * cbn in HF. lia.
        * exists r. split; auto. rewrite <- R. f_equal.
          assert (Q : combine (ks ++ [h_end hc]) (pre ++ [c]) = combine ks pre ++ [(h_end hc, c)]).
          { clear -LK. revert pre LK. induction ks; destruct pre; cbn; intros; try discriminate; auto. f_equal. auto. }
          rewrite Q, rev_app_distr. reflexivity.
  Qed.

  Lemma last_app_cons {A} (l : list A) x m v : last (l ++ x :: m) v = last (x :: m) v.
  Proof. induction l as [|y l IH]; auto. cbn [app]. rewrite <- IH. destruct l; reflexivity. Qed.
  Lemma nodup_app_disj {A} (a b : list A) x : NoDup (a ++ b) -> In x a -> In x b -> False.
  Proof.
    intros ND Ia Ib. apply in_split in Ia as (u & v & ->). apply in_split in Ib as (w & z & ->).
    rewrite <- app_assoc in ND. cbn in ND. apply NoDup_remove_2 in ND. apply ND.
    apply in_or_app. right. apply in_or_app. right. apply in_or_app. right. now left.
  Qed.
  Lemma follows_fun d a b b' : follows_half d a b -> follows_half d a b' -> b = b'.
  Proof. intros (x & y & H1 & H2 & H3 & _) (x' & y' & H1' & H2' & H3' & _). rewrite (live_inj _ _ _ _ H1 H1') in H3. congruence. Qed.
  Lemma follows_inj d a a' b : follows_half d a b -> follows_half d a' b -> a = a'.
  Proof. intros (x & y & H1 & H2 & H3 & H4 & _) (x' & y' & H1' & H2' & H3' & H4' & _). rewrite (live_inj _ _ _ _ H2 H2') in H4. congruence. Qed.

  (** The two closed walks after the split. *)
  Lemma resplit_rounds d l a e1 b e3 c e2 e4 k : goes_round d l -> NoDup l -> l = a ++ e1 :: b ++ e3 :: c ->
    end_is d e1 k -> end_is d e3 k -> follows_half d e1 e2 -> follows_half d e3 e4 ->
    let d' := resplit d e1 e2 e3 e4 in
    goes_round d' (a ++ e1 :: c) /\ goes_round d' (b ++ [e3]) /\ hd 0 (b ++ [e3]) = e2 /\
    hd 0 (a ++ e1 :: c) = hd 0 l /\
    (forall m, (forall i, In i m -> ~ In i l) -> goes_round d m -> goes_round d' m).
  Proof.
    intros HG ND El K1 K3 F1 F3 d'.
    assert (I1 : In e1 l) by (rewrite El; apply in_or_app; right; now left).
    assert (I3 : In e3 l) by (rewrite El; apply in_or_app; right; right; apply in_or_app; right; now left).
    assert (N13 : e1 <> e3).
    { intros ->. rewrite El in ND. apply NoDup_remove_2 in ND. apply ND. apply in_or_app. right. apply in_or_app. right. now left. }
    assert (N24 : e2 <> e4) by (intros ->; apply N13; eapply follows_inj; eauto).
    assert (SB : same_but_links d d') by apply resplit_sbl.
    assert (XE : forall i, ends d' i = ends d i) by (intros; now apply sbl_ends).
    assert (XN : forall i, i <> e1 -> i <> e3 -> nx d' i = nx d i).
    { intros i H1 H3. unfold d'. rewrite resplit_nx by auto. rewrite (proj2 (Nat.eqb_neq e1 i)), (proj2 (Nat.eqb_neq e3 i)) by auto.
      now destruct (nx d i). }
    assert (XP : forall i, i <> e2 -> i <> e4 -> pv d' i = pv d i).
    { intros i H1 H3. unfold d'. rewrite resplit_pv by auto. rewrite (proj2 (Nat.eqb_neq e2 i)), (proj2 (Nat.eqb_neq e4 i)) by auto.
      now destruct (pv d i). }
    destruct K1 as (h1 & L1 & E1). destruct K3 as (h3 & L3 & E3).
    pose proof (proj1 (follows_views _ _ _) F1) as (V1 & V2 & s1 & m1 & t1 & V3 & V4).
    pose proof (proj1 (follows_views _ _ _) F3) as (U1 & U2 & s3 & m3 & t3 & U3 & U4).
    assert (M1 : m1 = k) by (rewrite (ends_live _ _ _ L1) in V3; congruence).
    assert (M3 : m3 = k) by (rewrite (ends_live _ _ _ L3) in U3; congruence). subst m1 m3.
    assert (F14 : follows_half d' e1 e4).
    { apply follows_views. rewrite !XE. unfold d'. rewrite resplit_nx, resplit_pv by auto. rewrite !Nat.eqb_refl, V1, U2. cbn. eauto 8. }
    assert (F32 : follows_half d' e3 e2).
    { apply follows_views. rewrite !XE. unfold d'. rewrite resplit_nx, resplit_pv by auto.
      rewrite (proj2 (Nat.eqb_neq e1 e3)), (proj2 (Nat.eqb_neq e4 e2)), !Nat.eqb_refl, U1, V2 by auto. cbn. eauto 8. }
    (* a run whose interior is away from the changed links *)
    assert (RUN : forall x r, run_of d x r -> (forall i, In i (removelast (x :: r)) -> i <> e1 /\ i <> e3) ->
      (forall i, In i r -> i <> e2 /\ i <> e4) -> run_of d' x r).
    { intros x r HR H1 H2. eapply run_ext; [| | |exact HR]; auto.
      - intros i Hi. apply XN; apply H1; auto.
      - intros i Hi. apply XP; apply H2; auto. }
    pose proof HG as HG0. destruct HG as (G1 & G2). set (z := last l 0) in *. rewrite El in G2. rewrite snoc_app in G2.
    apply run_app in G2 as (Ga & G2). rewrite last_last in G2. rewrite snoc_app in G2. apply run_app in G2 as (Gb & Gc).
    rewrite last_last in Gc.
    set (A := a ++ [e1]) in *. set (B := b ++ [e3]) in *.
    assert (El' : l = A ++ B ++ c) by (rewrite El, snoc_app, (snoc_app b); reflexivity).
    assert (NB : NoDup (A ++ B ++ c)) by now rewrite <- El'.
    assert (HB : hd 0 B = e2).
    { unfold B in *. destruct b as [|x b]; cbn in Gb |- *; destruct Gb as (F & _); eapply follows_fun; eauto. }
    assert (I2B : In e2 B).
    { unfold B in *. destruct b; cbn in HB; [rewrite <- HB; now left|rewrite <- HB; now left]. }
    assert (B3 : In e3 B) by (unfold B; apply in_or_app; right; now left).
    assert (A1 : In e1 A) by (unfold A; apply in_or_app; right; now left).
    assert (DAB : forall i, In i A -> In i B -> False).
    { intros i Ha Hb. eapply (nodup_app_disj A (B ++ c)); eauto. apply in_or_app; auto. }
    assert (DAc : forall i, In i A -> In i c -> False).
    { intros i Ha Hb. eapply (nodup_app_disj A (B ++ c)); eauto. apply in_or_app; auto. }
    assert (DBc : forall i, In i B -> In i c -> False).
    { intros i Ha Hb. apply nodup_app_r in NB. eapply (nodup_app_disj B c); eauto. }
    assert (NA : NoDup A) by now apply nodup_app_l in NB.
    assert (NBB : NoDup B) by (apply nodup_app_r, nodup_app_l in NB; auto).
    assert (Nc : NoDup c) by (apply nodup_app_r, nodup_app_r in NB; auto).
    assert (HA : forall i, In i (removelast A) -> i <> e1 /\ i <> e3).
    { unfold A. rewrite removelast_last. intros i Hi. split; intros ->.
      - unfold A in NA. eapply (nodup_app_disj a [e1]); eauto. now left.
      - apply (DAB e3); auto. unfold A. apply in_or_app; auto. }
    assert (HBr : forall i, In i (removelast B) -> i <> e1 /\ i <> e3).
    { unfold B. rewrite removelast_last. intros i Hi. split; intros ->.
      - apply (DAB e1); auto. unfold B. apply in_or_app; auto.
      - unfold B in NBB. eapply (nodup_app_disj b [e3]); eauto. now left. }
    assert (LB : goes_round d' B).
    { split; [unfold B; destruct b; discriminate|]. unfold B at 1. rewrite last_last.
      destruct B as [|x B'] eqn:EB; [contradiction|]. cbn in HB. subst x. cbn. split; auto.
      apply RUN; [now destruct Gb|auto|].
      intros i Hi. split; intros ->; [now inversion NBB|].
      (* e4 is in c or in A *)
      destruct c as [|x c'].
      - assert (Ez : z = e3) by (unfold z; rewrite El', app_nil_r, <- EB; unfold B; rewrite app_assoc; apply last_last).
        destruct A as [|y A'] eqn:EA; [contradiction|]. destruct Ga as (F & _). rewrite Ez in F.
        rewrite (follows_fun _ _ _ _ F3 F) in Hi. apply (DAB y); [now left|now right].
      - destruct Gc as (F & _). rewrite (follows_fun _ _ _ _ F3 F) in Hi. apply (DBc x); [now right|now left]. }
    assert (LAc : goes_round d' (a ++ e1 :: c)).
    { rewrite snoc_app. fold A. split; [unfold A; destruct a; discriminate|].
      destruct c as [|x c'].
      - rewrite app_nil_r. unfold A at 1. rewrite last_last.
        assert (Ez : z = e3) by (unfold z; rewrite El', app_nil_r; unfold B; rewrite app_assoc; apply last_last).
        destruct A as [|y A'] eqn:EA; [contradiction|]. cbn. destruct Ga as (F & Ga). rewrite Ez in F.
        rewrite <- (follows_fun _ _ _ _ F3 F) in *. split; auto. apply RUN; auto.
        intros i Hi. split; intros ->; [apply (DAB e2); auto; now right|now inversion NA].
      - destruct Gc as (F & Gc). rewrite <- (follows_fun _ _ _ _ F3 F) in *. clear x F.
        assert (Lz : last (A ++ e4 :: c') 0 = z).
        { unfold z. rewrite El', (app_assoc A B), !last_app_cons. reflexivity. }
        rewrite Lz. apply run_app. split.
        + assert (Iz : In z (e4 :: c')).
          { rewrite <- Lz, last_app_cons. apply last_in_list. discriminate. }
          apply RUN; auto.
          * intros i Hi. cbn [removelast] in Hi. destruct A as [|y A'] eqn:EA; [contradiction|].
            destruct Hi as [<-|Hi]; [|now apply HA]. split; intros ->; [now apply (DAc e1)|now apply (DBc e3)].
          * intros i Hi. split; intros ->; [now apply (DAB e2)|]. apply (DAc e4); auto. now left.
        + unfold A. rewrite last_last. cbn. split; auto. apply RUN; auto.
          * intros i Hi. assert (Hi' : In i (e4 :: c')).
            { rewrite (app_removelast_last 0 (l := e4 :: c')) by discriminate. apply in_or_app; auto. }
            split; intros ->; [now apply (DAc e1)|now apply (DBc e3)].
          * intros i Hi. split; intros ->; [apply (DBc e2); auto; now right|now inversion Nc]. }
    csplit; auto.
    - rewrite El. destruct a; reflexivity.
    - intros m Hm HG'. apply (round_ext d); auto.
      + intros i Hi. apply XN; intros ->; apply (Hm _ Hi); auto.
      + assert (I2 : In e2 l) by (rewrite El'; apply in_or_app; right; apply in_or_app; auto).
        destruct (round_next d l e3 HG0 I3) as (x & Ix & Fx).
        intros i Hi. apply XP; intros ->; apply (Hm _ Hi); auto. now rewrite (follows_fun _ _ _ _ F3 Fx).
  Qed.

  (** *** The loop over the faces *)
  Lemma simple_same d d' l : same_but_links d d' -> simple_cycle d l -> simple_cycle d' l.
  Proof.
    intros SB (ks & HF & ND). exists ks. split; auto. eapply forall2_impl; [|exact HF].
    cbn. intros e k (h & L & E). destruct (proj1 (sbl_live _ _ e SB)) as (h' & L'); [eauto|]. exists h'. split; auto.
    pose proof (sbl_ends _ _ e SB) as Q. rewrite (ends_live _ _ _ L), (ends_live _ _ _ L') in Q. congruence.
  Qed.
  Lemma fpool_grow d d' x fs ls : d_fpool d' = d_fpool d ++ x ->
    fpool_ok d fs ls -> fpool_ok d' fs ls.
  Proof.
    intros E. apply forall2_impl. intros f l H. rewrite E, nth_error_app1; auto. eapply nth_lt; eauto.
  Qed.

  Lemma nonempty_count (ls : list (list nat)) d : Forall (goes_round d) ls -> length ls <= length (concat ls).
  Proof.
    induction 1 as [|l ls H HF IH]; cbn; auto. rewrite app_length. destruct H as (H & _). destruct l; [congruence|]. cbn. lia.
  Qed.

  Lemma split_perm (a b c : list nat) x y : Permutation ((b ++ [y]) ++ a ++ x :: c) (a ++ x :: b ++ y :: c).
  Proof.
    rewrite (snoc_app a x (b ++ y :: c)), (snoc_app b y c), (snoc_app a x c).
    rewrite (app_assoc (b ++ [y])), (app_assoc (a ++ [x])). apply Permutation_app_tail. apply Permutation_app_comm.
  Qed.
  Lemma split_faces_run : forall fuel d old los lds, wf d ->
    Forall (goes_round d) (los ++ lds) -> fpool_ok d old los -> fpool_ok d (d_faces d) lds ->
    Forall (simple_cycle d) lds -> Permutation (concat (los ++ lds)) (d_edges d) ->
    2 * length (d_edges d) + length los < fuel + 2 * length (los ++ lds) ->
    exists d' ls, split_faces fuel d old = Ok d' /\ Forall (goes_round d') ls /\ fpool_ok d' (d_faces d') ls /\
      Forall (simple_cycle d') ls /\ Permutation (concat ls) (d_edges d') /\ same_but_links d d'.
  Proof.
    induction fuel as [|fuel IH]; intros d old los lds W HG HO HD HS HP HF.
    - apply nonempty_count in HG. rewrite (Permutation_length HP) in HG. lia.
    - cbn [split_faces]. destruct old as [|f r].
      + inversion HO; subst. exists d, lds. csplit; auto. apply sbl_refl.
      + inversion HO as [|? l ? los' Hf HO']; subst.
        unfold split_face, at_. rewrite Hf. cbn [of_opt bind].
        assert (NDa : NoDup (concat ((l :: los') ++ lds))).
        { eapply Permutation_NoDup; [symmetry; exact HP|]. apply W. }
        assert (NDl : NoDup l) by (cbn in NDa; now apply nodup_app_l in NDa).
        inversion HG as [|? ? Gl HG']; subst.
        destruct l as [|c rest] eqn:El; [destruct Gl; congruence|]. rewrite <- El in *. 
        assert (Bl : length l <= length (d_halves d)).
        { rewrite <- (seq_length (length (d_halves d)) 0). apply NoDup_incl_length; auto. intros i Hi. apply in_seq.
          assert (K : In i (d_edges d)).
          { eapply Permutation_in; [exact HP|]. cbn. apply in_or_app; auto. }
          apply W in K as (h & K). apply nth_lt in K. lia. }
        destruct (split_walk_run (S (length (d_halves d))) d l [] c rest [] Gl NDl El) as (res & R & SR).
        { constructor. }
        { constructor. }
        { rewrite El in Bl. cbn in Bl. lia. }
        cbn [rev combine] in R. replace (hd 0 l) with c in * by (now rewrite El). rewrite R. cbn [bind].
        destruct SR as [SC|a e1 b e3 cc e2 e4 k Es K1 K3 F1 F3].
        * set (d1 := wd_faces d (d_faces d ++ [f])).
          assert (SB : same_but_links d d1).
          { unfold same_but_links; csplit; auto. intros i. change (hv d1 i) with (hv d i). destruct (hv d i); auto. }
          destruct (IH d1 r los' (lds ++ [l])) as (d' & ls & R' & G' & P' & S' & Q' & SB').
          -- eapply sbl_wf; eauto.
          -- rewrite app_assoc. apply Forall_app. split.
             ++ eapply Forall_impl; [|exact HG']. intros m. apply round_ext; reflexivity.
             ++ constructor; auto. revert Gl. apply round_ext; reflexivity.
          -- exact HO'.
          -- unfold d1; cbn. apply Forall2_app; auto. constructor; auto. cbn. rewrite Hf. now rewrite El.
          -- apply Forall_app. split; [exact HS|]. constructor; auto.
          -- cbn in HP |- *. rewrite <- HP. rewrite app_assoc, concat_app. cbn. rewrite app_nil_r. apply Permutation_app_comm.
          -- cbn in HF |- *. rewrite !app_length in *. cbn in *. lia.
          -- exists d', ls. csplit; auto.
        * destruct (resplit_rounds d l a e1 b e3 cc e2 e4 k Gl NDl Es K1 K3 F1 F3) as (R1 & R2 & R3 & R4 & R5).
          set (d1 := resplit d e1 e2 e3 e4) in *.
          assert (SB : same_but_links d d1) by apply resplit_sbl.
          assert (FP : d_fpool d1 = d_fpool d ++ [e2]) by reflexivity.
          assert (OTH : forall m, In m (los' ++ lds) -> goes_round d m -> goes_round d1 m).
          { intros m Hm. apply R5. intros i Hi Il. cbn in NDa. eapply (nodup_app_disj l); eauto. apply in_concat. eauto. }
          destruct (IH d1 (length (d_fpool d) :: f :: r) ((b ++ [e3]) :: (a ++ e1 :: cc) :: los') lds)
            as (d' & ls & R' & G' & P' & S' & Q' & SB').
          -- eapply sbl_wf; eauto.
          -- cbn. constructor; auto. constructor; auto. rewrite Forall_forall in *. intros m Hm. auto.
          -- constructor; [|constructor].
             ++ rewrite FP, nth_snoc_last. now rewrite R3.
             ++ rewrite FP, nth_error_app1 by (eapply nth_lt; eauto). rewrite Hf, R4. now rewrite El.
             ++ eapply (fpool_grow d); eauto.
          -- change (d_faces d1) with (d_faces d). eapply (fpool_grow d); eauto.
          -- eapply Forall_impl; [|exact HS]. intros m. now apply simple_same.
          -- change (d_edges d1) with (d_edges d). rewrite <- HP. cbn. rewrite !app_assoc. apply Permutation_app_tail.
             rewrite Es, <- (app_assoc (b ++ [e3])). apply split_perm.
          -- change (d_edges d1) with (d_edges d). cbn in HF |- *. lia.
          -- exists d', ls. csplit; auto. eapply sbl_trans; eauto.
  Qed.
End Split.
