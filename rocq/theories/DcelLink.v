(** Linking the half edges into closed walks. *)
From Coq Require Import ZArith Bool List Permutation Lia.
From Verif Require Import Outcome Num Order Rmath RectSpec ScanLine VState VLemmas VAelProofs SortProofs MarkProofs Dcel DcelSpec DcelBase DcelBreak DcelFace.
Import ListNotations.
Local Open Scope out.

Lemma pigeon {A B} (R : A -> B -> Prop) (l1 : list A) (l2 : list B) : NoDup l1 ->
  (forall x, In x l1 -> exists y, In y l2 /\ R x y) ->
  (forall x x' y, In x l1 -> In x' l1 -> R x y -> R x' y -> x = x') -> length l1 <= length l2.
Proof.
  intros ND HE HI.
  assert (G : exists ys, length ys = length l1 /\ NoDup ys /\ incl ys l2 /\ forall y, In y ys -> exists x, In x l1 /\ R x y).
  { revert HE HI. induction ND as [|x r NI ND IH]; intros HE HI; [exists []; csplit; try constructor; intros ? []|].
    destruct IH as (ys & E1 & E2 & E3 & E4); [intros; apply HE; now right|intros; eapply HI; eauto; now right|].
    destruct (HE x (or_introl eq_refl)) as (y & Hy & Ry). exists (y :: ys). csplit; cbn; auto.
    - constructor; auto. intros I. destruct (E4 y I) as (x' & Hx & Rx). apply NI.
      rewrite (HI x x' y); auto; [now left|now right].
    - intros z [<-|Hz]; auto.
    - intros z [<-|Hz]; [exists x; auto|]. destruct (E4 z Hz) as (x' & ? & ?). exists x'. auto. }
  destruct G as (ys & E1 & E2 & E3 & _). rewrite <- E1. now apply NoDup_incl_length.
Qed.

Lemma forall2_impl {A B} (P Q : A -> B -> Prop) l l' : (forall a b, P a b -> Q a b) -> Forall2 P l l' -> Forall2 Q l l'.
Proof. intros H. induction 1; constructor; auto. Qed.

Section Link.
  Context {T : Type} {N : Num T}.
  Implicit Types d : dcel T.
  Variable en : denv.

  Lemma run_prev d l : forall a i, run_of d a l -> In i l -> exists g, In g (a :: l) /\ follows_half d g i.
  Proof.
    induction l as [|b r IH]; intros a i HR I; [contradiction|]. destruct HR as (HF & HR). destruct I as [<-|I].
    - exists a. split; auto. now left.
    - destruct (IH b i HR I) as (g & G & K). exists g. split; auto. now right.
  Qed.
  Lemma run_next d l : forall a i, run_of d a l -> In i (a :: l) -> i = last l a \/ exists n, In n l /\ follows_half d i n.
  Proof.
    induction l as [|b r IH]; intros a i HR I.
    - destruct I as [<-|[]]. now left.
    - destruct HR as (HF & HR). rewrite last_cons. destruct I as [<-|I].
      + right. exists b. split; auto. now left.
      + destruct (IH b i HR I) as [->|(n & G & K)]; auto. right. exists n. split; auto. now right.
  Qed.
  Lemma last_in_list (l : list nat) a : l <> [] -> In (last l a) l.
  Proof.
    intros H. destruct (exists_last H) as (x & y & ->). rewrite last_last. apply in_or_app. right. now left.
  Qed.
  Lemma round_prev d l i : goes_round d l -> In i l -> exists g, In g l /\ follows_half d g i.
  Proof.
    intros (H1 & H2) I. destruct (run_prev _ _ _ _ H2 I) as (g & [<-|G] & K); eauto. exists (last l 0). split; auto.
    now apply last_in_list.
  Qed.
  Lemma round_next d l i : goes_round d l -> In i l -> exists n, In n l /\ follows_half d i n.
  Proof.
    intros (H1 & H2) I. destruct l as [|b r]; [congruence|].
    destruct (run_next _ _ _ _ H2 (or_intror I)) as [->|K]; auto.
    destruct H2 as (HF & _). exists b. split; [now left|]. rewrite last_cons in *. exact HF.
  Qed.

  Definition lk d (ls : list (list nat)) (path : list nat) : Prop :=
    Forall (goes_round d) ls /\ NoDup (concat ls ++ path) /\
    (forall i, In i (concat ls ++ path) -> exists h, live d i h) /\
    (forall i h, live d i h -> In i (concat ls ++ path) \/ (h_next h = None /\ h_prev h = None)) /\
    match path with [] => True | a :: r => run_of d a r /\ pv d a = Some None /\ nx d (last r a) = Some None end.

  Lemma nx_live d i h : live d i h -> nx d i = Some (h_next h).
  Proof. intros L. unfold nx. apply hv_live in L. now rewrite L. Qed.
  Lemma pv_live d i h : live d i h -> pv d i = Some (h_prev h).
  Proof. intros L. unfold pv. apply hv_live in L. now rewrite L. Qed.
  Lemma ends_live d i h : live d i h -> ends d i = Some (h_start h, h_end h).
  Proof. intros L. unfold ends. apply hv_live in L. now rewrite L. Qed.

  (** Every half edge with a previous one is followed back by it. *)
  Lemma lk_prev d ls path f h p : lk d ls path -> live d f h -> h_prev h = Some p -> follows_half d p f.
  Proof.
    intros (K1 & K2 & K3 & K4 & K5) L E. rewrite Forall_forall in K1.
    assert (G : exists g, follows_half d g f).
    { destruct (K4 f h L) as [I|(_ & E')]; [|congruence]. apply in_app_or in I as [I|I].
      - apply in_concat in I as (l & Hl & I). destruct (round_prev d l f (K1 l Hl) I) as (g & _ & G). eauto.
      - destruct path as [|a r]; [contradiction|]. destruct K5 as (K5 & K6 & K7). destruct I as [<-|I].
        + rewrite (pv_live _ _ _ L) in K6. congruence.
        + destruct (run_prev _ _ _ _ K5 I) as (g & _ & G). eauto. }
    destruct G as (g & G). pose proof G as G'. apply follows_views in G as (_ & F & _). rewrite (pv_live _ _ _ L), E in F.
    injection F as ->. auto.
  Qed.

  (** *** There is always a free half edge to go on with *)
  Lemma ins_outs d k p c h ls path : wf d -> twinned d -> lk d ls path -> nth_error (d_points d) k = Some p ->
    live d c h -> h_end h = k -> h_next h = None ->
    exists n hn, In (n, true) (p_edges p) /\ live d n hn /\ h_prev hn = None.
  Proof.
    intros W HT HK Kp Lc Ec Nc. pose proof W as (_ & HS & _). destruct (HS k p Kp) as (S1 & S2 & S3).
    set (outs := map fst (filter snd (p_edges p))). set (ins := map fst (filter (fun x => negb (snd x)) (p_edges p))).
    assert (Io : forall e, In e outs <-> In (e, true) (p_edges p)).
    { intros e. unfold outs. rewrite in_map_iff. setoid_rewrite filter_In. split.
      - intros ([i b] & <- & I & E). cbn in *. now subst.
      - intros I. exists (e, true). auto. }
    assert (Ii : forall e, In e ins <-> In (e, false) (p_edges p)).
    { intros e. unfold ins. rewrite in_map_iff. setoid_rewrite filter_In. split.
      - intros ([i b] & <- & I & E). cbn in *. destruct b; [discriminate|auto].
      - intros I. exists (e, false). auto. }
    assert (NDf : forall l : list (nat * bool), NoDup l -> forall b, NoDup (map fst (filter (fun x => Bool.eqb b (snd x)) l))).
    { clear. induction 1 as [|[i b'] l NI ND IH]; intros b; cbn; [constructor|]. destruct (Bool.eqb b b') eqn:E; auto. cbn.
      constructor; auto. rewrite in_map_iff. intros ([j b2] & E1 & I). cbn in E1. subst. apply filter_In in I as (I & E2). cbn in E2.
      apply eqb_prop in E, E2. subst. contradiction. }
    assert (NDo : NoDup outs).
    { specialize (NDf _ S1 true). unfold outs. erewrite filter_ext; [exact NDf|]. now intros [? []]. }
    assert (NDi : NoDup ins).
    { specialize (NDf _ S1 false). unfold ins. erewrite filter_ext; [exact NDf|]. now intros [? []]. }
    assert (L1 : length ins <= length outs).
    { apply (pigeon (fun e t => exists h, live d e h /\ h_twin h = Some t)); auto.
      - intros e He. apply Ii, S3 in He as (x & L & E). destruct (HT e x L) as (t & ht & T1 & T2 & T3 & T4 & T5 & T6).
        exists t. split; [|eauto]. apply Io, S2. exists ht. split; auto. congruence.
      - intros e e' t He He' (x & L & E) (x' & L' & E').
        destruct (HT e x L) as (t1 & ht & T1 & _ & T3 & T4 & _). destruct (HT e' x' L') as (t2 & ht' & T1' & _ & T3' & T4' & _).
        rewrite E in T1. injection T1 as <-. rewrite E' in T1'. injection T1' as <-.
        rewrite (live_inj _ _ _ _ T3 T3') in T4. congruence. }
    (* otherwise going back is one-to-one from the outgoing ones to the incoming ones other than c *)
    assert (DEC : (exists n hn, In n outs /\ live d n hn /\ h_prev hn = None) \/
                  forall n hn, In n outs -> live d n hn -> h_prev hn <> None).
    { assert (Q : forall l, (exists n hn, In n l /\ live d n hn /\ h_prev hn = None) \/
                  forall n hn, In n l -> live d n hn -> h_prev hn <> None).
      { induction l as [|n l [(m & hm & I & L & E)|IH]]; [right; intros ? ? []|left; exists m, hm; csplit; auto; now right|].
        destruct (hv d n) as [hn|] eqn:E.
        - apply hv_live in E. destruct (h_prev hn) eqn:P.
          + right. intros m hm [<-|I] L; [|eauto]. rewrite (live_inj _ _ _ _ L E). congruence.
          + left. exists n, hn. csplit; auto. now left.
        - right. intros m hm [<-|I] L; [|eauto]. apply hv_live in L. congruence. }
      apply Q. }
    destruct DEC as [(n & hn & I & L & E)|ALL]; [exists n, hn; csplit; auto; now apply Io|]. exfalso.
    assert (Ic : In c ins) by (apply Ii, S3; eauto).
    apply in_split in Ic as (i1 & i2 & Ei).
    assert (L2 : length outs <= length (i1 ++ i2)).
    { apply (pigeon (fun f g => follows_half d g f)); auto.
      - intros f Hf. pose proof Hf as Hf'. apply Io, S2 in Hf as (x & L & E). specialize (ALL f x Hf' L).
        destruct (h_prev x) as [g|] eqn:P; [|congruence].
        pose proof (lk_prev _ _ _ _ _ _ HK L P) as F. exists g. split; auto.
        pose proof F as (ga & gb & G1 & G2 & G3 & G4 & G5).
        assert (Ig : In g ins).
        { apply Ii, S3. exists ga. split; auto. rewrite (live_inj _ _ _ _ G2 L) in G5. congruence. }
        rewrite Ei in Ig. apply in_app_or in Ig. destruct Ig as [Ig|[<-|Ig]]; [apply in_or_app; auto| |apply in_or_app; auto].
        rewrite (live_inj _ _ _ _ G1 Lc) in G3. congruence.
      - intros f f' g Hf Hf' (a & b & A1 & A2 & A3 & _) (a' & b' & A1' & A2' & A3' & _).
        rewrite (live_inj _ _ _ _ A1 A1') in A3. congruence. }
    rewrite Ei in L1. rewrite app_length in *. cbn in L1. lia.
  Qed.

  Lemma first_free_run d l : (forall e em, In (e, em) l -> exists h, live d e h) ->
    (exists n hn, In (n, true) l /\ live d n hn /\ h_prev hn = None) ->
    exists n hn, first_free d l = Ok n /\ In (n, true) l /\ live d n hn /\ h_prev hn = None.
  Proof.
    induction l as [|[e em] r IH]; intros HL (n & hn & I & L & E); [contradiction|]. cbn [first_free].
    assert (HL' : forall e em, In (e, em) r -> exists h, live d e h) by (intros; eapply HL; right; eauto).
    destruct em.
    - destruct (HL e true (or_introl eq_refl)) as (h & Le). rewrite (proj2 (half_at_ok d e h) Le). cbn [bind].
      destruct (h_prev h) eqn:P.
      + destruct IH as (m & hm & R & I' & L' & E'); auto.
        { destruct I as [I|I]; [injection I as <-; rewrite (live_inj _ _ _ _ L Le) in E; congruence|eauto]. }
        exists m, hm. csplit; auto. now right.
      + exists e, h. csplit; auto. now left.
    - destruct IH as (m & hm & R & I' & L' & E'); auto.
      { destruct I as [I|I]; [discriminate|eauto]. }
      exists m, hm. csplit; auto. now right.
  Qed.
  Lemma entry_in e l em : In (e, em) l -> exists k, entry_of e l = Some k.
  Proof.
    induction l as [|x r IH]; intros I; [contradiction|]. cbn. destruct (Nat.eqb (fst x) e) eqn:E; eauto.
    destruct I as [->|I]; [cbn in E; rewrite Nat.eqb_refl in E; discriminate|]. destruct (IH I) as (k & ->). cbn. eauto.
  Qed.
  Lemma get_next_run d k p c h ls path : wf d -> twinned d -> lk d ls path -> nth_error (d_points d) k = Some p ->
    live d c h -> h_end h = k -> h_next h = None ->
    exists n hn, get_next d p c = Ok (Some n) /\ live d n hn /\ h_start hn = k /\ h_prev hn = None.
  Proof.
    intros W HT HK Kp Lc Ec Nc. pose proof (ins_outs _ _ _ _ _ _ _ W HT HK Kp Lc Ec Nc) as FREE.
    pose proof W as (_ & HS & _). destruct (HS k p Kp) as (S1 & S2 & S3).
    destruct (entry_in c (p_edges p) false) as (j & Ej); [apply S3; eauto|].
    unfold get_next. rewrite Ej.
    assert (PM : forall x, In x (skipn (S j) (p_edges p) ++ firstn (S j) (p_edges p)) <-> In x (p_edges p)).
    { intros x. rewrite <- (firstn_skipn (S j) (p_edges p)) at 3. rewrite !in_app_iff. tauto. }
    destruct (first_free_run d (skipn (S j) (p_edges p) ++ firstn (S j) (p_edges p))) as (n & hn & R & I & L & E).
    - intros e em I. apply PM in I. destruct em; [apply S2 in I|apply S3 in I]; destruct I as (x & L & _); eauto.
    - destruct FREE as (n & hn & I & L & E). exists n, hn. csplit; auto. now apply PM.
    - rewrite R. cbn [bind]. exists n, hn. csplit; auto. apply PM, S2 in I as (x & L' & E').
      now rewrite (live_inj _ _ _ _ L L').
  Qed.

  Lemma lk_ext d d' ls : (forall i, nx d' i = nx d i) -> (forall i, pv d' i = pv d i) -> (forall i, ends d' i = ends d i) ->
    forall path, lk d ls path -> lk d' ls path.
  Proof.
    intros H1 H2 H3 path (K1 & K2 & K3 & K4 & K5).
    assert (LV : forall i, (exists h, live d i h) <-> exists h, live d' i h).
    { intros i. setoid_rewrite <- hv_live. specialize (H3 i). unfold ends in H3.
      destruct (hv d i), (hv d' i); cbn in H3; try discriminate; split; intros (? & ?); eauto; discriminate. }
    unfold lk. csplit; auto.
    - eapply Forall_impl; [|exact K1]. intros l. now apply round_ext.
    - intros i I. apply LV. auto.
    - intros i h L. destruct (proj2 (LV i)) as (x & Lx); [eauto|]. destruct (K4 i x Lx) as [I|(E1 & E2)]; auto. right.
      pose proof (H1 i) as N1. pose proof (H2 i) as N2. rewrite (nx_live _ _ _ L), (nx_live _ _ _ Lx) in N1.
      rewrite (pv_live _ _ _ L), (pv_live _ _ _ Lx) in N2. split; congruence.
    - destruct path as [|a r]; auto. destruct K5 as (K5 & K6 & K7). rewrite H1, H2. csplit; auto.
      eapply run_ext; [| | |exact K5]; auto.
  Qed.

  (** The state after [c] has been linked to the free half edge [n]. *)
  Definition linked_on d (f c n : nat) : dcel T :=
    let d := wd_halves d (upd (d_halves d) c (option_map (set_face (Some f)))) in
    let d := wd_halves d (upd (d_halves d) c (option_map (set_next (Some n)))) in
    wd_halves d (upd (d_halves d) n (option_map (set_prev (Some c)))).
  Lemma sbl_next d e v : same_but_links d (wd_halves d (upd (d_halves d) e (option_map (set_next v)))).
  Proof. apply sbl_upd. auto. Qed.
  Lemma linked_on_sbl d f c n : same_but_links d (linked_on d f c n).
  Proof.
    unfold linked_on. eapply sbl_trans; [eapply sbl_trans|]; apply sbl_upd; auto.
  Qed.
  Lemma linked_on_nx d f c n i : nx (linked_on d f c n) i = if Nat.eqb c i then option_map (fun _ => Some n) (nx d i) else nx d i.
  Proof.
    unfold linked_on, nx. rewrite !hv_upd. destruct (Nat.eqb c i), (Nat.eqb n i), (hv d i); reflexivity.
  Qed.
  Lemma linked_on_pv d f c n i : pv (linked_on d f c n) i = if Nat.eqb n i then option_map (fun _ => Some c) (pv d i) else pv d i.
  Proof.
    unfold linked_on, pv. rewrite !hv_upd. destruct (Nat.eqb c i), (Nat.eqb n i), (hv d i); reflexivity.
  Qed.
  Definition closed_at d (n e : nat) : dcel T :=
    let d := wd_halves d (upd (d_halves d) n (option_map (set_next (Some e)))) in
    wd_halves d (upd (d_halves d) e (option_map (set_prev (Some n)))).
  Lemma closed_at_sbl d n e : same_but_links d (closed_at d n e).
  Proof. unfold closed_at. eapply sbl_trans; apply sbl_upd; auto. Qed.
  Lemma closed_at_nx d n e i : nx (closed_at d n e) i = if Nat.eqb n i then option_map (fun _ => Some e) (nx d i) else nx d i.
  Proof. unfold closed_at, nx. rewrite !hv_upd. destruct (Nat.eqb n i), (Nat.eqb e i), (hv d i); reflexivity. Qed.
  Lemma closed_at_pv d n e i : pv (closed_at d n e) i = if Nat.eqb e i then option_map (fun _ => Some n) (pv d i) else pv d i.
  Proof. unfold closed_at, pv. rewrite !hv_upd. destruct (Nat.eqb n i), (Nat.eqb e i), (hv d i); reflexivity. Qed.

  Lemma nodup_last_notin (l : list nat) a : NoDup (a :: l) -> l <> [] -> ~ In (last l a) (removelast (a :: l)).
  Proof.
    intros ND H. rewrite (app_removelast_last a (l := a :: l)) in ND by discriminate. rewrite last_cons in ND.
    intros I. apply in_split in I as (x & y & E). rewrite E in ND. rewrite <- app_assoc in ND. apply NoDup_remove_2 in ND.
    apply ND. apply in_or_app. right. apply in_or_app. right. now left.
  Qed.

  Lemma lk_extend d f ls e r n s m t : lk d ls (e :: r) -> ~ In n (concat ls ++ e :: r) ->
    pv d n = Some None -> ends d (last r e) = Some (s, m) -> ends d n = Some (m, t) ->
    lk (linked_on d f (last r e) n) ls (e :: r ++ [n]).
  Proof.
    intros (K1 & K2 & K3 & K4 & K5 & K6 & K7) NI P E1 E2. set (c := last r e) in *. set (d' := linked_on d f c n).
    assert (SB := linked_on_sbl d f c n).
    assert (Ic : In c (e :: r)) by (destruct r; [now left|right; apply last_in_list; discriminate]).
    assert (Nc : forall i, In i (concat ls) -> i <> c).
    { intros i Hi ->. apply in_split in Ic as (x & y & Exy). rewrite Exy in K2. apply in_split in Hi as (u & v & Euv).
      rewrite Euv in K2. rewrite <- app_assoc in K2. cbn in K2. apply NoDup_remove_2 in K2. apply K2.
      apply in_or_app. right. apply in_or_app. right. apply in_or_app. right. now left. }
    assert (NN : forall i, In i (concat ls ++ e :: r) -> i <> n) by (intros i Hi ->; auto).
    assert (X1 : forall i, i <> c -> nx d' i = nx d i).
    { intros i Hi. unfold d'. rewrite linked_on_nx. destruct (Nat.eqb c i) eqn:E; auto. apply Nat.eqb_eq in E. congruence. }
    assert (X2 : forall i, i <> n -> pv d' i = pv d i).
    { intros i Hi. unfold d'. rewrite linked_on_pv. destruct (Nat.eqb n i) eqn:E; auto. apply Nat.eqb_eq in E. congruence. }
    assert (X3 : forall i, ends d' i = ends d i) by (intros; now apply sbl_ends).
    assert (X4 : nx d' c = Some (Some n)).
    { unfold d'. rewrite linked_on_nx, Nat.eqb_refl, K7. auto. }
    assert (X5 : pv d' n = Some (Some c)).
    { unfold d'. rewrite linked_on_pv, Nat.eqb_refl, P. auto. }
    assert (PC : forall i, In i (concat ls ++ e :: r ++ [n]) <-> In i (concat ls ++ e :: r) \/ i = n).
    { intros i. rewrite !in_app_iff. cbn. rewrite in_app_iff. cbn. intuition. }
    unfold lk. csplit.
    - rewrite Forall_forall in *. intros l Hl. apply (round_ext d).
      + intros i Hi. apply X1. apply Nc. apply in_concat; eauto.
      + intros i Hi. apply X2. apply NN. apply in_or_app. left. apply in_concat; eauto.
      + auto.
      + auto.
    - assert (Q : concat ls ++ e :: r ++ [n] = (concat ls ++ e :: r) ++ [n]) by now rewrite <- app_assoc.
      rewrite Q. now apply nodup_snoc.
    - intros i Hi. apply (proj1 (sbl_live _ _ i SB)). apply PC in Hi as [Hi| ->]; auto.
      unfold pv in P. destruct (hv d n) as [h|] eqn:Eh; [|discriminate]. exists h. now apply hv_live.
    - intros i h L. rewrite PC. destruct (proj2 (sbl_live _ _ i SB)) as (x & Lx); [eauto|].
      destruct (K4 i x Lx) as [I|(F1 & F2)]; auto. destruct (Nat.eq_dec i n) as [|Hn]; auto. 
      destruct (Nat.eq_dec i c) as [->|Hc]; [left; left; apply in_or_app; right; exact Ic|]. right.
      specialize (X1 i Hc). specialize (X2 i Hn). rewrite (nx_live _ _ _ L), (nx_live _ _ _ Lx) in X1.
      rewrite (pv_live _ _ _ L), (pv_live _ _ _ Lx) in X2. split; congruence.
    - apply run_app. split.
      + eapply run_ext; [| | |exact K5]; auto.
        * intros i Hi. apply X1. intros ->. destruct r as [|b r']; [contradiction|].
          apply (nodup_last_notin (b :: r') e) in Hi; auto; [|discriminate]. now apply nodup_app_r in K2.
        * intros i Hi. apply X2. apply NN. apply in_or_app. right. now right.
      + cbn. split; auto. apply follows_views. rewrite !X3. fold c. eauto 8.
    - rewrite X2; auto. apply NN. apply in_or_app. right. now left.
    - rewrite last_last. rewrite X1.
      + unfold pv in P. unfold nx. destruct (hv d n) as [h|] eqn:Eh; [|discriminate]. cbn in *.
        destruct (K4 n h) as [I|(F1 & F2)]; [now apply hv_live|contradiction|congruence].
      + intros ->. apply (NN c); auto. apply in_or_app; auto.
  Qed.

  Lemma lk_close d ls e r s t : lk d ls (e :: r) -> ends d (last r e) = Some (s, t) -> (exists u, ends d e = Some (t, u)) ->
    lk (closed_at d (last r e) e) (ls ++ [e :: r]) [].
  Proof.
    intros (K1 & K2 & K3 & K4 & K5 & K6 & K7) E1 (u & E2). set (c := last r e) in *. set (d' := closed_at d c e).
    assert (SB := closed_at_sbl d c e).
    assert (Ic : In c (e :: r)) by (destruct r; [now left|right; apply last_in_list; discriminate]).
    assert (Nc : forall i j, In i (concat ls) -> In j (e :: r) -> i <> j).
    { intros i j Hi Hj <-. apply in_split in Hj as (x & y & Exy). rewrite Exy in K2. apply in_split in Hi as (a & b & Eab).
      rewrite Eab in K2. rewrite <- app_assoc in K2. cbn in K2. apply NoDup_remove_2 in K2. apply K2.
      apply in_or_app. right. apply in_or_app. right. apply in_or_app. right. now left. }
    assert (X1 : forall i, i <> c -> nx d' i = nx d i).
    { intros i Hi. unfold d'. rewrite closed_at_nx. destruct (Nat.eqb c i) eqn:E; auto. apply Nat.eqb_eq in E. congruence. }
    assert (X2 : forall i, i <> e -> pv d' i = pv d i).
    { intros i Hi. unfold d'. rewrite closed_at_pv. destruct (Nat.eqb e i) eqn:E; auto. apply Nat.eqb_eq in E. congruence. }
    assert (X3 : forall i, ends d' i = ends d i) by (intros; now apply sbl_ends).
    assert (X4 : nx d' c = Some (Some e)) by (unfold d'; rewrite closed_at_nx, Nat.eqb_refl, K7; auto).
    assert (X5 : pv d' e = Some (Some c)) by (unfold d'; rewrite closed_at_pv, Nat.eqb_refl, K6; auto).
    assert (PC : concat (ls ++ [e :: r]) ++ [] = concat ls ++ e :: r).
    { rewrite app_nil_r, concat_app. cbn. now rewrite app_nil_r. }
    assert (NDr : NoDup (e :: r)) by (now apply nodup_app_r in K2).
    unfold lk. rewrite PC. csplit; auto.
    - apply Forall_app. split.
      + rewrite Forall_forall in *. intros l Hl. apply (round_ext d); auto.
        * intros i Hi. apply X1. apply Nc; auto. apply in_concat; eauto.
        * intros i Hi. apply X2. apply Nc; [|now left]. apply in_concat; eauto.
      + constructor; auto. split; [discriminate|]. rewrite last_cons. cbn [run_of]. fold c. split.
        * apply follows_views. rewrite !X3. eauto 8.
        * eapply run_ext; [| | |exact K5]; auto.
          -- intros i Hi. apply X1. intros ->. destruct r as [|b r']; [contradiction|].
             apply (nodup_last_notin (b :: r') e) in Hi; auto. discriminate.
          -- intros i Hi. apply X2. intros ->. now inversion NDr.
    - intros i Hi. apply (proj1 (sbl_live _ _ i SB)). auto.
    - intros i h L. destruct (proj2 (sbl_live _ _ i SB)) as (x & Lx); [eauto|].
      destruct (K4 i x Lx) as [I|(F1 & F2)]; auto.
      destruct (Nat.eq_dec i e) as [->|Hn]; [left; apply in_or_app; right; now left|].
      destruct (Nat.eq_dec i c) as [->|Hc]; [left; apply in_or_app; right; exact Ic|]. right.
      specialize (X1 i Hc). specialize (X2 i Hn). rewrite (nx_live _ _ _ L), (nx_live _ _ _ Lx) in X1.
      rewrite (pv_live _ _ _ L), (pv_live _ _ _ Lx) in X2. split; congruence.
  Qed.

  (** Fields the linking does not touch. *)
  Definition same_rest d d' : Prop :=
    same_but_links d d' /\ d_fpool d' = d_fpool d /\ d_faces d' = d_faces d.
  Lemma same_rest_trans d1 d2 d3 : same_rest d1 d2 -> same_rest d2 d3 -> same_rest d1 d3.
  Proof. intros (A1 & A2 & A3) (B1 & B2 & B3). split; [eapply sbl_trans; eauto|split; congruence]. Qed.

  Lemma path_bound d ls path : wf d -> lk d ls path -> length path <= length (d_edges d).
  Proof.
    intros ((R1 & R2 & R3) & _) (K1 & K2 & K3 & _). apply NoDup_incl_length.
    - now apply nodup_app_r in K2.
    - intros i Hi. apply R2, K3. apply in_or_app; auto.
  Qed.

  Lemma walk_run f e se : forall fuel d ls r, wf d -> twinned d -> lk d ls (e :: r) ->
    (exists u, ends d e = Some (se, u)) -> (r = [] \/ exists s m, ends d (last r e) = Some (s, m) /\ m <> se) ->
    length (d_edges d) < fuel + length (e :: r) ->
    exists d' l, walk_face fuel d f e se (last r e) = Ok d' /\ lk d' (ls ++ [e :: l]) [] /\ same_rest d d'.
  Proof.
    induction fuel as [|fuel IH]; intros d ls r W HT HK (u & Ee) Hc HF.
    - apply path_bound in HK; auto. lia.
    - set (c := last r e) in *. pose proof HK as (K1 & K2 & K3 & K4 & K5 & K6 & K7). fold c in K7.
      unfold nx in K7. destruct (hv d c) as [h|] eqn:Eh; [|discriminate]. cbn in K7. injection K7 as K7.
      apply hv_live in Eh. cbn [walk_face]. rewrite (proj2 (half_at_ok d c h) Eh). cbn [bind]. rewrite K7.
      rewrite (hmod_run d c _ h Eh). cbn [bind].
      set (d1 := wd_halves d (upd (d_halves d) c (option_map (set_face (Some f))))).
      assert (V1 : forall i, nx d1 i = nx d i /\ pv d1 i = pv d i /\ ends d1 i = ends d i).
      { intros i. unfold nx, pv, ends, d1. rewrite hv_upd. destruct (Nat.eqb c i), (hv d i); auto. }
      assert (S1 : same_but_links d d1) by (apply sbl_upd; auto).
      assert (W1 := sbl_wf _ _ S1 W). assert (T1 := sbl_twinned _ _ S1 HT).
      assert (L1 : live d1 c (set_face (Some f) h)) by (apply live_hmod; rewrite Nat.eqb_refl; eauto).
      assert (HK1 : lk d1 ls (e :: r)) by (apply (lk_ext d); auto; apply V1).
      assert (Lk : h_end h < length (d_points d1)) by (apply (proj2 (proj2 (proj1 W)) c h Eh)).
      destruct (point_run d1 _ Lk) as (p & Kp & Ep). rewrite Ep. cbn [bind].
      destruct (get_next_run d1 _ p c _ ls (e :: r) W1 T1 HK1 Kp L1 eq_refl K7) as (n & hn & R & Ln & Sn & Pn).
      rewrite R. cbn [bind]. rewrite (hmod_run d1 c _ _ L1). cbn [bind deref of_opt].
      set (d2 := wd_halves d1 (upd (d_halves d1) c (option_map (set_next (Some n))))).
      destruct (proj1 (sbl_live d1 d2 n (sbl_next d1 c (Some n)))) as (h2 & L2); [eauto|].
      rewrite (hmod_run d2 n _ h2 L2). cbn [bind].
      change (wd_halves d2 (upd (d_halves d2) n (option_map (set_prev (Some c))))) with (linked_on d f c n).
      set (d3 := linked_on d f c n).
      assert (S3 : same_but_links d d3) by apply linked_on_sbl.
      assert (W3 := sbl_wf _ _ S3 W). assert (T3 := sbl_twinned _ _ S3 HT).
      assert (Lnd : exists x, live d n x) by (apply (proj2 (sbl_live d d1 n S1)); eauto).
      destruct (proj1 (sbl_live d d3 n S3) Lnd) as (h3 & L3). rewrite (proj2 (half_at_ok d3 n h3) L3). cbn [bind].
      assert (En : ends d n = Some (h_end h, h_end h3)).
      { pose proof (sbl_ends d d3 n S3) as X. rewrite (ends_live _ _ _ L3) in X.
        pose proof (sbl_ends d d1 n S1) as Y. rewrite (ends_live _ _ _ Ln) in Y. rewrite Sn in Y. cbn in Y. congruence. }
      assert (Ec : ends d c = Some (h_start h, h_end h)) by (now apply ends_live).
      assert (Pnd : pv d n = Some None).
      { rewrite <- (proj1 (proj2 (V1 n))). rewrite (pv_live _ _ _ Ln). congruence. }
      assert (LC3 : live d3 e match hv d3 e with Some x => x | None => h end).
      { destruct (hv d3 e) as [x|] eqn:E; [now apply hv_live|]. exfalso.
        pose proof (sbl_ends d d3 e S3) as X. rewrite Ee in X. unfold ends in X. rewrite E in X. discriminate. }
      (* either a new half edge, or the first one, which is then a loop at its point *)
      destruct (in_dec Nat.eq_dec n (concat ls ++ e :: r)) as [I|NI].
      + assert (n = e).
        { apply in_app_or in I as [I|[I|I]]; auto; exfalso.
          - apply in_concat in I as (l & Hl & I). rewrite Forall_forall in K1.
            destruct (round_prev d l n (K1 l Hl) I) as (g & _ & G). apply follows_views in G as (_ & G & _). congruence.
          - destruct (run_prev _ _ _ _ K5 I) as (g & _ & G). apply follows_views in G as (_ & G & _). congruence. }
        subst n. rewrite Ee in En. injection En as En1 En2.
        destruct Hc as [-> | (s & m & Hc & NE)]; [|rewrite Ec in Hc; congruence].
        cbn in c. subst c. rewrite Ee in Ec. injection Ec as _ Ec. 
        replace (h_end h3) with se by congruence. rewrite Nat.eqb_refl.
        rewrite (hmod_run d3 e _ _ L3). cbn [bind].
        set (d4 := wd_halves d3 (upd (d_halves d3) e (option_map (set_next (Some e))))).
        assert (L4 : live d4 e (set_next (Some e) h3)) by (apply live_hmod; rewrite Nat.eqb_refl; eauto).
        rewrite (hmod_run d4 e _ _ L4).
        change (wd_halves d4 (upd (d_halves d4) e (option_map (set_prev (Some e))))) with (closed_at d3 e e).
        exists (closed_at d3 e e), []. split; [reflexivity|]. split.
        * apply (lk_ext (closed_at d e e)).
          -- intros i. rewrite !closed_at_nx. unfold d3. rewrite linked_on_nx. destruct (Nat.eqb e i), (nx d i); auto.
          -- intros i. rewrite !closed_at_pv. unfold d3. rewrite linked_on_pv. destruct (Nat.eqb e i), (pv d i); auto.
          -- intros i. rewrite !(sbl_ends _ _ i (closed_at_sbl _ _ _)). now rewrite (sbl_ends _ _ i S3).
          -- apply (lk_close d ls e [] se u); auto.
             exists u. rewrite Ee. congruence.
        * split; [|split; reflexivity]. eapply sbl_trans; [exact S3|]. apply closed_at_sbl.
      + pose proof (lk_extend d f ls e r n (h_start h) (h_end h) (h_end h3) HK NI Pnd Ec En) as HK3. fold c d3 in HK3.
        assert (Ln3 : last (r ++ [n]) e = n) by apply last_last.
        assert (Ee3 : exists u, ends d3 e = Some (se, u)) by (exists u; now rewrite (sbl_ends _ _ e S3)).
        destruct (Nat.eqb (h_end h3) se) eqn:EB.
        * apply Nat.eqb_eq in EB.
          rewrite (hmod_run d3 n _ _ L3). cbn [bind].
          set (d4 := wd_halves d3 (upd (d_halves d3) n (option_map (set_next (Some e))))).
          destruct (proj1 (sbl_live d3 d4 e (sbl_next d3 n (Some e)))) as (h4 & L4); [eauto|].
          rewrite (hmod_run d4 e _ _ L4).
          change (wd_halves d4 (upd (d_halves d4) e (option_map (set_prev (Some n))))) with (closed_at d3 n e).
          exists (closed_at d3 n e), (r ++ [n]). split; [reflexivity|]. split.
          -- rewrite <- Ln3 at 1. apply (lk_close d3 ls e (r ++ [n]) (h_end h) se); auto.
             rewrite Ln3, (sbl_ends _ _ n S3), En. congruence.
          -- split; [|split; reflexivity]. eapply sbl_trans; [exact S3|]. apply closed_at_sbl.
        * apply Nat.eqb_neq in EB. 
          destruct (IH d3 ls (r ++ [n]) W3 T3 HK3 Ee3) as (d' & l & Rw & Lw & Sw).
          -- right. rewrite Ln3. exists (h_end h), (h_end h3). split; auto. now rewrite (sbl_ends _ _ n S3).
          -- cbn in HF |- *. rewrite app_length. cbn. lia.
          -- rewrite Ln3 in Rw. exists d', l. split; auto. split; auto. eapply same_rest_trans; [|exact Sw].
             split; auto.
  Qed.

  Lemma edges_bound d : wf d -> length (d_edges d) <= length (d_halves d).
  Proof.
    intros ((R1 & R2 & R3) & _). rewrite <- (seq_length (length (d_halves d)) 0). apply NoDup_incl_length; auto.
    intros i Hi. apply R2 in Hi as (h & L). apply in_seq. apply nth_lt in L. lia.
  Qed.

  (** *** All half edges *)
  Definition fpool_ok d (fs : list nat) (ls : list (list nat)) : Prop :=
    Forall2 (fun f l => nth_error (d_fpool d) f = Some (hd 0 l)) fs ls.
  Lemma start_face_run d e h ls : wf d -> twinned d -> lk d ls [] -> fpool_ok d (d_faces d) ls -> live d e h ->
    exists d' ls', start_face d e = Ok d' /\ lk d' ls' [] /\ fpool_ok d' (d_faces d') ls' /\ same_but_links d d' /\
      (exists l, ls' = ls ++ l) /\ In e (concat ls').
  Proof.
    intros W HT HK HP L. unfold start_face. rewrite (proj2 (half_at_ok d e h) L). cbn [bind].
    pose proof HK as (K1 & K2 & K3 & K4 & _).
    destruct (h_next h) as [n|] eqn:EN.
    - exists d, ls. csplit; auto; [apply sbl_refl|exists []; now rewrite app_nil_r|].
      destruct (K4 e h L) as [I|(E & _)]; [|congruence]. now rewrite app_nil_r in I.
    - set (f := length (d_fpool d)).
      set (d1 := wd_faces (wd_fpool d (d_fpool d ++ [e])) (d_faces (wd_fpool d (d_fpool d ++ [e])) ++ [f])).
      change (wd_faces (wd_fpool d (d_fpool d ++ [e])) (d_faces (wd_fpool d (d_fpool d ++ [e])) ++ [f])) with d1.
      assert (S1 : same_but_links d d1).
      { unfold same_but_links; csplit; auto. intros i. change (hv d1 i) with (hv d i). destruct (hv d i); auto. }
      assert (W1 := sbl_wf _ _ S1 W). assert (T1 := sbl_twinned _ _ S1 HT).
      assert (NI : ~ In e (concat ls)).
      { intros I. apply in_concat in I as (l & Hl & I). rewrite Forall_forall in K1.
        destruct (round_next d l e (K1 l Hl) I) as (n & _ & G). apply follows_views in G as (G & _).
        rewrite (nx_live _ _ _ L) in G. congruence. }
      assert (PN : h_prev h = None).
      { destruct (K4 e h L) as [I|(_ & E)]; auto. rewrite app_nil_r in I. contradiction. }
      assert (HK1 : lk d1 ls [e]).
      { unfold lk. change (live d1) with (live d). csplit.
        - eapply Forall_impl; [|exact K1]. intros l. apply round_ext; reflexivity.
        - rewrite app_nil_r in K2. now apply nodup_snoc.
        - intros i I. apply in_app_or in I as [I|[<-|[]]]; eauto. apply K3. now rewrite app_nil_r.
        - intros i x Lx. destruct (K4 i x Lx) as [I|E]; auto. left. rewrite app_nil_r in I. apply in_or_app; auto.
        - cbn; auto.
        - change (pv d1 e) with (pv d e). rewrite (pv_live _ _ _ L). congruence.
        - change (nx d1 (last [] e)) with (nx d e). rewrite (nx_live _ _ _ L). congruence. }
      destruct (walk_run f e (h_start h) (S (length (d_halves d1))) d1 ls [] W1 T1 HK1) as (d' & l & R & L' & (SB & F1 & F2)).
      + exists (h_end h). change (ends d1 e) with (ends d e). now apply ends_live.
      + now left.
      + pose proof (edges_bound d1 W1). cbn [length]. lia.
      + cbn [last] in R. rewrite R. exists d', (ls ++ [e :: l]). csplit; auto.
        * unfold fpool_ok. rewrite F1, F2. cbn. apply Forall2_app.
          -- eapply forall2_impl; [|exact HP]. cbn. intros a b E. rewrite nth_error_app1; auto. eapply nth_lt; eauto.
          -- constructor; [|constructor]. cbn. unfold f. apply nth_snoc_last.
        * eauto.
        * rewrite concat_app. apply in_or_app. right. cbn. now left.
  Qed.
  Lemma link_faces_run l : forall d ls, wf d -> twinned d -> lk d ls [] -> fpool_ok d (d_faces d) ls ->
    (forall e, In e l -> exists h, live d e h) ->
    exists d' ls', link_faces d l = Ok d' /\ lk d' ls' [] /\ fpool_ok d' (d_faces d') ls' /\ same_but_links d d' /\
      (exists x, ls' = ls ++ x) /\ forall e, In e l -> In e (concat ls').
  Proof.
    induction l as [|e r IH]; intros d ls W HT HK HP HL; cbn.
    - exists d, ls. csplit; auto; [apply sbl_refl|exists []; now rewrite app_nil_r|intros ? []].
    - destruct (HL e (or_introl eq_refl)) as (h & L).
      destruct (start_face_run d e h ls W HT HK HP L) as (d1 & ls1 & R & HK1 & HP1 & SB & (x & ->) & I). rewrite R. cbn [bind].
      destruct (IH d1 (ls ++ x) (sbl_wf _ _ SB W) (sbl_twinned _ _ SB HT) HK1 HP1) as (d' & ls' & R' & HK' & HP' & SB' & (y & ->) & I').
      { intros i Hi. apply (proj1 (sbl_live _ _ i SB)). apply HL. now right. }
      exists d', ((ls ++ x) ++ y). csplit; auto.
      + eapply sbl_trans; eauto.
      + exists (x ++ y). now rewrite app_assoc.
      + intros i [<-|Hi]; auto. rewrite concat_app. apply in_or_app; auto.
  Qed.
End Link.
