(** The scan line reports each overlapping pair once. *)
From Coq Require Import ZArith Bool List Arith Permutation Sorted Lia.
From Verif Require Import Num Order Rmath RectSpec RectProofs ScanLine.
Import ListNotations.

Section Scan.
  Context {T : Type} {N : Num T} {O : OrdNum T}.
  Variable order : list nat -> list nat.
  Hypothesis order_perm : forall l, Permutation (order l) l.
  Variable boxes : list (rect T).
  Notation hit c j := (rect_intersect (box_of boxes c) (box_of boxes j)).

  Inductive ev := EIn (i : nat) | EOut (i : nat).
  Definition evs1 (p : scan_point T) : list ev := map EIn (sp_in p) ++ map EOut (sp_out p).
  Definition evs (ps : list (scan_point T)) : list ev := flat_map evs1 ps.

  Definition step (e : ev) (cur : list nat) : list nat :=
    match e with EIn i => set_insert i cur | EOut i => set_erase i cur end.
  Fixpoint run (E : list ev) (cur : list nat) : list (nat * nat) :=
    match E with
    | [] => []
    | e :: r =>
      (match e with EIn i => map (fun c => (c, i)) (filter (fun c => hit c i) (order cur)) | _ => [] end)
        ++ run r (step e cur)
    end.
  Definition fin (E : list ev) (cur : list nat) : list nat := fold_left (fun c e => step e c) E cur.

  Lemma run_app E F cur : run (E ++ F) cur = run E cur ++ run F (fin E cur).
  Proof. revert cur; induction E as [|e E IH]; intros cur; cbn [run app]; [reflexivity|]. rewrite IH, app_assoc. reflexivity. Qed.

  Lemma do_in_run ins : forall cur, do_in order boxes ins cur = (run (map EIn ins) cur, fin (map EIn ins) cur).
  Proof. induction ins as [|i r IH]; intros cur; cbn [do_in map run]; [reflexivity|]. rewrite IH. reflexivity. Qed.
  Lemma run_outs outs : forall cur, run (map EOut outs) cur = [] /\ fin (map EOut outs) cur = do_out outs cur.
  Proof. induction outs as [|i r IH]; intros cur; [split; reflexivity|]. apply IH. Qed.

  Lemma do_points_run ps : forall cur, do_points order boxes ps cur = run (evs ps) cur.
  Proof.
    induction ps as [|p r IH]; intros cur; cbn [do_points evs flat_map]; auto.
    rewrite do_in_run. unfold evs1. rewrite <- app_assoc, !run_app.
    destruct (run_outs (sp_out p) (fin (map EIn (sp_in p)) cur)) as [-> ->]. rewrite IH. auto.
  Qed.

  Lemma mem_In i l : mem i l = true <-> In i l.
  Proof.
    unfold mem. rewrite existsb_exists. split.
    - intros (x&Hx&E). apply Nat.eqb_eq in E. subst; auto.
    - intros H. exists i. split; auto. apply Nat.eqb_refl.
  Qed.
  Lemma In_set_insert i c l : In c (set_insert i l) <-> c = i \/ In c l.
  Proof.
    unfold set_insert. destruct (mem i l) eqn:E; cbn; [apply mem_In in E|]; intuition (subst; auto).
  Qed.
  Lemma In_set_erase i c l : In c (set_erase i l) <-> In c l /\ c <> i.
  Proof.
    unfold set_erase. rewrite filter_In, negb_true_iff, Nat.eqb_neq. intuition.
  Qed.
  Lemma NoDup_step e l : NoDup l -> NoDup (step e l).
  Proof.
    intros H. destruct e; cbn.
    - unfold set_insert. destruct (mem i l) eqn:E; auto. constructor; auto. rewrite <- mem_In, E. discriminate.
    - apply NoDup_filter; auto.
  Qed.

  Lemma In_run c j E : forall cur, In (c, j) (run E cur) <->
    exists E1 E2, E = E1 ++ EIn j :: E2 /\ In c (fin E1 cur) /\ hit c j = true.
  Proof.
    induction E as [|e r IH]; intros cur; cbn [run].
    - split; [intros []|]. intros (E1&E2&H&_). destruct E1; discriminate.
    - rewrite in_app_iff, IH. split.
      + intros [H|(E1&E2&->&H1&H2)].
        * destruct e; [|destruct H]. apply in_map_iff in H as (x&E&H). injection E as -> ->.
          apply filter_In in H as [H1 H2]. exists [], r. repeat split; auto. cbn.
          eapply Permutation_in; eauto.
        * exists (e :: E1), E2. auto.
      + intros (E1&E2&H&H1&H2). destruct E1 as [|e' E1]; cbn in H; injection H as -> ->.
        * left. apply in_map_iff. exists c. split; auto. apply filter_In. split; auto.
          eapply Permutation_in; [symmetry; apply order_perm|]; auto.
        * right. eauto 6.
  Qed.

  Lemma NoDup_run E : forall cur, NoDup E -> NoDup cur -> NoDup (run E cur).
  Proof.
    induction E as [|e r IH]; intros cur HE Hc; cbn [run]; [constructor|].
    inversion_clear HE as [|? ? He Hr]. specialize (IH (step e cur) Hr (NoDup_step e _ Hc)).
    destruct e as [i|i]; [|exact IH].
    assert (HN : NoDup (filter (fun c => hit c i) (order cur))).
    { apply NoDup_filter. eapply Permutation_NoDup; [symmetry; apply order_perm|auto]. }
    pose proof (fun c => proj1 (In_run c i r (step (EIn i) cur))) as Haux. cbn [step] in *.
    induction (filter (fun c => hit c i) (order cur)) as [|x xs IHx]; cbn; auto.
    inversion_clear HN as [|? ? Hx Hxs]. constructor; auto.
    rewrite in_app_iff. intros [H|H].
    - apply in_map_iff in H as (y&E&H). injection E as ->. auto.
    - apply Haux in H as (E1&E2&->&_). apply He. apply in_elt.
  Qed.

  Lemma In_fin c E : In c (fin E []) <-> exists A B, E = A ++ EIn c :: B /\ ~ In (EOut c) B.
  Proof.
    induction E as [|e E IH] using rev_ind.
    - cbn. split; [tauto|]. intros (A&B&H&_). destruct A; discriminate.
    - unfold fin. rewrite fold_left_app. fold (fin E []). cbn [fold_left].
      assert (Hsplit : (exists A B, E ++ [e] = A ++ EIn c :: B /\ ~ In (EOut c) B) <->
        e = EIn c \/ e <> EOut c /\ exists A B, E = A ++ EIn c :: B /\ ~ In (EOut c) B).
      { split.
        - intros (A&B&H&HB). destruct B as [|b B] using rev_ind.
          + apply app_inj_tail in H as [_ ->]. auto.
          + clear IHB. rewrite app_comm_cons, app_assoc in H. apply app_inj_tail in H as [-> ->].
            right. rewrite in_app_iff in HB. split; [intros ->; apply HB; cbn; auto|].
            exists A, B. split; auto.
        - intros [->|(He&A&B&->&HB)].
          + exists E, []. auto.
          + exists A, (B ++ [e]). rewrite <- app_assoc. split; auto.
            rewrite in_app_iff. intros [H|[H|[]]]; auto. }
      rewrite Hsplit, <- IH. destruct e as [i|i]; cbn [step].
      + rewrite In_set_insert. split.
        * intros [->|H]; [auto|]. right. split; [discriminate|auto].
        * intros [H|[_ H]]; auto. left. congruence.
      + rewrite In_set_erase. split.
        * intros [H Hn]. right. split; auto. congruence.
        * intros [H|[H1 H]]; [discriminate|]. split; congruence.
  Qed.

  (** What [add_segment] maintains. *)
  Definition has_keys (p : scan_point T) : Prop :=
    nvalid (sp_x p) /\
    (forall i, In i (sp_in p) -> rvalid (box_of boxes i) /\ n_eqb (vx (rmin (box_of boxes i))) (sp_x p) = true) /\
    (forall i, In i (sp_out p) -> rvalid (box_of boxes i) /\ n_eqb (vx (rmax (box_of boxes i))) (sp_x p) = true).
  Definition px_lt (p q : scan_point T) : Prop := nlt (sp_x p) (sp_x q).

  Lemma neq_refl a : nvalid a -> n_eqb a a = true.
  Proof. intros H. rewrite neq_le by auto. rewrite (nle_refl a H). reflexivity. Qed.

  (** The two operations used with [at_point]. *)
  Definition pushes (f : scan_point T -> scan_point T) (x : T) (e : ev) : Prop :=
    (forall p, sp_x (f p) = sp_x p) /\
    (forall p, Permutation (evs1 (f p)) (e :: evs1 p)) /\
    (forall p, has_keys p -> n_eqb x (sp_x p) = true -> has_keys (f p)).

  Lemma pushes_in i : rvalid (box_of boxes i) -> pushes (push_in i) (vx (rmin (box_of boxes i))) (EIn i).
  Proof.
    intros Vb. split; [|split]; auto.
    - intros p. unfold evs1, push_in. cbn. rewrite map_app, <- app_assoc. cbn. symmetry. apply Permutation_middle.
    - intros p (H1&H2&H3) Hx. split; [|split]; cbn; auto.
      intros k [Hk|[<-|[]]]%in_app_iff; auto.
  Qed.
  Lemma pushes_out i : rvalid (box_of boxes i) -> pushes (push_out i) (vx (rmax (box_of boxes i))) (EOut i).
  Proof.
    intros Vb. split; [|split]; auto.
    - intros p. unfold evs1, push_out. cbn. rewrite map_app, app_assoc. cbn. symmetry. apply Permutation_cons_append.
    - intros p (H1&H2&H3) Hx. split; [|split]; cbn; auto.
      intros k [Hk|[<-|[]]]%in_app_iff; auto.
  Qed.

  Lemma at_point_ok f x e ps : pushes f x e -> nvalid x -> Forall has_keys ps -> StronglySorted px_lt ps ->
    Forall has_keys (at_point x f ps) /\ StronglySorted px_lt (at_point x f ps) /\
    Permutation (evs (at_point x f ps)) (e :: evs ps) /\
    (forall q, nlt (sp_x q) x -> Forall (px_lt q) ps -> Forall (px_lt q) (at_point x f ps)).
  Proof.
    intros (Hx&Hp&Hk) Vx. induction ps as [|p r IH]; intros HF HS; cbn [at_point].
    - assert (Hk0 : has_keys (SP x [] [])) by (split; cbn; auto; split; intros ? []).
      repeat split.
      + constructor; auto. apply Hk; auto. apply neq_refl; auto.
      + constructor; constructor.
      + cbn. rewrite app_nil_r. apply Hp.
      + intros q Hq _. constructor; auto. unfold px_lt. rewrite Hx. auto.
    - inversion_clear HF as [|? ? Kp Kr]. inversion_clear HS as [|? ? Sr Sp].
      assert (Hk0 : has_keys (SP x [] [])) by (split; cbn; auto; split; intros ? []).
      destruct (n_ltb x (sp_x p)) eqn:E1; [|destruct (n_ltb (sp_x p) x) eqn:E2].
      + repeat split.
        * constructor; auto. apply Hk; auto. apply neq_refl; auto.
        * constructor; [constructor; auto|]. constructor.
          -- unfold px_lt. rewrite Hx. exact E1.
          -- rewrite Forall_forall in Sp, Kr |- *. intros q Hq. unfold px_lt. rewrite Hx. cbn.
             eapply nlt_trans; [..|exact E1|apply (Sp q Hq)]; auto; [apply Kp|apply (Kr q Hq)].
        * cbn. rewrite (Hp (SP x [] [])). cbn. auto.
        * intros q Hq Hqs. constructor; auto. unfold px_lt. rewrite Hx. auto.
      + destruct (IH Kr Sr) as (I1&I2&I3&I4). repeat split.
        * constructor; auto.
        * constructor; auto.
        * cbn. rewrite I3. symmetry. apply Permutation_middle.
        * intros q Hq Hqs. inversion_clear Hqs. constructor; auto.
      + repeat split.
        * constructor; auto. apply Hk; auto. rewrite neq_le by (auto; apply Kp).
          rewrite !nle_negb by (auto; apply Kp). rewrite E1, E2. auto.
        * constructor; auto. unfold px_lt in *. rewrite Hx. auto.
        * cbn. rewrite (Hp p). auto.
        * intros q Hq Hqs. inversion_clear Hqs. constructor; auto. unfold px_lt in *. rewrite Hx; auto.
  Qed.
End Scan.

Section Whole.
  Context {T : Type} {N : Num T} {O : OrdNum T}.

  Definition allev (n : nat) : list ev := flat_map (fun i => [EIn i; EOut i]) (seq 0 n).

  Definition inv (bs : list (rect T)) (s : scan_line T) (n : nat) : Prop :=
    sl_boxes s = firstn n bs /\ Forall (has_keys bs) (sl_points s) /\ StronglySorted px_lt (sl_points s) /\
    Permutation (evs (sl_points s)) (allev n).

  Lemma inv_step bs s n b : inv bs s n -> nth_error bs n = Some b -> rvalid b -> inv bs (add_segment s b) (S n).
  Proof.
    intros (I1&I2&I3&I4) Hb Vb.
    assert (Hl : length (sl_boxes s) = n).
    { rewrite I1. apply firstn_length_le. apply Nat.lt_le_incl. apply nth_error_Some. congruence. }
    assert (Eb : box_of bs n = b) by (unfold box_of; erewrite nth_error_nth; eauto).
    unfold add_segment. rewrite Hl.
    destruct (at_point_ok bs (push_in n) (vx (rmin b)) (EIn n) (sl_points s)) as (J1&J2&J3&_); auto.
    { rewrite <- Eb in *. apply pushes_in; auto. } { apply Vb. }
    destruct (at_point_ok bs (push_out n) (vx (rmax b)) (EOut n) _ ltac:(rewrite <- Eb in *; apply pushes_out; auto) ltac:(apply Vb) J1 J2)
      as (K1&K2&K3&_).
    repeat split; cbn [sl_points sl_boxes]; auto.
    - rewrite I1. clear -Hb. revert bs Hb. induction n as [|n IH]; intros [|x bs] H; try discriminate; cbn in *.
      + congruence.
      + f_equal. apply IH; auto.
    - rewrite K3, J3, I4. unfold allev. rewrite seq_S, flat_map_app. cbn.
      rewrite perm_swap. apply (Permutation_app_comm [EIn n; EOut n]).
  Qed.

  Lemma inv_all bs : Forall rvalid bs -> inv bs (scan_of bs) (length bs).
  Proof.
    intros HV. unfold scan_of.
    assert (G : forall k pre s, bs = pre ++ k -> inv bs s (length pre) -> inv bs (fold_left add_segment k s) (length bs)).
    { induction k as [|b k IH]; intros pre s E I; cbn.
      - replace (length bs) with (length pre); [auto|]. rewrite E, app_nil_r. auto.
      - apply (IH (pre ++ [b])); [rewrite <- app_assoc; auto|]. rewrite app_length, Nat.add_1_r.
        apply inv_step; auto.
        + rewrite E, nth_error_app2, Nat.sub_diag; auto.
        + rewrite Forall_forall in HV. apply HV. rewrite E. apply in_elt. }
    apply (G bs []); auto. repeat split; cbn; constructor.
  Qed.

  Lemma NoDup_allev n : NoDup (allev n).
  Proof.
    unfold allev. induction n as [|n IH]; [constructor|].
    rewrite seq_S, flat_map_app. cbn. eapply Permutation_NoDup; [apply Permutation_app_comm|]. cbn.
    assert (K : forall e, In e (flat_map (fun i => [EIn i; EOut i]) (seq 0 n)) ->
      e <> EIn n /\ e <> EOut n).
    { intros e H. apply in_flat_map in H as (i&Hi&H). apply in_seq in Hi.
      cbn in H. destruct H as [<-|[<-|[]]]; split; try discriminate; intros E; injection E; lia. }
    constructor; [|constructor; auto].
    - intros [H|H]; [discriminate|]. destruct (K _ H); auto.
    - intros H. destruct (K _ H); auto.
  Qed.
  Lemma In_allev n i : (In (EIn i) (allev n) <-> i < n) /\ (In (EOut i) (allev n) <-> i < n).
  Proof.
    unfold allev. rewrite !in_flat_map. split; split.
    - intros (k&Hk&[H|[H|[]]]); try discriminate. injection H as ->. apply in_seq in Hk. lia.
    - intros H. exists i. rewrite in_seq. cbn. split; [lia|auto].
    - intros (k&Hk&[H|[H|[]]]); try discriminate. injection H as ->. apply in_seq in Hk. lia.
    - intros H. exists i. rewrite in_seq. cbn. split; [lia|auto].
  Qed.

  (** An out event before an in event belongs to a smaller x. *)
  Definition ev_ok bs (e1 e2 : ev) : Prop :=
    match e1, e2 with
    | EOut c, EIn j => nlt (vx (rmax (box_of bs c))) (vx (rmin (box_of bs j)))
    | _, _ => True
    end.

  Lemma In_evs1 (p : scan_point T) e : In e (evs1 p) <->
    match e with EIn i => In i (sp_in p) | EOut i => In i (sp_out p) end.
  Proof.
    unfold evs1. rewrite in_app_iff, !in_map_iff. destruct e; split.
    - intros [(x&E&H)|(x&E&H)]; congruence.
    - eauto.
    - intros [(x&E&H)|(x&E&H)]; congruence.
    - eauto.
  Qed.

  Lemma SS_app {A} (P : A -> A -> Prop) l1 l2 : StronglySorted P l1 -> StronglySorted P l2 ->
    (forall a b, In a l1 -> In b l2 -> P a b) -> StronglySorted P (l1 ++ l2).
  Proof.
    intros H1 H2 H. induction H1 as [|a l1 H1 IH HF]; cbn; auto. constructor.
    - apply IH. intros; apply H; cbn; auto.
    - apply Forall_app. split; auto. apply Forall_forall. intros b Hb. apply H; cbn; auto.
  Qed.

  Lemma evs_sorted bs ps : Forall (has_keys bs) ps -> StronglySorted px_lt ps ->
    StronglySorted (ev_ok bs) (evs ps).
  Proof.
    intros HK HS. induction HS as [|p ps HS IH HF]; cbn; [constructor|].
    inversion_clear HK as [|? ? Kp Kps]. apply SS_app; auto.
    - unfold evs1. apply SS_app.
      + induction (sp_in p); cbn; constructor; auto. apply Forall_forall. intros; exact I.
      + induction (sp_out p); cbn; constructor; auto. apply Forall_forall. intros e He.
        apply in_map_iff in He as (x&<-&_). exact I.
      + intros a b Ha Hb. apply in_map_iff in Ha as (x&<-&_). exact I.
    - intros a b Ha Hb. apply in_flat_map in Hb as (q&Hq&Hb). rewrite In_evs1 in Ha, Hb.
      destruct a as [i|c]; [exact I|]. destruct b as [j|j]; [|exact I]. cbn.
      rewrite Forall_forall in HF, Kps. specialize (HF q Hq). specialize (Kps q Hq).
      destruct Kp as (V1&_&K1), Kps as (V2&K2&_). destruct (K1 c Ha) as [[_ [Vc _]] K1']. destruct (K2 j Hb) as [[[Vj _] _] K2'].
      unfold nlt, px_lt, nlt in *.
      eapply neq_lt_trans; [..|exact K1'|]; auto.
      eapply nlt_eq_trans; [..|exact HF|]; auto. rewrite neq_sym. auto.
  Qed.

  Lemma SS_split {A} (P : A -> A -> Prop) l1 x l2 y l3 : StronglySorted P (l1 ++ x :: l2 ++ y :: l3) -> P x y.
  Proof.
    induction l1; cbn; intros H; inversion_clear H; auto.
    rewrite Forall_forall in H1. apply H1. apply in_elt.
  Qed.

  Lemma order_once {A} (E1 E2 F1 F2 : list A) x y : NoDup (E1 ++ x :: E2) -> E1 ++ x :: E2 = F1 ++ y :: F2 ->
    In y E1 -> In x F1 -> False.
  Proof.
    revert F1. induction E1 as [|e E1 IH]; intros F1 HN HE Hy Hx; [destruct Hy|].
    destruct F1 as [|f F1]; [destruct Hx|]. cbn in HE. injection HE as -> HE.
    cbn in HN. inversion_clear HN as [|? ? Hn HN'].
    destruct Hx as [->|Hx]; [apply Hn; apply in_elt|].
    destruct Hy as [->|Hy]; [apply Hn; rewrite HE; apply in_elt|].
    eauto.
  Qed.

  Lemma nth_Forall {A} (P : A -> Prop) (l : list A) d : P d -> Forall P l -> forall i, P (nth i l d).
  Proof.
    intros Hd H. induction H; intros [|i]; cbn; auto.
  Qed.

  Theorem C20_lemma (order : list nat -> list nat) (bs : list (rect T)) :
    (forall l, Permutation (order l) l) -> Forall rect_wf bs ->
    let l := scan_process order (scan_of bs) in
    NoDup l /\ (forall i j, In (i, j) l -> ~ In (j, i) l) /\
    forall i j, (In (i, j) l \/ In (j, i) l) <->
      i <> j /\ exists a b p, nth_error bs i = Some a /\ nth_error bs j = Some b /\
        vvalid p /\ inbox a p /\ inbox b p.
  Proof.
    intros HO HW l.
    assert (HV : Forall rvalid bs) by (eapply Forall_impl; [|exact HW]; intros a Ha; apply Ha).
    destruct (inv_all bs HV) as (I1&I2&I3&I4). rewrite firstn_all in I1.
    unfold l, scan_process. rewrite I1, do_points_run. clear l. set (E := evs _) in *.
    assert (NE : NoDup E) by (eapply Permutation_NoDup; [symmetry; exact I4|apply NoDup_allev]).
    assert (ME : forall e, In e E <-> In e (allev (length bs))).
    { intros e. split; apply Permutation_in; [|symmetry]; auto. }
    assert (Hbox : forall i, i < length bs -> nth_error bs i = Some (box_of bs i)).
    { intros i Hi. unfold box_of. apply nth_error_nth'. auto. }
    assert (Hwf : forall i, i < length bs -> rect_wf (box_of bs i)).
    { intros i Hi. rewrite Forall_forall in HW. apply HW. eapply nth_error_In. apply Hbox; auto. }
    assert (Hsound : forall i j, In (i, j) (run order bs E []) ->
      exists E1 E2, E = E1 ++ EIn j :: E2 /\ In (EIn i) E1 /\ i < length bs /\ j < length bs /\
        rect_intersect (box_of bs i) (box_of bs j) = true).
    { intros i j H. apply In_run in H as (E1&E2&EE&H1&H2); auto.
      apply In_fin in H1 as (A&B&->&_). exists (A ++ EIn i :: B), E2. split; [auto|].
      assert (HA : In (EIn i) (A ++ EIn i :: B)) by apply in_elt. repeat split; auto.
      - apply (proj1 (In_allev _ _)), ME. rewrite EE. apply in_or_app. auto.
      - apply (proj1 (In_allev _ _)), ME. rewrite EE. apply in_elt. }
    assert (Hcomp : forall A i B j C, E = A ++ EIn i :: B ++ EIn j :: C -> i < length bs -> j < length bs ->
      rect_intersect (box_of bs i) (box_of bs j) = true -> In (i, j) (run order bs E [])).
    { intros A i B j C EE Hi Hj Hh. apply In_run; auto. exists (A ++ EIn i :: B), C.
      split; [rewrite EE, <- app_assoc; auto|]. split; [|auto].
      apply In_fin. exists A, B. split; auto. intros HB. apply in_split in HB as (B1&B2&->).
      assert (K := evs_sorted bs _ I2 I3). fold E in K. rewrite EE in K.
      replace (A ++ EIn i :: (B1 ++ EOut i :: B2) ++ EIn j :: C)
        with ((A ++ EIn i :: B1) ++ EOut i :: B2 ++ EIn j :: C) in K by (rewrite <- !app_assoc; cbn; rewrite <- ?app_assoc; reflexivity).
      apply SS_split in K. cbn in K.
      apply C07_lemma in Hh as (q&Vq&(P1&P2&P3&P4)&(Q1&Q2&Q3&Q4)); auto.
      destruct (Hwf i Hi) as [[Vi1 Vi2] _]. destruct (Hwf j Hj) as [[Vj1 Vj2] _].
      assert (L : nle (vx (rmin (box_of bs j))) (vx (rmax (box_of bs i)))).
      { eapply nle_trans; [..|exact Q1|exact P2]; first [apply Vi2|apply Vj1|apply Vq]. }
      apply nle_not_lt in L; [|apply Vj1|apply Vi2]. unfold nlt in K. congruence. }
    assert (Hhit : forall i j, i < length bs -> j < length bs ->
      rect_intersect (box_of bs i) (box_of bs j) = true <->
      exists a b p, nth_error bs i = Some a /\ nth_error bs j = Some b /\ vvalid p /\ inbox a p /\ inbox b p).
    { intros i j Hi Hj. rewrite C07_lemma by auto. split.
      - intros (p&H1&H2&H3). exists (box_of bs i), (box_of bs j), p. rewrite !Hbox by auto. split; [auto|]. split; [auto|]. auto.
      - intros (a&b&p&Ha&Hb&H). rewrite Hbox in Ha, Hb by auto. injection Ha as <-. injection Hb as <-. eauto. }
    split; [apply NoDup_run; auto; constructor|]. split.
    - intros i j H1 H2. apply Hsound in H1 as (E1&E2&EE&H1&_). apply Hsound in H2 as (F1&F2&FF&H2&_).
      rewrite EE in NE, FF. eapply order_once; eauto.
    - assert (Hboth : forall i j, In (i, j) (run order bs E []) -> i <> j /\ i < length bs /\ j < length bs /\
        rect_intersect (box_of bs i) (box_of bs j) = true).
      { intros i j H. apply Hsound in H as (E1&E2&EE&H1&Hi&Hj&Hh). repeat split; auto.
        intros ->. rewrite EE in NE. apply NoDup_remove_2 in NE. apply NE. apply in_or_app; auto. }
      intros i j. split.
      + intros [H|H]; apply Hboth in H as (Hn&Hi&Hj&Hh); split; auto; apply Hhit; auto.
        rewrite C07_sym_lemma; auto; apply Hwf; auto.
      + intros (Hn&a&b&p&Ha&Hb&Hp).
        assert (Hi : i < length bs) by (apply nth_error_Some; congruence).
        assert (Hj : j < length bs) by (apply nth_error_Some; congruence).
        assert (Hh : rect_intersect (box_of bs i) (box_of bs j) = true) by (apply Hhit; auto; exists a, b, p; auto).
        assert (Hh' : rect_intersect (box_of bs j) (box_of bs i) = true)
          by (rewrite C07_sym_lemma; auto; apply Hwf; auto).
        assert (Ii : In (EIn i) E) by (apply ME; apply (proj1 (In_allev _ _)); auto).
        assert (Ij : In (EIn j) E) by (apply ME; apply (proj1 (In_allev _ _)); auto).
        apply in_split in Ii as (A&B&EE). rewrite EE in Ij. apply in_app_iff in Ij as [Ij|[Ij|Ij]].
        * apply in_split in Ij as (A1&A2&->). right.
          apply (Hcomp A1 j A2 i B); auto. rewrite EE, <- app_assoc; auto.
        * injection Ij as ->. elim Hn; auto.
        * apply in_split in Ij as (B1&B2&->). left. eapply Hcomp; eauto.
  Qed.
End Whole.
