(** The operations on the active edge list refine operations on lists. *)
From Coq Require Import ZArith Bool List Permutation Lia.
From Verif Require Import Outcome Num Rmath Segment VState VAel VOut VLemmas VFrame AelSpec CurveR.
Import ListNotations.
Local Open Scope out.

Lemma nodup_app_l {A} (a b : list A) : NoDup (a ++ b) -> NoDup a.
Proof.
  induction a; simpl; intros H; constructor; inversion H; subst; auto.
  intros K. apply H2. apply in_or_app; auto.
Qed.
Lemma nodup_app_r {A} (a b : list A) : NoDup (a ++ b) -> NoDup b.
Proof. induction a; simpl; auto. intros H; inversion H; auto. Qed.

Section Links.
  Context {T : Type} {N : Num T}.
  Implicit Types s : clipper T.
  Implicit Types es : list (edge T).

  Lemma same_edge_refl (e : edge T) : same_edge e e.
  Proof. destruct e; reflexivity. Qed.
  Lemma same_edge_trans (e f g : edge T) : same_edge e f -> same_edge f g -> same_edge e g.
  Proof. unfold same_edge. intros -> ->. reflexivity. Qed.
  Lemma same_edges_refl es : same_edges es es.
  Proof. split; auto. intros i e H. exists e. split; auto. apply same_edge_refl. Qed.
  Lemma same_edges_trans a b c : same_edges a b -> same_edges (T := T) b c -> same_edges a c.
  Proof.
    intros [L1 H1] [L2 H2]. split; [congruence|]. intros i e H.
    apply H1 in H as (f & Hf & S1). apply H2 in Hf as (g & Hg & S2). exists g. split; auto.
    eapply same_edge_trans; eauto.
  Qed.
  Lemma same_edges_upd es i f : (forall e, same_edge e (f e)) -> same_edges es (upd es i f).
  Proof.
    intros H. split; [apply length_upd|]. intros j e Hj. rewrite nth_upd, Hj.
    destruct (Nat.eqb i j); simpl; eexists; split; eauto. apply same_edge_refl.
  Qed.

  (** Pieces of the list *)
  Lemma hd_or_app {A} (a b : list A) n : hd_or (a ++ b) n = hd_or a (hd_or b n).
  Proof. destruct a; auto. Qed.
  Lemma last_or_app {A} (b : list A) p (a : list A) : last_or p (a ++ b) = last_or (last_or p a) b.
  Proof. revert p; induction a; intros; simpl; auto. Qed.
  Lemma lseg_app es a : forall p b n,
    lseg es p (a ++ b) n <-> lseg es p a (hd_or b n) /\ lseg es (last_or p a) b n.
  Proof.
    induction a as [|i a IH]; intros p b n; simpl; [tauto|]. split.
    - intros (e & H1 & H2 & H3 & H4). apply IH in H4 as [H4 H5]. split; auto.
      exists e. rewrite H3, hd_or_app. auto.
    - intros [(e & H1 & H2 & H3 & H4) H5]. exists e. rewrite hd_or_app. repeat split; auto. apply IH; auto.
  Qed.

  Lemma lseg_frame es es' l : forall p n,
    (forall i e, In i l -> nth_error es i = Some e ->
       exists e', nth_error es' i = Some e' /\ e_prev e' = e_prev e /\ e_next e' = e_next e) ->
    lseg es p l n -> lseg es' p l n.
  Proof.
    induction l as [|i l IH]; intros p n H; simpl; auto. intros (e & H1 & H2 & H3 & H4).
    destruct (H i e (or_introl eq_refl) H1) as (e' & A & B & C). exists e'.
    repeat split; try congruence. apply IH; auto. intros; apply H; simpl; auto.
  Qed.
  Lemma lseg_upd_out es l i f p n : ~ In i l -> lseg es p l n -> lseg (upd es i f) p l n.
  Proof.
    intros H. apply lseg_frame. intros j e Hj E. exists e. rewrite nth_upd_other; auto. congruence.
  Qed.
  Lemma lseg_upd_keep es l i f p n :
    (forall e, e_prev (f e) = e_prev e /\ e_next (f e) = e_next e) ->
    lseg es p l n -> lseg (upd es i f) p l n.
  Proof.
    intros H. apply lseg_frame. intros j e Hj E. rewrite nth_upd, E. simpl.
    destruct (Nat.eqb i j); eexists; split; eauto.
  Qed.
  Lemma lseg_set_prev es i l p n q : ~ In i l ->
    lseg es p (i :: l) n -> lseg (upd es i (set_eprev q)) q (i :: l) n.
  Proof.
    simpl. intros Hi (e & H1 & H2 & H3 & H4). eexists. rewrite (nth_upd_same _ _ _ _ H1).
    repeat split; simpl; auto. now apply lseg_upd_out.
  Qed.
  Lemma lseg_set_next es a i p n q : NoDup (a ++ [i]) ->
    lseg es p (a ++ [i]) n -> lseg (upd es i (set_enext q)) p (a ++ [i]) q.
  Proof.
    intros ND H. apply lseg_app in H as [H1 H2]. apply lseg_app. simpl in *. split.
    - apply lseg_upd_out; auto. intros K. apply NoDup_remove_2 in ND. rewrite app_nil_r in ND. auto.
    - destruct H2 as (e & A & B & C & _). eexists. rewrite (nth_upd_same _ _ _ _ A). repeat split; simpl; auto.
  Qed.
  Lemma lseg_in es l i : forall p n, lseg es p l n -> In i l -> exists e, nth_error es i = Some e.
  Proof.
    induction l; intros p n H; simpl in *; [tauto|]. destruct H as (e & H1 & _ & _ & H2).
    intros [<-|H]; eauto.
  Qed.

  (** The list determines the neighbours. *)
  Lemma lseg_split es p a i b n : lseg es p (a ++ i :: b) n ->
    exists e, nth_error es i = Some e /\ e_prev e = last_or p a /\ e_next e = hd_or b n.
  Proof. intros H. apply lseg_app in H as [_ (e & A & B & C & _)]. eauto. Qed.

  Lemma last_or_snoc {A} p (a : list A) i : last_or p (a ++ [i]) = Some i.
  Proof. rewrite last_or_app. reflexivity. Qed.
  Lemma snoc_cases {A} (l : list A) : l = [] \/ exists a i, l = a ++ [i].
  Proof. induction l using rev_ind; eauto. Qed.

  (** Linking a new edge in between [a] (not empty) and [b]. *)
  Lemma link_between es a r b nw e :
    lseg es None (a ++ r :: b) None -> NoDup (a ++ r :: b) -> ~ In nw (a ++ r :: b) ->
    nth_error es nw = Some e ->
    forall es1, (match hd_or b None with Some j => es1 = upd (upd es nw (set_enext (hd_or b None))) j (set_eprev (Some nw))
                 | None => es1 = upd es nw (set_enext (hd_or b None)) end) ->
    lseg (upd (upd es1 nw (set_eprev (Some r))) r (set_enext (Some nw))) None (a ++ r :: nw :: b) None.
  Proof.
    intros H ND Hn He es1 E1.
    change (r :: b) with ([r] ++ b) in H. rewrite app_assoc in H. apply lseg_app in H as [H1 H2].
    rewrite last_or_snoc in H2.
    assert (NDa : NoDup (a ++ [r])) by (change (r :: b) with ([r] ++ b) in ND; rewrite app_assoc in ND; now apply nodup_app_l in ND).
    assert (NDb : NoDup b) by (apply nodup_app_r in ND; now inversion ND).
    assert (Hr : ~ In r b) by (apply nodup_app_r in ND; now inversion ND).
    assert (Dab : forall j, In j (a ++ [r]) -> ~ In j b).
    { intros j J K. apply in_app_or in J as [J|[J|[]]]; [|subst; auto].
      revert ND J K. clear. induction a; simpl; intros ND J K; [tauto|]. inversion ND; subst.
      destruct J; subst; eauto. apply H1. apply in_or_app; simpl; auto. }
    assert (Hna : ~ In nw (a ++ [r])) by (intros K; apply Hn; apply in_app_or in K as [K|[K|[]]]; apply in_or_app; simpl; auto).
    assert (Hnb : ~ In nw b) by (intros K; apply Hn; apply in_or_app; simpl; auto).
    assert (nr : nw <> r) by (intros ->; apply Hna; apply in_or_app; simpl; auto).
    (* the part behind *)
    assert (B1 : lseg es1 (Some nw) b None /\ lseg es1 None (a ++ [r]) (hd_or b None) /\
                 exists e1, nth_error es1 nw = Some e1 /\ e_next e1 = hd_or b None).
    { destruct b as [|j b]; simpl in *; subst es1.
      - repeat split; auto.
        + apply lseg_upd_out; auto.
        + eexists. rewrite (nth_upd_same _ _ _ _ He). split; reflexivity.
      - repeat split.
        + apply (lseg_set_prev _ j b (Some r) None (Some nw)); [now inversion NDb|].
          apply (lseg_upd_out es (j :: b)); auto.
        + apply lseg_upd_out; [intros K; apply (Dab j); simpl; auto|]. apply lseg_upd_out; auto.
        + eexists. rewrite nth_upd_other by (intros ->; apply Hnb; simpl; auto).
          rewrite (nth_upd_same _ _ _ _ He). split; reflexivity. }
    destruct B1 as (B1 & B2 & e1 & B3 & B4).
    change (a ++ r :: nw :: b) with (a ++ [r] ++ nw :: b). rewrite app_assoc. apply lseg_app. split.
    - simpl. apply (lseg_set_next _ a r None (hd_or b None)); auto. apply lseg_upd_out; auto.
    - rewrite last_or_snoc. simpl.
      eexists. rewrite nth_upd_other by auto. rewrite (nth_upd_same _ _ _ _ B3). repeat split; simpl; auto.
      apply lseg_upd_out; auto. apply lseg_upd_out; auto.
  Qed.

  (** Unlinking [i]. *)
  Definition unlinked es (p n : option nat) : list (edge T) :=
    let es1 := match p with Some j => upd es j (set_enext n) | None => es end in
    match n with Some j => upd es1 j (set_eprev p) | None => es1 end.
  Lemma nodup_mid {A} (a : list A) i b : NoDup (a ++ i :: b) ->
    NoDup (a ++ b) /\ ~ In i (a ++ b) /\ (forall j, In j a -> ~ In j b).
  Proof.
    intros ND. split; [now apply NoDup_remove_1 in ND|]. split; [now apply NoDup_remove_2 in ND|].
    apply NoDup_remove_1 in ND. revert ND. clear. induction a as [|k a IH]; simpl; intros ND j J K; [tauto|]. destruct J as [J|J].
    - subst. inversion ND; subst. apply H1. apply in_or_app; auto.
    - inversion ND; subst. exact (IH H2 j J K).
  Qed.
  Lemma unlink es a i b :
    lseg es None (a ++ i :: b) None -> NoDup (a ++ i :: b) ->
    lseg (unlinked es (last_or None a) (hd_or b None)) None (a ++ b) None.
  Proof.
    intros H ND. destruct (nodup_mid _ _ _ ND) as (ND' & Hi & D).
    apply lseg_app in H as [H1 H2]. destruct H2 as (e & E1 & E2 & E3 & H2). simpl in H1.
    unfold unlinked.
    assert (A1 : lseg (match last_or None a with Some j => upd es j (set_enext (hd_or b None)) | None => es end) None a (hd_or b None)
              /\ lseg (match last_or None a with Some j => upd es j (set_enext (hd_or b None)) | None => es end) (Some i) b None).
    { destruct (snoc_cases a) as [->|(a' & j & ->)]; [simpl; auto|]. rewrite last_or_snoc. split.
      - eapply lseg_set_next; eauto. now apply nodup_app_l in ND.
      - apply lseg_upd_out; auto. apply D. apply in_or_app; simpl; auto. }
    destruct A1 as [A1 A2]. apply lseg_app. destruct b as [|j b]; simpl in *; [split; auto|]. split.
    - apply lseg_upd_out; auto. intros K. apply (D j K). simpl; auto.
    - apply (lseg_set_prev _ j b (Some i)); auto.
      apply nodup_app_r in ND'. now inversion ND'.
  Qed.
End Links.

(** *** The operations *)
Section Ops.
  Context {T : Type} {N : Num T}.
  Implicit Types s : clipper T.
  Implicit Types es : list (edge T).

  Lemma active_in s l i : active s l -> In i l -> exists e, nth_error (edges s) i = Some e.
  Proof. intros (_ & H & _). eapply lseg_in; eauto. Qed.
  Lemma active_split s a i b : active s (a ++ i :: b) ->
    exists e, nth_error (edges s) i = Some e /\ e_prev e = last_or None a /\ e_next e = hd_or b None.
  Proof. intros (_ & H & _). eapply lseg_split; eauto. Qed.
  Lemma bounded_length (l : list nat) n : NoDup l -> (forall i, In i l -> i < n) -> length l <= n.
  Proof.
    intros H1 H2. rewrite <- (seq_length n 0). apply NoDup_incl_length; auto.
    intros i Hi. apply in_seq. specialize (H2 i Hi). lia.
  Qed.
  Lemma active_length s l : active s l -> length l <= length (edges s).
  Proof.
    intros H. apply bounded_length; [apply H|]. intros i Hi.
    destruct (active_in s l i H Hi) as [e E]. eapply nth_lt; eauto.
  Qed.

  Lemma find_place_ok b : forall fuel s a r newc p,
    active s (a ++ r :: b) -> find_place fuel s r newc = Ok p ->
    exists b1 b2, r :: b = b1 ++ p :: b2 /\
      (forall j, In j (tl (b1 ++ [p])) -> exists e, nth_error (edges s) j = Some e /\ valid_order s e newc = Ok true) /\
      match b2 with
      | [] => True
      | j :: _ => exists e, nth_error (edges s) j = Some e /\ valid_order s e newc = Ok false
      end.
  Proof.
    induction b as [|j b IH]; intros fuel s a r newc p HA H;
      destruct (active_split s a r _ HA) as (e & E1 & E2 & E3); (destruct fuel; [discriminate|]);
      cbn [find_place] in H; apply at_ok in E1; rewrite E1 in H; cbn [bind] in H; rewrite E3 in H; cbn [hd_or] in H.
    - binvs. exists [], []. simpl. repeat split; auto; tauto.
    - binv H. apply at_ok in E. binv H. destruct x0.
      + replace (a ++ r :: j :: b) with ((a ++ [r]) ++ j :: b) in HA by (rewrite <- app_assoc; reflexivity).
        destruct (IH _ _ _ _ _ _ HA H) as (b1 & b2 & K1 & K2 & K3).
        exists (r :: b1), b2. rewrite K1. repeat split; auto.
        intros k Hk. simpl in Hk. destruct b1 as [|x1 b1]; simpl in K1, Hk; injection K1; intros; subst.
        * destruct Hk as [<-|[]]. eauto.
        * destruct Hk as [<-|Hk]; eauto.
      + binvs. exists [], (j :: b). simpl. repeat split; eauto; tauto.
  Qed.
  Lemma edge_x_at_fuel s e y : edge_x_at s e y <> NoFuel.
  Proof.
    unfold edge_x_at, get_seg, seg_curr_x. nofuel. rewrite point_at_y_eq. discriminate.
  Qed.
  Lemma get_polytype_fuel s (e : edge T) : get_polytype s e <> NoFuel.
  Proof. unfold get_polytype. nofuel. Qed.
  Hint Resolve edge_x_at_fuel get_polytype_fuel : fuel.
  Lemma valid_order_fuel s e f : valid_order s e f <> NoFuel.
  Proof. unfold valid_order. nofuel. Qed.
  Hint Resolve valid_order_fuel : fuel.
  Lemma find_place_fuel b : forall fuel s a r newc,
    active s (a ++ r :: b) -> length b < fuel -> find_place fuel s r newc <> NoFuel.
  Proof.
    induction b as [|j b IH]; intros fuel s a r newc HA Hf; (destruct fuel; [simpl in Hf; lia|]);
      destruct (active_split s a r _ HA) as (e & E1 & E2 & E3);
      cbn [find_place]; apply at_ok in E1; rewrite E1; cbn [bind]; rewrite E3; cbn [hd_or]; [discriminate|].
    replace (a ++ r :: j :: b) with ((a ++ [r]) ++ j :: b) in HA by (rewrite <- app_assoc; reflexivity).
    destruct (active_split s _ j _ HA) as (e' & F1 & _). apply at_ok in F1. rewrite F1. cbn [bind].
    destruct (valid_order s e' newc) as [k| | |] eqn:V; cbn [bind]; try discriminate.
    - destruct k; [|discriminate]. apply (IH fuel s (a ++ [r])); auto. simpl in Hf; lia.
    - exfalso. eapply valid_order_fuel; eauto.
  Qed.

  Lemma insert_after_ok s a r b nw s' : active s (a ++ r :: b) -> ~ In nw (a ++ r :: b) ->
    insert_after s r nw = Ok s' ->
    exists b1 b2 nc, r :: b = b1 ++ b2 /\ b1 <> [] /\ active s' (a ++ b1 ++ nw :: b2) /\ only_links s s' /\
      nth_error (edges s) nw = Some nc /\
      (forall j, In j (tl b1) -> exists e, nth_error (edges s) j = Some e /\ valid_order s e nc = Ok true) /\
      match b2 with
      | [] => True
      | j :: _ => exists e, nth_error (edges s) j = Some e /\ valid_order s e nc = Ok false
      end.
  Proof.
    intros HA Hn H. unfold insert_after in H. binv H. apply at_ok in E. binv H.
    destruct (find_place_ok _ _ _ _ _ _ _ HA E0) as (b1 & b2 & K1 & K2 & K3).
    exists (b1 ++ [x0]), b2, x. rewrite K1 in *. rewrite <- app_assoc. simpl.
    split; auto. split; [destruct b1; discriminate|].
    rewrite app_assoc in HA. rewrite app_assoc in Hn.
    destruct (active_split s _ _ _ HA) as (e & E1 & E2 & E3).
    binv H. apply at_ok in E4. rewrite E1 in E4. injection E4 as <-.
    rewrite E3 in H. apply bind_ok in H as (s1 & F1 & H). apply bind_ok in H as (s2 & F2 & H).
    apply bind_ok in H as (s3 & F3 & H). apply emod_ok in F1 as [_ ->].
    assert (X : exists es1, s2 = w_edges s es1 /\
      match hd_or b2 None with
      | Some j => es1 = upd (upd (edges s) nw (set_enext (hd_or b2 None))) j (set_eprev (Some nw))
      | None => es1 = upd (edges s) nw (set_enext (hd_or b2 None)) end).
    { unfold emod_opt in F2. destruct (hd_or b2 None); dmatch; eexists; split; try reflexivity. }
    destruct X as (es1 & -> & X). apply emod_ok in F3 as [_ ->]. apply emod_ok in H as [_ ->]. cbn [edges w_edges] in *.
    destruct HA as (HA1 & HA2 & HA3).
    pose proof (link_between (edges s) (a ++ b1) x0 b2 nw x HA2 HA3 Hn E es1 X) as L.
    split; [|split; [|split; [|split]]]; auto.
    - replace (a ++ (b1 ++ [x0]) ++ nw :: b2) with ((a ++ b1) ++ x0 :: nw :: b2) by now rewrite <- !app_assoc.
      split; [|split].
      + cbn. rewrite HA1. destruct (a ++ b1); reflexivity.
      + exact L.
      + apply NoDup_Add with (a := nw) (l := (a ++ b1) ++ x0 :: b2).
        * change (x0 :: b2) with ([x0] ++ b2). change (x0 :: nw :: b2) with ([x0] ++ nw :: b2).
          rewrite (app_assoc _ [x0] b2), (app_assoc _ [x0] (nw :: b2)). apply Add_app.
        * split; auto.
    - split; [|reflexivity]. cbn.
      assert (S1 : same_edges (edges s) es1).
      { destruct (hd_or b2 None); subst es1.
        - eapply same_edges_trans; apply same_edges_upd; intros []; reflexivity.
        - apply same_edges_upd; intros []; reflexivity. }
      eapply same_edges_trans; [exact S1|]. eapply same_edges_trans; apply same_edges_upd; intros []; reflexivity.
  Qed.

  Lemma only_links_refl s : only_links s s.
  Proof. split; [apply same_edges_refl|]. destruct s; reflexivity. Qed.
  Lemma only_links_trans a b c : only_links a b -> only_links b c -> only_links (T := T) a c.
  Proof.
    intros [A1 A2] [B1 B2]. split; [eapply same_edges_trans; eauto|]. rewrite B2, A2. reflexivity.
  Qed.

  (** [insert_into_ael]: the newcomer goes to one place; all before it but the
      first are accepted, the next one is not. *)
  Lemma insert_into_ael_ok s l nw s' : active s l -> ~ In nw l ->
    insert_into_ael s nw = Ok s' ->
    exists l1 l2 nc, l = l1 ++ l2 /\ active s' (l1 ++ nw :: l2) /\ only_links s s' /\
      nth_error (edges s) nw = Some nc /\
      (forall j, In j l1 -> exists e, nth_error (edges s) j = Some e /\ valid_order s e nc = Ok true) /\
      match l2 with
      | [] => True
      | j :: _ => exists e, nth_error (edges s) j = Some e /\ valid_order s e nc = Ok false
      end.
  Proof.
    intros HA Hn H. unfold insert_into_ael in H. destruct l as [|f l].
    - destruct HA as (HA1 & _ & _). simpl in HA1. rewrite HA1 in H. binvs. mods.
      exists [], [], x0. simpl. split; [|split; [|split; [|split; [|split]]]]; auto; try tauto.
      + split; [|split]; auto; [|repeat constructor; simpl; auto].
        simpl. eexists. rewrite (nth_upd_same _ _ _ _ H). repeat split; reflexivity.
      + split; [|reflexivity]. simpl. apply same_edges_upd; intros []; reflexivity.
    - pose proof HA as (HA1 & HA2 & HA3). cbn [hd_or] in HA1. rewrite HA1 in H.
      binv H. binv H. binv H. apply at_ok in E. apply at_ok in E0. destruct x1.
      + destruct (insert_after_ok s [] f l nw s' HA Hn H) as (b1 & b2 & nc & K1 & K2 & K3 & K4 & K5 & K6 & K7).
        exists b1, b2, nc. rewrite E0 in K5. injection K5 as ->. split; [|split; [|split; [|split; [|split]]]]; auto.
        intros j Hj. destruct b1 as [|k b1]; [congruence|]. simpl in K1, K6. injection K1; intros; subst k.
        destruct Hj as [<-|Hj]; eauto.
      + exists [], (f :: l), x0. binvs. mods. split; [|split; [|split; [|split; [|split]]]]; auto; try (simpl; tauto); eauto.
        * split; [|split]; [reflexivity| |constructor; auto]. cbn [edges w_ael w_edges app].
          cbn [lseg]. eexists. rewrite nth_upd_other by (intros ->; apply Hn; simpl; auto).
          rewrite (nth_upd_same _ _ _ _ E0). repeat split; try reflexivity.
          apply (lseg_set_prev _ f l None); [now inversion HA3|]. apply lseg_upd_out; auto.
        * split; [|reflexivity]. eapply same_edges_trans; apply same_edges_upd; intros []; reflexivity.
  Qed.
  Lemma insert_after_fuel s a r b nw : active s (a ++ r :: b) -> insert_after s r nw <> NoFuel.
  Proof.
    intros HA. unfold insert_after. nofuel.
    apply (find_place_fuel b _ _ a); auto. apply active_length in HA. rewrite app_length in HA. simpl in HA. lia.
  Qed.
  Lemma insert_into_ael_fuel s l nw : active s l -> insert_into_ael s nw <> NoFuel.
  Proof.
    intros HA. unfold insert_into_ael. pose proof HA as (HA1 & _). rewrite HA1. destruct l as [|f l]; cbn [hd_or]; nofuel.
    apply (insert_after_fuel s [] f l); auto.
  Qed.

  (** [take_from_ael] and [delete_active_edge] *)
  Lemma take_from_ael_ok s a i b s' : active s (a ++ i :: b) -> take_from_ael s i = Ok s' ->
    active s' (a ++ b) /\ only_links s s'.
  Proof.
    intros HA H. destruct (active_split s a i b HA) as (e & E1 & E2 & E3). destruct HA as (HA1 & HA2 & HA3).
    pose proof (unlink (edges s) a i b HA2 HA3) as U. destruct (nodup_mid _ _ _ HA3) as (ND & Hi & D).
    unfold take_from_ael in H. binv H. apply at_ok in E. rewrite E1 in E. injection E as <-.
    rewrite E2, E3 in H. apply bind_ok in H as (s1 & F1 & H). apply bind_ok in H as (s2 & F2 & H).
    apply emod_ok in H as [_ ->]. unfold emod_opt in F2.
    assert (X : s2 = w_ael (w_edges s (unlinked (edges s) (last_or None a) (hd_or b None))) (hd_or (a ++ b) None)).
    { unfold unlinked. rewrite hd_or_app. destruct (snoc_cases a) as [->|(a' & k & ->)].
      - cbn [last_or hd_or app] in *. binvs. destruct b; dmatch; destruct s; reflexivity.
      - rewrite last_or_snoc in *. mods. rewrite hd_or_app in *. cbn [hd_or] in *.
        rewrite !hd_or_app in HA1. cbn [hd_or] in HA1. rewrite <- HA1.
        destruct b; dmatch; destruct s; reflexivity. }
    subst s2. split.
    - split; [reflexivity|split; [|exact ND]]. cbn [edges w_ael w_edges]. now apply lseg_upd_out.
    - split; [|reflexivity]. cbn [edges w_ael w_edges].
      eapply same_edges_trans; [|apply same_edges_upd; intros []; reflexivity].
      unfold unlinked. destruct (last_or None a), (hd_or b None);
        repeat (try apply same_edges_refl; (eapply same_edges_trans; [|apply same_edges_upd; intros []; reflexivity])).
  Qed.
  Lemma w_ael_same s es : w_edges s es = w_ael (w_edges s es) (ael s).
  Proof. destruct s; reflexivity. Qed.
  Lemma delete_active_edge_ok s a i b n s' : active s (a ++ i :: b) -> delete_active_edge s i = Ok (n, s') ->
    n = hd_or b None /\ active s' (a ++ b) /\ only_links s s'.
  Proof.
    intros HA H. destruct (active_split s a i b HA) as (e & E1 & E2 & E3). destruct HA as (HA1 & HA2 & HA3).
    pose proof (unlink (edges s) a i b HA2 HA3) as U. destruct (nodup_mid _ _ _ HA3) as (ND & Hi & D).
    unfold delete_active_edge in H. binv H. apply at_ok in E. rewrite E1 in E. injection E as <-.
    rewrite E2, E3 in H. apply bind_ok in H as (s1 & F1 & H). apply bind_ok in H as (s2 & F2 & H).
    injection H as <- <-. unfold emod_opt in F1.
    assert (X : exists es', s2 = w_ael (w_edges s es') (hd_or (a ++ b) None) /\ lseg es' None (a ++ b) None /\ same_edges (edges s) es').
    { destruct (snoc_cases a) as [->|(a' & k & ->)].
      - cbn [last_or hd_or app] in *. injection F2 as <-. destruct b as [|j b]; cbn [hd_or] in *.
        + injection F1 as <-. exists (edges s). split; [destruct s; reflexivity|]. split; auto. apply same_edges_refl.
        + apply emod_ok in F1 as [_ ->]. eexists. split; [reflexivity|].
          split; [exact U|]. apply same_edges_upd; intros []; reflexivity.
      - rewrite last_or_snoc in *. rewrite hd_or_app in *. cbn [hd_or] in *.
        rewrite !hd_or_app in *. cbn [hd_or] in *. rewrite <- HA1. unfold unlinked in U.
        destruct b as [|j b]; cbn [hd_or] in *.
        + injection F1 as <-. apply emod_ok in F2 as [_ ->]. eexists. split; [apply w_ael_same|].
          split; [exact U|]. apply same_edges_upd; intros []; reflexivity.
        + assert (C : upd (upd (edges s) j (set_eprev (Some k))) k (set_enext (Some j)) =
                      upd (upd (edges s) k (set_enext (Some j))) j (set_eprev (Some k))).
          { assert (kj : k <> j).
            { intros ->. apply (D j); [apply in_or_app; simpl; auto|simpl; auto]. }
            now apply upd_comm. }
          apply emod_ok in F1 as [_ ->]. apply emod_ok in F2 as [_ ->].
          eexists. split; [apply (w_ael_same s)|]. cbn [edges w_edges]. rewrite C. split; [exact U|].
          eapply same_edges_trans; apply same_edges_upd; intros []; reflexivity. }
    destruct X as (es' & -> & X1 & X2). split; auto. split.
    - split; [reflexivity|split; auto].
    - split; auto.
  Qed.
  Lemma take_from_ael_run s l i : active s l -> In i l -> exists s', take_from_ael s i = Ok s'.
  Proof.
    intros HA Hi. apply in_split in Hi as (a & b & ->). destruct (active_split s a i b HA) as (e & E1 & E2 & E3).
    unfold take_from_ael. apply at_ok in E1. rewrite E1. cbn [bind]. rewrite E2, E3. apply at_ok in E1.
    assert (P : exists s1, (match last_or None a with
                | Some p => emod s p (set_enext (hd_or b None))
                | None => Ok (w_ael s (hd_or b None)) end) = Ok s1 /\ length (edges s1) = length (edges s)).
    { destruct (snoc_cases a) as [->|(a' & k & ->)]; [simpl; eauto|]. rewrite last_or_snoc.
      destruct (active_in s _ k HA) as [x X]; [rewrite <- app_assoc; apply in_or_app; simpl; auto|].
      erewrite emod_run by eauto. eexists; split; eauto. cbn. apply length_upd. }
    destruct P as (s1 & -> & L1). cbn [bind].
    assert (P : exists s2, emod_opt s1 (hd_or b None) (set_eprev (last_or None a)) = Ok s2 /\ length (edges s2) = length (edges s)).
    { destruct b as [|j b]; [simpl; eauto|]. cbn [hd_or emod_opt].
      destruct (active_in s _ j HA) as [x X]; [apply in_or_app; simpl; auto|].
      apply nth_lt in X. rewrite <- L1 in X. apply nth_some in X as [y Y].
      erewrite emod_run by eauto. eexists; split; eauto. cbn. rewrite length_upd; auto. }
    destruct P as (s2 & -> & L2). cbn [bind].
    apply nth_lt in E1. rewrite <- L2 in E1. apply nth_some in E1 as [y Y]. erewrite emod_run by eauto. eauto.
  Qed.
End Ops.
