(** The winding counts. *)
From Coq Require Import ZArith Bool List Permutation Sorted Lia.
From Verif Require Import Outcome Num Order Rmath Segment VState VAel VOut VMain VLemmas VFrame ClipSpec AelSpec
  VAelProofs VEdges VAelRun VRun WindSpec SortProofs.
Import ListNotations.
Local Open Scope out.

Lemma other_other t : other (other t) = t.
Proof. now destruct t. Qed.
Lemma other_neq t : other t <> t.
Proof. now destruct t. Qed.
Lemma ptype_eqb_eq a b : ptype_eqb a b = true <-> a = b.
Proof. destruct a, b; simpl; split; congruence. Qed.
Lemma ptype_cases t u : u = t \/ u = other t.
Proof. destruct t, u; auto. Qed.
Lemma ptype_eqb_other t : ptype_eqb (other t) t = false.
Proof. now destruct t. Qed.
Lemma ptype_eqb_refl t : ptype_eqb t t = true.
Proof. now destruct t. Qed.

Section Wind.
  Context {T : Type}.
  Implicit Types s : clipper T.

  Lemma edge_is_fun s i t d t' d' : edge_is s i t d -> edge_is s i t' d' -> t' = t /\ d' = d.
  Proof.
    intros (e & m & H1 & H2 & H3 & H4) (e' & m' & K1 & K2 & K3 & K4).
    rewrite H1 in K1. injection K1 as <-. rewrite H2 in K2. injection K2 as <-. subst. auto.
  Qed.
  Lemma wind_fun s t l w : wind s t l w -> forall v, wind s t l v -> w = v.
  Proof.
    induction 1; intros v K; inversion K; subst; auto.
    - match goal with A : edge_is s i t d, B : edge_is s i t _ |- _ => destruct (edge_is_fun _ _ _ _ _ _ A B) as [_ ->] end.
      f_equal; auto.
    - match goal with A : edge_is s i t d, B : edge_is s i (other t) _ |- _ => destruct (edge_is_fun _ _ _ _ _ _ A B) as [E _] end.
      exfalso. exact (other_neq t E).
    - match goal with A : edge_is s i (other t) d, B : edge_is s i t _ |- _ => destruct (edge_is_fun _ _ _ _ _ _ A B) as [E _] end.
      exfalso. symmetry in E. exact (other_neq t E).
  Qed.
  Lemma wind_ex s t l : directed s l -> exists w, wind s t l w.
  Proof.
    induction l as [|i r IH]; intros H; [eexists; constructor|].
    destruct IH as [w W]; [intros j Hj; apply H; now right|].
    destruct (H i (or_introl eq_refl)) as (u & d & E & _).
    destruct (ptype_cases t u) as [->| ->]; eexists; [eapply wind_own|eapply wind_other]; eauto.
  Qed.
  Lemma wind_app s t a b w v : wind s t a w -> wind s t b v -> wind s t (a ++ b) (w + v).
  Proof.
    induction 1; intros K; simpl; auto.
    - rewrite <- Z.add_assoc. econstructor; eauto.
    - eapply wind_other; eauto.
  Qed.
  Lemma wind_one s t i d : edge_is s i t d -> wind s t [i] d.
  Proof. intros H. replace d with (d + 0)%Z by lia. econstructor; eauto. constructor. Qed.
  Lemma wind_one_other s t i d : edge_is s i (other t) d -> wind s t [i] 0.
  Proof. intros H. econstructor; eauto. constructor. Qed.
  (** no edge of type [t] among [l] *)
  Definition none_of s t (l : list nat) := forall j, In j l -> exists d, edge_is s j (other t) d.
  Lemma wind_none s t l : none_of s t l -> wind s t l 0.
  Proof.
    induction l as [|i r IH]; intros H; [constructor|]. destruct (H i (or_introl eq_refl)) as [d E].
    eapply wind_other; eauto. apply IH. intros j Hj. apply H. now right.
  Qed.

  (** Only the types and directions matter. *)
  Definition same_dirs s s' := forall i t d, edge_is s i t d -> edge_is s' i t d.
  Lemma wind_same s s' t l w : same_dirs s s' -> wind s t l w -> wind s' t l w.
  Proof. intros H. induction 1; [constructor|eapply wind_own; eauto|eapply wind_other; eauto]. Qed.
  Lemma directed_same s s' l : same_dirs s s' -> directed s l -> directed s' l.
  Proof. intros H K i Hi. destruct (K i Hi) as (t & d & E & D). eauto. Qed.
  Lemma edge_is_rel (R : edge T -> edge T -> Prop) s s' :
    (forall e f, R e f -> e_lmin f = e_lmin e /\ e_dx f = e_dx e) -> lmins s' = lmins s ->
    erel R (edges s) (edges s') -> same_dirs s s' /\ same_dirs s' s.
  Proof.
    intros HR HL HE. split; intros i t d (e & m & H1 & H2 & H3 & H4).
    - destruct (proj2 HE i e H1) as (f & F & K). destruct (HR _ _ K) as [K1 K2].
      exists f, m. rewrite K1, K2, HL. auto.
    - destruct (erel_back _ _ _ _ _ HE H1) as (f & F & K). destruct (HR _ _ K) as [K1 K2].
      exists f, m. rewrite <- K1, <- K2, <- HL. auto.
  Qed.
  Lemma counted_same fill s s' l i : same_dirs s s' -> same_dirs s' s -> directed s (l ++ [i]) ->
    (forall e', nth_error (edges s') i = Some e' ->
       exists e, nth_error (edges s) i = Some e /\ e_cnt e' = e_cnt e /\ e_cnt2 e' = e_cnt2 e) ->
    counted fill s l i -> counted fill s' l i.
  Proof.
    intros A B D HE C e' t d w v E' I W V. destruct (HE e' E') as (e & E & -> & ->).
    apply (wind_same _ s) in W; auto. apply (wind_same _ s) in V; auto. exact (C e t d w v E (B _ _ _ I) W V).
  Qed.

  Lemma same_dirs_eq s s' : edges s' = edges s -> lmins s' = lmins s -> same_dirs s s' /\ same_dirs s' s.
  Proof.
    intros E L. split; intros i t d (e & m & H1 & H2 & K); exists e, m; [rewrite E, L|rewrite <- E, <- L]; auto.
  Qed.
  Lemma counted_eq fill s s' l i : edges s' = edges s -> lmins s' = lmins s -> counted fill s l i -> counted fill s' l i.
  Proof.
    intros E L C e t d w v E' I W V. destruct (same_dirs_eq _ _ E L) as [S1 S2]. rewrite E in E'.
    apply (C e t d w v E'); [apply S2; exact I| |]; eapply wind_same; eauto.
  Qed.

  Context {N : Num T}.
  Lemma get_polytype_is s i e t d : nth_error (edges s) i = Some e -> edge_is s i t d -> get_polytype s e = Ok t /\ e_dx e = d.
  Proof.
    intros E (e' & m & H1 & H2 & H3 & H4). rewrite E in H1. injection H1 as <-.
    unfold get_polytype, at_. rewrite H2. simpl. subst. auto.
  Qed.

  Lemma find_left_ok s t a : forall fuel i b, active s (a ++ i :: b) -> directed s a -> length a <= fuel ->
    (find_left fuel s t (last_or None a) = Ok None /\ none_of s t a) \/
    (exists a1 j a2 d, a = a1 ++ j :: a2 /\ find_left fuel s t (last_or None a) = Ok (Some j) /\
       edge_is s j t d /\ none_of s t a2).
  Proof.
    induction a as [|j a IH] using rev_ind; intros fuel i b HA HD HF.
    - left. simpl. split; [destruct fuel; reflexivity|]. intros k [].
    - rewrite last_or_snoc. rewrite app_length in HF. simpl in HF. destruct fuel as [|fuel]; [lia|].
      assert (HA' : active s (a ++ j :: (i :: b))) by (rewrite <- app_assoc in HA; exact HA).
      destruct (active_split _ _ _ _ HA') as (e & E & P & _).
      destruct (HD j) as (u & d & U & _); [apply in_or_app; right; now left|].
      destruct (get_polytype_is _ _ _ _ _ E U) as [G _].
      cbn [find_left]. unfold at_. rewrite E. cbn [bind of_opt]. rewrite G. cbn [bind].
      destruct (ptype_cases t u) as [-> | ->].
      + right. rewrite ptype_eqb_refl. exists a, j, [], d. csplit; auto. intros k [].
      + rewrite ptype_eqb_other, P.
        destruct (IH fuel j (i :: b) HA') as [(K1 & K2)|(a1 & k & a2 & d' & K1 & K2 & K3 & K4)]; [|lia|left|right].
        * intros k Hk. apply HD. apply in_or_app; now left.
        * split; auto. intros k Hk. apply in_app_or in Hk as [Hk|[<-|[]]]; eauto.
        * exists a1, k, (a2 ++ [j]), d'. csplit; auto; [rewrite K1, <- app_assoc; reflexivity|].
          intros x Hx. apply in_app_or in Hx as [Hx|[<-|[]]]; eauto.
  Qed.

  Definition add_fill (fill : fill_rule) (c v : Z) : Z := match fill with even_odd => ((c + v) mod 2)%Z | _ => (c + v)%Z end.
  Definition fill_ok (fill : fill_rule) (c : Z) : Prop := match fill with even_odd => (c = 0 \/ c = 1)%Z | _ => True end.
  Lemma add_fill_ok fill c v : fill_ok fill (add_fill fill c v).
  Proof. destruct fill; simpl; auto. pose proof (Z.mod_pos_bound (c + v) 2). lia. Qed.
  Lemma add_fill_add fill c v w : add_fill fill (add_fill fill c v) w = add_fill fill c (v + w)%Z.
  Proof. destruct fill; simpl; try lia. rewrite Zplus_mod_idemp_l. f_equal. lia. Qed.
  Lemma add_fill_0 fill c : fill_ok fill c -> add_fill fill c 0 = c.
  Proof. destruct fill; simpl; intros; try lia. destruct H as [-> | ->]; reflexivity. Qed.

  Lemma sum_other_ok s t a2 : forall fuel a1 i b c v, active s (a1 ++ a2 ++ i :: b) -> directed s a2 -> length a2 <= fuel ->
    wind s (other t) a2 v -> fill_ok (cfill s) c ->
    sum_other fuel s t (hd_or (a2 ++ i :: b) None) i c = Ok (add_fill (cfill s) c v).
  Proof.
    induction a2 as [|j a2 IH]; intros fuel a1 i b c v HA HD HF HW HC.
    - inversion HW; subst. rewrite add_fill_0 by auto. cbn [app hd_or].
      destruct fuel; cbn [sum_other]; rewrite (proj2 (ptr_eqb_eq (Some i) (Some i)) eq_refl); reflexivity.
    - cbn [app hd_or]. simpl in HF. destruct fuel as [|fuel]; [lia|]. cbn [sum_other].
      assert (J : ptr_eqb (Some j) (Some i) = false).
      { destruct (ptr_eqb (Some j) (Some i)) eqn:Q; auto. apply ptr_eqb_eq in Q. injection Q as ->.
        destruct HA as (_ & _ & HN). apply nodup_app_r in HN. cbn in HN. inversion HN; subst.
        exfalso. match goal with K : ~ In _ _ |- _ => apply K end. apply in_or_app. right. now left. }
      rewrite J. assert (HA' : active s ((a1 ++ [j]) ++ a2 ++ i :: b)) by (rewrite <- app_assoc; exact HA).
      destruct (active_split s a1 j (a2 ++ i :: b)) as (e & E & _ & Q); [exact HA|].
      destruct (HD j (or_introl eq_refl)) as (u & d & U & D).
      destruct (get_polytype_is _ _ _ _ _ E U) as [G Gd].
      unfold at_, deref. cbn [of_opt bind]. rewrite E. cbn [bind of_opt]. rewrite G. cbn [bind]. rewrite Q.
      assert (HD' : directed s a2) by (intros k Hk; apply HD; now right).
      destruct (ptype_cases t u) as [-> | ->].
      + rewrite ptype_eqb_refl. inversion HW as [|? ? w' d' I1 W1|? ? ? ? I1 W1]; subst.
        * destruct (edge_is_fun _ _ _ _ _ _ U I1) as [K _]. exfalso. exact (other_neq _ K).
        * apply (IH fuel (a1 ++ [j]) i b c v); auto. lia.
      + rewrite ptype_eqb_other. inversion HW as [|? ? w' d' I1 W1|? ? ? ? I1 W1]; subst.
        2: { destruct (edge_is_fun _ _ _ _ _ _ U I1) as [K _]. exfalso. rewrite other_other in K. symmetry in K. exact (other_neq _ K). }
        destruct (edge_is_fun _ _ _ _ _ _ U I1) as [_ ->].
        assert (S1 : (match cfill s with even_odd => if Z.eqb c 0 then 1%Z else 0%Z | _ => (c + e_dx e)%Z end)
                     = add_fill (cfill s) c (e_dx e)).
        { destruct (cfill s); simpl in *; auto. destruct HC as [-> | ->]; destruct D as [D|D]; rewrite D; reflexivity. }
        rewrite S1, (IH fuel (a1 ++ [j]) i b _ w'); auto; [|lia|apply add_fill_ok].
        now rewrite add_fill_add.
  Qed.

  Lemma own_cnt_ok fill w d e : fill <> even_odd -> (d = 1 \/ d = -1)%Z -> (e = 1 \/ e = -1)%Z ->
    own_cnt fill (deeper w (w + d)) d e = deeper (w + d) (w + d + e).
  Proof.
    intros HF HD HE. unfold own_cnt, deeper. destruct fill; [congruence| | |];
    destruct HD as [-> | ->], HE as [-> | ->]; destruct (Z.ltb_spec (Z.abs w) (Z.abs (w + 1)));
    try destruct (Z.ltb_spec (Z.abs w) (Z.abs (w + -1))); repeat
      (match goal with |- context [Z.ltb ?a ?b] => destruct (Z.ltb_spec a b) end); lia.
  Qed.

  Lemma directed_app s a b : directed s (a ++ b) <-> directed s a /\ directed s b.
  Proof.
    split; [intros H; split; intros i Hi; apply H; apply in_or_app; auto|].
    intros [H1 H2] i Hi. apply in_app_or in Hi as [Hi|Hi]; auto.
  Qed.

  (** One edge, if those to the left are right. *)
  Lemma calc_windcnt_ok s a i b : active s (a ++ i :: b) -> directed s (a ++ i :: b) ->
    all_counted (cfill s) s a ->
    exists c c2, calc_windcnt s i = Ok (w_edges s (upd (edges s) i (set_ecnt c c2))) /\
      counted (cfill s) (w_edges s (upd (edges s) i (set_ecnt c c2))) a i.
  Proof.
    intros HA HD HC. destruct (active_split _ _ _ _ HA) as (e & E & P & Q).
    apply directed_app in HD as [HDa HDb].
    destruct (HDb i (or_introl eq_refl)) as (t & d & U & D).
    destruct (get_polytype_is _ _ _ _ _ E U) as [G Gd].
    unfold calc_windcnt, at_. rewrite E. cbn [bind of_opt]. rewrite G. cbn [bind].
    pose proof (active_length _ _ HA) as HL. rewrite app_length in HL. simpl in HL. rewrite P.
    assert (SD : forall c c2, same_dirs s (w_edges s (upd (edges s) i (set_ecnt c c2))) /\
                 same_dirs (w_edges s (upd (edges s) i (set_ecnt c c2))) s).
    { intros c c2. apply (edge_is_rel same_but_count); [intros x f ->; auto|reflexivity|].
      cbn. apply erel_upd; [apply pre_count|]. intros []; reflexivity. }
    assert (Concl : forall c c2, (forall w v, wind s t a w -> wind s (other t) a v ->
       match cfill s with
       | even_odd => c = d /\ c2 = (v mod 2)%Z
       | _ => c = deeper w (w + d) /\ c2 = v end) ->
       counted (cfill s) (w_edges s (upd (edges s) i (set_ecnt c c2))) a i).
    { intros c c2 H e' t' d' w v E' I W V. cbn in E'. rewrite nth_upd_same with (x := e) in E' by auto. injection E' as <-. cbn.
      destruct (SD c c2) as [S1 S2]. apply S2 in I. destruct (edge_is_fun _ _ _ _ _ _ U I) as [-> ->].
      apply H; eapply wind_same; eauto. }
    assert (FE : forall v, add_fill (cfill s) 0 v = match cfill s with even_odd => (v mod 2)%Z | _ => v end)
      by (intros v; destruct (cfill s); reflexivity).
    destruct (find_left_ok s t a (length (edges s)) i b HA HDa) as [(F & NO)|(a1 & j & a2 & dj & A1 & F & J & NO)]; [lia| |].
    - rewrite F. cbn [bind]. destruct HA as (HA1 & HA2 & HA3). rewrite HA1.
      destruct (wind_ex s (other t) a HDa) as [v V].
      rewrite (sum_other_ok s t a (length (edges s)) [] i b 0 v); auto; [|split; auto|lia|destruct (cfill s); simpl; auto].
      cbn [bind]. rewrite (emod_run _ _ _ _ E). exists (e_dx e), (add_fill (cfill s) 0 v). split; auto.
      apply Concl. intros w v' W V'. rewrite (wind_fun _ _ _ _ V' v V), FE.
      rewrite (wind_fun _ _ _ _ W 0%Z (wind_none _ _ _ NO)), Gd.
      destruct (cfill s); split; auto; unfold deeper; destruct D as [-> | ->]; reflexivity.
    - rewrite F. cbn [bind].
      assert (HA' : active s (a1 ++ j :: a2 ++ i :: b)) by (rewrite A1, <- app_assoc in HA; exact HA).
      destruct (active_split _ _ _ _ HA') as (ej & Ej & _ & Qj).
      rewrite Ej. cbn [bind of_opt]. rewrite Qj.
      assert (DD : directed s a1 /\ directed s [j] /\ directed s a2).
      { rewrite A1 in HDa. apply directed_app in HDa as [X Y]. apply (directed_app s [j] a2) in Y as [Y Z]. auto. }
      destruct DD as (D1 & Dj & D2).
      destruct (wind_ex s t a1 D1) as [w1 W1]. destruct (wind_ex s (other t) a1 D1) as [v1 V1].
      destruct (wind_ex s (other t) a2 D2) as [v2 V2].
      assert (Dj' : (dj = 1 \/ dj = -1)%Z).
      { destruct (Dj j (or_introl eq_refl)) as (u & dd & U' & DD'). destruct (edge_is_fun _ _ _ _ _ _ U' J) as [_ ->]. auto. }
      destruct (get_polytype_is _ _ _ _ _ Ej J) as [_ Gj].
      pose proof (HC a1 j a2 A1 ej t dj w1 v1 Ej J W1 V1) as CJ.
      assert (WA : wind s t a (w1 + dj)%Z).
      { rewrite A1. apply wind_app; auto. replace dj with (dj + 0)%Z by lia. eapply wind_own; eauto. now apply wind_none. }
      assert (VA : wind s (other t) a (v1 + v2)%Z).
      { rewrite A1. apply wind_app; auto. eapply wind_other; eauto. rewrite other_other. exact J. }
      assert (FO : fill_ok (cfill s) (e_cnt2 ej)).
      { destruct (cfill s); simpl; auto. destruct CJ as [_ ->]. pose proof (Z.mod_pos_bound v1 2). lia. }
      rewrite (sum_other_ok s t a2 (length (edges s)) (a1 ++ [j]) i b (e_cnt2 ej) v2); auto.
      2: { rewrite <- app_assoc. exact HA'. }
      2: { rewrite A1, app_length in HL. simpl in HL. lia. }
      cbn [bind]. rewrite (emod_run _ _ _ _ E). eexists _, _. split; [reflexivity|].
      apply Concl. intros w v W V. rewrite (wind_fun _ _ _ _ W _ WA), (wind_fun _ _ _ _ V _ VA), Gj, Gd.
      destruct (cfill s) eqn:CF.
      + destruct CJ as [_ ->]. simpl. split; auto. apply Zplus_mod_idemp_l.
      + destruct CJ as [-> ->]. split; [apply own_cnt_ok; auto; congruence|reflexivity].
      + destruct CJ as [-> ->]. split; [apply own_cnt_ok; auto; congruence|reflexivity].
      + destruct CJ as [-> ->]. split; [apply own_cnt_ok; auto; congruence|reflexivity].
  Qed.
End Wind.

Section Recalc.
  Context {T : Type} {N : Num T}.
  Implicit Types s : clipper T.

  Lemma upd_dirs s s' i g : lmins s' = lmins s -> edges s' = upd (edges s) i g -> (forall e, same_but_count e (g e)) ->
    same_dirs s s' /\ same_dirs s' s.
  Proof.
    intros L E G. apply (edge_is_rel same_but_count); [intros e f ->; auto|auto|]. rewrite E.
    apply erel_upd; [apply pre_count|auto].
  Qed.
  Lemma counted_upd fill s s' i g l j : lmins s' = lmins s -> edges s' = upd (edges s) i g ->
    (forall e, same_but_count e (g e)) -> (j <> i \/ forall e, e_cnt (g e) = e_cnt e /\ e_cnt2 (g e) = e_cnt2 e) ->
    counted fill s l j -> counted fill s' l j.
  Proof.
    intros L E G J C e' t d w v E' I W V. destruct (upd_dirs _ _ _ _ L E G) as [S1 S2].
    apply S2 in I. apply (wind_same _ _ _ _ _ S2) in W. apply (wind_same _ _ _ _ _ S2) in V.
    rewrite E, nth_upd in E'. destruct (Nat.eqb_spec i j) as [->|Hij].
    - destruct J as [J|J]; [congruence|]. destruct (nth_error (edges s) j) as [e|] eqn:Ej; [|discriminate].
      simpl in E'. injection E' as <-. destruct (J e) as [-> ->]. exact (C e t d w v Ej I W V).
    - exact (C e' t d w v E' I W V).
  Qed.
  Lemma active_upd s s' i g l : ael s' = ael s -> edges s' = upd (edges s) i g -> (forall e, same_but_count e (g e)) ->
    active s l -> active s' l.
  Proof.
    intros A E G H. eapply active_count; [|exact A|exact H]. rewrite E. apply erel_upd; [apply pre_count|auto].
  Qed.
  Context {O : OrdNum T}.
  Lemma ordered_upd es i g l : (forall e, same_but_count e (g e)) -> (forall j, In j l -> exists e, nth_error es j = Some e) ->
    ordered es l -> ordered (upd es i g) l.
  Proof.
    intros G H. apply (ordered_rel same_but_count); [intros e f ->; reflexivity| |exact H].
    apply erel_upd; [apply pre_count|auto].
  Qed.
  Lemma xvalid_upd es i g l : (forall e, same_but_count e (g e)) -> xvalid es l -> xvalid (upd es i g) l.
  Proof.
    intros G. apply (xvalid_rel same_but_count); [intros e f ->; reflexivity|].
    apply erel_upd; [apply pre_count|auto].
  Qed.

  (** [a] has been dealt with, [b] not, [xs] are the remaining x. *)
  Definition at_x (e : edge T) (xs : list T) := exists x, In x xs /\ n_eqb (e_x e) x = true.
  Record rinv fill s a b xs : Prop := {
    ri_fill : cfill s = fill;
    ri_active : active s (a ++ b);
    ri_dir : directed s (a ++ b);
    ri_ord : ordered (edges s) b;
    ri_val : xvalid (edges s) b;
    ri_sort : StronglySorted nle xs;
    ri_xval : Forall nvalid xs;
    ri_done : all_counted fill s a;
    ri_todo : forall b1 i b2 e, b = b1 ++ i :: b2 -> nth_error (edges s) i = Some e ->
      counted fill s (a ++ b1) i \/ at_x e xs }.

  Lemma all_counted_snoc fill s a i : all_counted fill s a -> counted fill s a i -> all_counted fill s (a ++ [i]).
  Proof.
    intros H C l1 j l2 E. destruct (snoc_cases l2) as [->|(l2' & k & ->)].
    - apply app_inj_tail in E as [-> ->]. auto.
    - rewrite app_comm_cons, app_assoc in E. apply app_inj_tail in E as [-> ->]. eapply H; eauto.
  Qed.
  Lemma ordered_tail es i (r : list nat) : ordered es (i :: r) -> ordered (T := T) es r.
  Proof. intros H. inversion H; auto. Qed.
  Lemma xvalid_tail es i (r : list nat) : xvalid es (i :: r) -> xvalid (T := T) es r.
  Proof. intros H j e Hj. apply H. now right. Qed.

  Lemma recalc_at_ok fill fuel : forall s x xr a b c' s',
    rinv fill s a b (x :: xr) -> recalc_at fuel s x (hd_or b None) = Ok (c', s') ->
    exists a' b', a ++ b = a' ++ b' /\ c' = hd_or b' None /\ rinv fill s' a' b' xr.
  Proof.
    induction fuel as [|fuel IH]; intros s x xr a b c' s' RI H; destruct b as [|i b]; cbn [hd_or recalc_at] in H; try discriminate.
    1,2: injection H as <- <-; exists a, []; csplit; auto; destruct RI; split; auto;
      [inversion ri_sort0; auto|inversion ri_xval0; auto|intros [|] ? ? ? E; discriminate].
    destruct RI as [RF RA RD RO RV RS RX RC RT].
    destruct (active_split _ _ _ _ RA) as (e & E & P & Q).
    unfold at_ in H. rewrite E in H. cbn [bind of_opt] in H.
    assert (Ve : nvalid (e_x e)) by (eapply RV; [now left|eauto]).
    inversion RS as [|? ? RS1 RS2]; inversion RX as [|? ? Vx RX2]; subst.
    assert (AA : (a ++ [i]) ++ b = a ++ i :: b) by (rewrite <- app_assoc; reflexivity).
    assert (BB : forall b1, (a ++ [i]) ++ b1 = a ++ i :: b1) by (intros; rewrite <- app_assoc; reflexivity).
    destruct (n_ltb (e_x e) x) eqn:L1.
    - (* left of x: already right *)
      rewrite Q in H. rewrite <- AA. apply (IH s x xr (a ++ [i]) b c' s'); auto.
      assert (C : counted (cfill s) s a i).
      { destruct (RT [] i b e eq_refl E) as [K|(z & Hz & K)]; [rewrite app_nil_r in K; auto|exfalso].
        destruct Hz as [<-|Hz].
        - rewrite neq_le in K by auto. apply andb_prop in K as [_ K]. rewrite nle_negb, L1 in K by auto. discriminate.
        - rewrite Forall_forall in RS2, RX2. specialize (RS2 z Hz). specialize (RX2 z Hz).
          pose proof (nlt_le_trans (e_x e) x z Ve Vx RX2 L1 RS2) as H0.
          rewrite neq_le in K by auto. apply andb_prop in K as [_ K]. unfold nlt in *. rewrite nle_negb, H0 in K by auto. discriminate. }
      split; auto.
      + now rewrite AA.
      + now rewrite AA.
      + eapply ordered_tail; eauto.
      + eapply xvalid_tail; eauto.
      + now apply all_counted_snoc.
      + intros b1 j b2 f Hb F. rewrite BB. apply (RT (i :: b1) j b2 f); auto. rewrite Hb. reflexivity.
    - destruct (n_ltb x (e_x e)) eqn:L2.
      + (* right of x: stop *)
        injection H as <- <-. exists a, (i :: b). csplit; auto. split; auto.
        intros b1 j b2 f Hb F. destruct (RT b1 j b2 f Hb F) as [K|(z & [<-|Hz] & K)]; auto; [exfalso|right; exists z; auto].
        assert (Hj : In j (i :: b)) by (rewrite Hb; apply in_or_app; right; now left).
        assert (Vf : nvalid (e_x f)) by (eapply RV; eauto).
        assert (LE : nle (e_x e) (e_x f)).
        { destruct Hj as [<-|Hj]; [rewrite E in F; injection F as <-; now apply nle_refl|].
          unfold ordered in RO. inversion RO as [|? ? RO1 _]; subst. rewrite Forall_forall in RO1. exact (RO1 j Hj e f E F). }
        pose proof (nlt_le_trans x (e_x e) (e_x f) Vx Ve Vf L2 LE) as H0.
        rewrite neq_le in K by auto. apply andb_prop in K as [K _]. unfold nlt in *. rewrite nle_negb, H0 in K by auto. discriminate.
      + (* at x: recounted *)
        apply bind_ok in H as (s1 & F1 & H). apply bind_ok in H as (s2 & F2 & H). apply bind_ok in H as (s3 & F3 & H).
        apply bind_ok in H as (e3 & F4 & H).
        assert (S1 : edges s1 = edges s /\ lmins s1 = lmins s /\ ael s1 = ael s /\ cfill s1 = cfill s).
        { destruct (e_bound e); [apply bmod_ok in F1 as [_ ->]|injection F1 as <-]; auto. }
        destruct S1 as (X1 & X2 & X3 & X4).
        apply emod_ok in F2 as [_ ->].
        set (s2 := w_edges s1 (upd (edges s1) i (set_ebound None))) in *.
        assert (Y1 : edges s2 = upd (edges s) i (set_ebound None)) by (cbn; congruence).
        assert (G1 : forall e : edge T, same_but_count e (set_ebound None e)) by (intros []; reflexivity).
        assert (A2 : active s2 (a ++ i :: b)) by (eapply active_upd; eauto).
        assert (D2 : directed s2 (a ++ i :: b)).
        { eapply directed_same; [eapply (proj1 (upd_dirs s s2 i (set_ebound None) X2 Y1 G1))|auto]. }
        assert (C2 : all_counted (cfill s2) s2 a).
        { intros l1 j l2 El. replace (cfill s2) with (cfill s) by (cbn; congruence).
          apply (counted_upd _ s s2 i (set_ebound None)); [exact X2|exact Y1|exact G1|now right|exact (RC l1 j l2 El)]. }
        destruct (calc_windcnt_ok s2 a i b A2 D2 C2) as (c & c2 & F3' & C3). rewrite F3' in F3. injection F3 as <-.
        set (s3 := w_edges s2 (upd (edges s2) i (set_ecnt c c2))) in *.
        assert (Z1 : edges s3 = upd (edges s) i (fun e => set_ecnt c c2 (set_ebound None e))).
        { cbn. rewrite X1. apply upd_upd_same. }
        assert (G3 : forall e : edge T, same_but_count e (set_ecnt c c2 (set_ebound None e))) by (intros []; reflexivity).
        assert (E3 : nth_error (edges s3) i = Some (set_ecnt c c2 (set_ebound None e))).
        { rewrite Z1. now apply (nth_upd_same (edges s) i (fun e => set_ecnt c c2 (set_ebound None e))). }
        change (of_opt NullDeref (nth_error (edges s3) i) = Ok e3) in F4. rewrite E3 in F4. injection F4 as <-.
        change (recalc_at fuel s3 x (e_next e) = Ok (c', s')) in H. rewrite Q in H.
        rewrite <- AA. apply (IH s3 x xr (a ++ [i]) b c' s'); auto.
        assert (Hin : forall j, In j b -> exists e0, nth_error (edges s) j = Some e0).
        { intros j Hj. apply (active_in s (a ++ i :: b)); auto. apply in_or_app. right. now right. }
        assert (NJ : forall j, In j (a ++ b) -> j <> i).
        { intros j Hj ->. destruct RA as (_ & _ & ND). apply nodup_mid in ND as (_ & K & _). auto. }
        split.
        * reflexivity || (cbn; congruence).
        * rewrite AA. eapply (active_upd s s3); eauto.
        * rewrite AA. eapply directed_same; [|exact RD]. eapply (proj1 (upd_dirs s s3 i _ X2 Z1 G3)).
        * rewrite Z1. apply ordered_upd; auto. eapply ordered_tail; eauto.
        * rewrite Z1. apply xvalid_upd; auto. eapply xvalid_tail; eauto.
        * auto.
        * auto.
        * apply all_counted_snoc.
          -- intros l1 j l2 El. eapply (counted_upd _ s s3 i); eauto.
             left. apply NJ. rewrite El. apply in_or_app. left. apply in_or_app. right. now left.
          -- replace (cfill s) with (cfill s2) by (cbn; congruence). exact C3.
        * intros b1 j b2 f Hb F. rewrite BB.
          assert (J : j <> i) by (apply NJ; rewrite Hb; apply in_or_app; right; apply in_or_app; right; now left).
          assert (F' : nth_error (edges s) j = Some f) by (rewrite Z1, nth_upd_other in F; auto).
          destruct (RT (i :: b1) j b2 f) as [K|K]; auto; [rewrite Hb; reflexivity|].
          left. eapply (counted_upd _ s s3 i); eauto.
  Qed.

  Lemma recalc_all_ok fill xs : forall s a b s', rinv fill s a b xs -> recalc_all s xs (hd_or b None) = Ok s' ->
    cfill s' = fill /\ active s' (a ++ b) /\ all_counted fill s' (a ++ b).
  Proof.
    induction xs as [|x xr IH]; intros s a b s' RI H; cbn [recalc_all] in H.
    - injection H as <-. destruct RI as [RF RA RD RO RV RS RX RC RT]. csplit; auto.
      intros l1 i l2 E. clear RO RV RA RD.
      revert a RC RT E. induction b as [|j b IHb]; intros a RC RT E; [rewrite app_nil_r in E; eapply RC; eauto|].
      replace (a ++ j :: b) with ((a ++ [j]) ++ b) in E by (rewrite <- app_assoc; reflexivity).
      assert (C : counted fill s a j).
      { destruct (nth_error (edges s) j) as [e|] eqn:Ej; [|intros e ? ? ? ? K; congruence].
        destruct (RT [] j b e eq_refl Ej) as [K|(z & [] & _)]. now rewrite app_nil_r in K. }
      apply (IHb (a ++ [j])); auto; [now apply all_counted_snoc|].
      intros b1 k b2 f Hb F. rewrite <- app_assoc. apply (RT (j :: b1) k b2 f); auto. rewrite Hb. reflexivity.
    - apply bind_ok in H as ([c' s1] & F & H).
      destruct (recalc_at_ok _ _ _ _ _ _ _ _ _ RI F) as (a' & b' & -> & -> & RI'). eapply IH; eauto.
  Qed.

  (** C26 *)
  Lemma recalc_windcnt_ok s l s' : active s l -> directed s l -> ordered (edges s) l -> xvalid (edges s) l ->
    Forall nvalid (changes s) ->
    (forall l1 i l2 e, l = l1 ++ i :: l2 -> nth_error (edges s) i = Some e ->
       counted (cfill s) s l1 i \/ exists x, In x (changes s) /\ n_eqb (e_x e) x = true) ->
    recalc_windcnt s = Ok s' -> active s' l /\ all_counted (cfill s') s' l /\ cfill s' = cfill s.
  Proof.
    intros A D OR V VC TD H. unfold recalc_windcnt in H.
    set (s0 := w_changes s (tidy_changes (changes s))) in *.
    assert (RI : rinv (cfill s) s0 [] l (tidy_changes (changes s))).
    { split; cbn; auto.
      - unfold tidy_changes. apply unique_by_sorted. now apply sort_num_sorted.
      - rewrite Forall_forall in *. intros x Hx. apply VC. unfold tidy_changes in Hx. apply unique_by_sub in Hx.
        eapply Permutation_in; [symmetry; apply sort_by_perm|eauto].
      - intros [|] ? ? E; discriminate.
      - intros b1 i b2 e Hb E. destruct (TD b1 i b2 e Hb E) as [K|(x & Hx & K)]; [left; apply (counted_eq _ s s0); auto|right].
        unfold at_x. destruct (unique_by_rep n_eqb (fun z => n_eqb (e_x e) z = true) (sort_by n_ltb (changes s)) x) as (z & Z1 & Z2); eauto.
        + intros p q Hpq Hq. eapply neq_trans; eauto. now rewrite neq_sym.
        + eapply Permutation_in; [apply sort_by_perm|auto]. }
    assert (Ha : ael s0 = hd_or l None) by (cbn; apply A). rewrite Ha in H.
    destruct (recalc_all_ok (cfill s) _ s0 [] l s' RI H) as (K1 & K2 & K3). rewrite K1. auto.
  Qed.
End Recalc.
