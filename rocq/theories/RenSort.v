(** The records of one vertex after sorting do not depend on where the vertices are in memory. *)
From Coq Require Import ZArith Bool List Lia Sorting.Permutation Sorting.Sorted.
From Verif Require Import Outcome Num Order Rmath Segment Path PathSpec ScanLine VState VPath VBreak VAel VOut VMain VLemmas AelSpec SortProofs
  RingSpec BreakSpec VRing VBuild VAdd VCut VBroken.
Import ListNotations.
Local Open Scope out.

Section RenSort.
  Context {T : Type} {N : Num T} {O : OrdNum T}.
  Implicit Types l : list (break_info T).
  Definition at_v (i : nat) (b : break_info T) : bool := Nat.eqb (br_vert b) i.
  Definition t_ltb (a b : break_info T) : bool := n_ltb (br_t a) (br_t b).
  Definition good (b : break_info T) : Prop := nvalid (br_t b).
  Definition mono (en : env) (a b : break_info T) : Prop := (en_addr en (br_vert a) <= en_addr en (br_vert b))%Z.

  Section One.
    Variable en : env.
    Hypothesis addr_inj : forall i j, en_addr en i = en_addr en j -> i = j.
    (** Whatever comes before [a] comes before [b]. *)
    Definition upto (a b : break_info T) : Prop := (forall x, good x -> break_ltb en x a = true -> break_ltb en x b = true) /\ mono en a b.
    Lemma ltb_trans a b c : good a -> good b -> good c -> break_ltb en a b = true -> break_ltb en b c = true -> break_ltb en a c = true.
    Proof.
      intros A B C. unfold break_ltb. destruct (Nat.eqb_spec (br_vert a) (br_vert b)) as [E|E]; destruct (Nat.eqb_spec (br_vert b) (br_vert c)) as [F|F];
        destruct (Nat.eqb_spec (br_vert a) (br_vert c)) as [G|G]; try congruence; rewrite ?Z.ltb_lt; intros X Y.
      - exact (nlt_trans _ _ _ A B C X Y).
      - exfalso. rewrite G in X. lia.
      - lia.
    Qed.
    Lemma upto_cases a b : good a -> good b -> if break_ltb en a b then upto a b else upto b a.
    Proof.
      intros A B. destruct (break_ltb en a b) eqn:E.
      - split; [intros x X L; exact (ltb_trans x a b X A B L E)|]. unfold mono. unfold break_ltb in E. destruct (Nat.eqb_spec (br_vert a) (br_vert b)) as [Q|Q]; [rewrite Q; lia|]. apply Z.ltb_lt in E. lia.
      - assert (M : mono en b a).
        { unfold mono. unfold break_ltb in E. destruct (Nat.eqb_spec (br_vert a) (br_vert b)) as [Q|Q]; [rewrite Q; lia|]. apply Z.ltb_ge in E. lia. }
        split; auto. intros x X L. unfold break_ltb in *.
        destruct (Nat.eqb_spec (br_vert a) (br_vert b)) as [K|K].
        + rewrite <- K in L. destruct (Nat.eqb (br_vert x) (br_vert a)); auto. apply (nlt_le_trans _ _ _ X B A L). apply (nle_not_lt _ _ B A). exact E.
        + assert (en_addr en (br_vert b) < en_addr en (br_vert a))%Z.
          { apply Z.ltb_ge in E. assert (en_addr en (br_vert a) <> en_addr en (br_vert b)) by (intros Q; now apply addr_inj in Q). lia. }
          destruct (Nat.eqb_spec (br_vert x) (br_vert b)) as [Q|Q]; destruct (Nat.eqb_spec (br_vert x) (br_vert a)) as [Q'|Q']; try congruence.
          * apply Z.ltb_lt. now rewrite Q.
          * apply Z.ltb_lt in L. apply Z.ltb_lt. lia.
    Qed.
    Lemma sorted_upto l : Forall good l -> StronglySorted upto (sort_by (break_ltb en) l).
    Proof.
      intros G. apply (sort_by_sorted (break_ltb en) good upto); auto.
      - intros a b c _ _ _ (A & A') (B & B'). split; auto. unfold mono in *. lia.
      - intros a b. apply upto_cases.
    Qed.
    Lemma filter_insert i x l : good x -> at_v i x = true -> StronglySorted upto l -> filter (at_v i) (insert_by (break_ltb en) x l) = insert_by t_ltb x (filter (at_v i) l).
    Proof.
      intros G X. induction 1 as [|y l S IH F]; cbn [insert_by filter]; [now rewrite X|].
      destruct (break_ltb en x y) eqn:E; cbn [filter]; rewrite ?X.
      - assert (HD : forall z, In z (filter (at_v i) (y :: l)) -> t_ltb x z = true).
        { intros z Z. apply filter_In in Z as (Z & V). assert (K : break_ltb en x z = true).
          { destruct Z as [<-|Z]; auto. rewrite Forall_forall in F. apply (F z Z); auto. }
          unfold break_ltb in K. unfold at_v in *. apply Nat.eqb_eq in X. apply Nat.eqb_eq in V. rewrite X, V, Nat.eqb_refl in K. exact K. }
        cbn [filter] in HD. destruct (if at_v i y then y :: filter (at_v i) l else filter (at_v i) l) as [|z r]; [reflexivity|]. cbn [insert_by].
        now rewrite (HD z (or_introl eq_refl)).
      - destruct (at_v i y) eqn:Y; auto. cbn [insert_by].
        unfold break_ltb in E. unfold at_v in *. apply Nat.eqb_eq in X. apply Nat.eqb_eq in Y. rewrite X, Y, Nat.eqb_refl in E. unfold t_ltb at 1. rewrite E. now rewrite IH.
    Qed.
    Lemma filter_insert_out i x l : at_v i x = false -> filter (at_v i) (insert_by (break_ltb en) x l) = filter (at_v i) l.
    Proof.
      intros X. induction l as [|y l IH]; cbn [insert_by filter]; [now rewrite X|]. destruct (break_ltb en x y); cbn [filter]; rewrite ?X, ?IH; auto.
    Qed.
    Lemma filter_sort_acc i l : forall acc, Forall good l -> Forall good acc -> StronglySorted upto acc ->
      filter (at_v i) (fold_left (fun a x => insert_by (break_ltb en) x a) l acc) = fold_left (fun a x => insert_by t_ltb x a) (filter (at_v i) l) (filter (at_v i) acc).
    Proof.
      induction l as [|x l IH]; intros acc G GA S; [reflexivity|]. cbn [fold_left filter]. inversion G as [|? ? G1 G2]; subst. rewrite IH; auto.
      - destruct (at_v i x) eqn:X; cbn [fold_left].
        + now rewrite filter_insert.
        + now rewrite filter_insert_out.
      - eapply Permutation_Forall; [apply insert_by_perm|]. now constructor.
      - apply (insert_by_sorted (break_ltb en) good upto); auto.
        + intros a b c _ _ _ (A & A') (B & B'). split; auto. unfold mono in *. lia.
        + intros a b. apply upto_cases.
    Qed.
    Lemma filter_sort i l : Forall good l -> filter (at_v i) (sort_by (break_ltb en) l) = sort_by t_ltb (filter (at_v i) l).
    Proof. intros G. unfold sort_by. rewrite filter_sort_acc; auto. constructor. Qed.

    Lemma filter_unique_from i l : forall p, StronglySorted (mono en) (p :: l) ->
      filter (at_v i) (unique_from break_eqb p l) = if at_v i p then unique_from break_eqb p (filter (at_v i) l) else unique_by break_eqb (filter (at_v i) l).
    Proof.
      induction l as [|y l IH]; intros p S; cbn [unique_from filter]; [now destruct (at_v i p)|].
      inversion S as [|? ? S1 F1]; inversion S1 as [|? ? S2 F2]; inversion F1 as [|? ? M F3]; subst.
      assert (SP : StronglySorted (mono en) (p :: l)) by (constructor; auto).
      destruct (break_eqb p y) eqn:E.
      - assert (V : at_v i y = at_v i p).
        { unfold break_eqb in E. apply andb_prop in E as (E & _). apply andb_prop in E as (E & _). apply Nat.eqb_eq in E. unfold at_v. now rewrite E. }
        rewrite IH, V by auto. destruct (at_v i p); auto. cbn [unique_from]. now rewrite E.
      - cbn [filter]. rewrite IH by auto. destruct (at_v i y) eqn:Y.
        + destruct (at_v i p); cbn [unique_from unique_by]; [now rewrite E|reflexivity].
        + destruct (at_v i p) eqn:P; auto.
          assert (NO : filter (at_v i) l = []).
          { destruct (filter (at_v i) l) as [|z r] eqn:Q; auto. exfalso. assert (Z : In z (filter (at_v i) l)) by (rewrite Q; now left).
            apply filter_In in Z as (Z & V). rewrite Forall_forall in F2. specialize (F2 z Z). unfold mono, at_v in *. apply Nat.eqb_eq in V. apply Nat.eqb_eq in P.
            apply Nat.eqb_neq in Y. apply Y. rewrite P in M. rewrite V in F2. apply addr_inj. lia. }
          now rewrite NO.
    Qed.
    Lemma sort_mono l : Forall good l -> StronglySorted (mono en) (sort_by (break_ltb en) l).
    Proof.
      intros G. pose proof (sorted_upto l G) as S. induction S as [|a r S IH F]; constructor; auto. eapply Forall_impl; [|exact F]. intros b (_ & M). exact M.
    Qed.
    Lemma filter_tidy i l : Forall good l -> filter (at_v i) (tidy_breaks en l) = unique_by break_eqb (sort_by t_ltb (filter (at_v i) l)).
    Proof.
      intros G. unfold tidy_breaks. rewrite <- filter_sort by auto. pose proof (sort_mono l G) as S. destruct (sort_by (break_ltb en) l) as [|p r]; [reflexivity|].
      cbn [unique_by filter]. rewrite filter_unique_from by auto. destruct (at_v i p); reflexivity.
    Qed.
    Lemma mono_runs l i : StronglySorted (mono en) l -> runs_for i l = match filter (at_v i) l with [] => [] | x => [x] end.
    Proof.
      induction 1 as [|b l S IH F]; [reflexivity|].
      assert (NONE : match l with c :: _ => br_vert c <> br_vert b | [] => True end -> filter (at_v (br_vert b)) l = []).
      { intros H. destruct l as [|c l]; [reflexivity|]. inversion F as [|? ? Fc Fl]; inversion S as [|? ? Sc Sl]; subst.
        destruct (filter (at_v (br_vert b)) (c :: l)) as [|d r] eqn:Q; auto. exfalso. assert (D : In d (filter (at_v (br_vert b)) (c :: l))) by (rewrite Q; now left).
        apply filter_In in D as (D & V). unfold at_v in V. apply Nat.eqb_eq in V. destruct D as [<-|D]; auto.
        rewrite Forall_forall in Sl. specialize (Sl d D). unfold mono in *. rewrite V in Sl. apply H. apply addr_inj. lia. }
      unfold runs_for in *. cbn [runs filter]. destruct (runs l) as [|[v x] t] eqn:RL.
      - destruct l as [|c l]; [|destruct (runs_head c l) as (? & ? & K); congruence].
        cbn [filter fst map snd]. unfold at_v. now destruct (Nat.eqb (br_vert b) i).
      - destruct l as [|c l]; [discriminate|]. destruct (runs_head c l) as (x1 & t1 & K). rewrite RL in K. injection K as -> -> ->.
        unfold at_v in *. destruct (Nat.eqb_spec (br_vert b) (br_vert c)) as [E|E].
        + cbn [filter fst] in *. rewrite E in *. destruct (Nat.eqb_spec (br_vert c) i) as [Ei|Ei]; [|exact IH].
          cbn [map snd] in *. destruct (filter _ l); cbn in IH |- *; injection IH as -> ->; reflexivity.
        + cbn [filter fst] in *. destruct (Nat.eqb_spec (br_vert b) i) as [Ei|Ei]; [|exact IH]. subst i.
          specialize (NONE (fun e => E (eq_sym e))). cbn [map snd]. rewrite IH. cbn [filter] in NONE. rewrite NONE. reflexivity.
    Qed.
    Lemma tidy_runs l i : Forall good l -> runs_for i (tidy_breaks en l) = match filter (at_v i) (tidy_breaks en l) with [] => [] | x => [x] end.
    Proof. intros G. apply mono_runs. apply unique_by_sorted. now apply sort_mono. Qed.
  End One.

  (** *** The same records at every vertex *)
  Lemma filter_first {A} (f : A -> bool) (l : list A) b t : filter f l = b :: t -> exists l1 l2 : list A, l = l1 ++ b :: l2 /\ filter f l1 = [] /\ filter f l2 = t.
  Proof.
    induction l as [|x l IH]; cbn [filter]; [discriminate|]. destruct (f x) eqn:E.
    - intros H. injection H as <- <-. exists [], l. auto.
    - intros H. destruct (IH H) as (l1 & l2 & -> & K1 & K2). exists (x :: l1), l2. cbn. rewrite E. auto.
  Qed.
  Lemma at_self (b : break_info T) : at_v (br_vert b) b = true.
  Proof. apply Nat.eqb_refl. Qed.
  Lemma same_filters l : forall l', (forall i, filter (at_v i) l = filter (at_v i) l') -> Permutation l l'.
  Proof.
    induction l as [|b l IH]; intros l' H.
    - destruct l' as [|c l']; auto. specialize (H (br_vert c)). cbn [filter] in H. rewrite at_self in H. discriminate.
    - pose proof (H (br_vert b)) as Hb. cbn [filter] in Hb. rewrite at_self in Hb. symmetry in Hb.
      destruct (filter_first _ _ _ _ Hb) as (l1 & l2 & -> & A & B). apply Permutation_cons_app. apply IH. intros i. specialize (H i).
      rewrite filter_app in *. cbn [filter] in H. destruct (at_v i b) eqn:V.
      + apply Nat.eqb_eq in V. subst i. rewrite A in *. cbn [app] in *. injection H as H. exact H.
      + exact H.
  Qed.
  Lemma tidy_same en en' l : (forall i j, en_addr en i = en_addr en j -> i = j) -> (forall i j, en_addr en' i = en_addr en' j -> i = j) -> Forall good l ->
    length (tidy_breaks en l) = length (tidy_breaks en' l) /\ forall i, runs_for i (tidy_breaks en l) = runs_for i (tidy_breaks en' l).
  Proof.
    intros J J' G. assert (F : forall i, filter (at_v i) (tidy_breaks en l) = filter (at_v i) (tidy_breaks en' l)) by (intros i; now rewrite !filter_tidy).
    split; [apply Permutation_length; now apply same_filters|]. intros i. rewrite !tidy_runs by auto. now rewrite F.
  Qed.
End RenSort.
