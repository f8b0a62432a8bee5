(** The statements of C23 proved. *)
From Coq Require Import ZArith Bool List Reals Lra Lia Sorted Permutation.
From Verif Require Import Outcome Num Order Rmath Segment Path PathSpec RTac ScanLine VState VPath VBreak VLemmas AelSpec SortProofs RingSpec BezierSpec BreakSpec
  VRing VBuild VAdd VCut VBroken TraceR LineSpec LineR.
Import ListNotations.
Local Open Scope out.

Section Rings.
  Context {T : Type} {N : Num T}.
  Lemma after_pieces (vs : list (vertex T)) bs i : after vs (one_seg vs) (runs bs) i = pieces_from vs bs i.
  Proof.
    unfold after, pieces_from, one_seg, seg_of, cuts, runs_for. destruct (nth_error vs i) as [v|]; [|reflexivity].
    destruct (v_seg v); [reflexivity|]. induction (map snd _) as [|r l IH]; [reflexivity|exact IH].
  Qed.
  Lemma C23_rings_lemma (s : clipper T) ls (bs : list (break_info T)) :
    rings (verts s) ls -> Forall (fun b => In (br_vert b) (concat ls)) bs ->
    exists vs' news, break_all (length bs) s bs = Ok (w_verts s vs') /\
      Forall (fun l => ring vs' (with_new news l) (flat_map (pieces_from (verts s) bs) l)) ls /\
      NoDup (concat (map (with_new news) ls)) /\
      (forall i, In i (concat ls) -> length (pieces_from (verts s) bs i) = S (length (news i))) /\
      (forall i v, nth_error (verts s) i = Some v -> exists w, nth_error vs' i = Some w /\
         v_pt w = v_pt v /\ v_min w = v_min v /\ v_max w = v_max v) /\
      (forall i j, In j (news i) -> length (verts s) <= j) /\
      (forall j w, length (verts s) <= j -> nth_error vs' j = Some w -> v_min w = false /\ v_max w = false).
  Proof.
    intros R F. destruct (break_all_rings s ls bs R F) as (vs' & news & E & B).
    apply (broken_ext _ _ _ _ _ _ (after_pieces (verts s) bs)) in B. exists vs', news. destruct B as [B1 B2 B3 B4 B5 B6 B7 B8].
    csplit; auto.
  Qed.
  Lemma found_in en (s : clipper T) ls bs : rings (verts s) ls -> starts s = map (hd 0) ls -> find_breaks en (verts s) (starts s) = Ok bs ->
    Forall (fun b => In (br_vert b) (concat ls)) bs.
  Proof.
    intros [R _] ST F. unfold find_breaks in F. rewrite ST, all_rings_ok in F.
    - cbn [bind] in F. apply bind_ok in F as (boxes & _ & F). apply Forall_forall. intros b. apply (run_pairs_vert _ _ _ _ _ _ F).
    - eapply Forall_impl; [|exact R]. intros l (gs & H & _). eauto.
  Qed.
  Lemma C23_process_lemma en (s : clipper T) ls bs : rings (verts s) ls -> starts s = map (hd 0) ls ->
    find_breaks en (verts s) (starts s) = Ok bs ->
    let bs := tidy_breaks en bs in
    exists s' news, process_intersect en s = Ok s' /\ starts s' = starts s /\
      Forall (fun l => ring (verts s') (with_new news l) (flat_map (pieces_from (verts s) bs) l)) ls /\
      NoDup (concat (map (with_new news) ls)) /\
      (forall i, In i (concat ls) -> length (pieces_from (verts s) bs i) = S (length (news i))) /\
      (forall i v, nth_error (verts s) i = Some v -> exists w, nth_error (verts s') i = Some w /\
         v_pt w = v_pt v /\ v_min w = v_min v /\ v_max w = v_max v) /\
      (forall i j, In j (news i) -> length (verts s) <= j) /\
      (forall j w, length (verts s) <= j -> nth_error (verts s') j = Some w -> v_min w = false /\ v_max w = false).
  Proof.
    intros R ST F bs'. pose proof (found_in _ _ _ _ R ST F) as FI.
    assert (FI' : Forall (fun b => In (br_vert b) (concat ls)) bs').
    { rewrite Forall_forall in *. intros b Hb. apply FI. now apply tidy_in in Hb. }
    destruct (C23_rings_lemma (w_breaks s bs') ls bs' R FI') as (vs' & news & E & H).
    exists (w_verts (w_breaks s bs') vs'), news. unfold process_intersect. rewrite F. cbn [bind]. fold bs'. split; [exact E|].
    split; [reflexivity|]. exact H.
  Qed.
End Rings.

(** *** Sorted records *)
Section Groups.
  Variable en : env.
  Hypothesis addr_inj : forall i j, en_addr en i = en_addr en j -> i = j.
  Implicit Types a b c : break_info R.
  Definition ble a b : Prop := (en_addr en (br_vert a) < en_addr en (br_vert b))%Z \/ (br_vert a = br_vert b /\ (br_t a <= br_t b)%R).
  Definition blt a b : Prop := (en_addr en (br_vert a) < en_addr en (br_vert b))%Z \/ (br_vert a = br_vert b /\ (br_t a < br_t b)%R).
  Lemma ble_trans a b c : ble a b -> ble b c -> ble a c.
  Proof.
    unfold ble. intros [A|[A A']] [B|[B B']]; [left; lia|left; now rewrite <- B|left; now rewrite A|right; split; [congruence|lra]].
  Qed.
  Lemma blt_trans a b c : blt a b -> blt b c -> blt a c.
  Proof.
    unfold blt. intros [A|[A A']] [B|[B B']]; [left; lia|left; now rewrite <- B|left; now rewrite A|right; split; [congruence|lra]].
  Qed.
  Lemma break_ltb_le a b : if break_ltb en a b then ble a b else ble b a.
  Proof.
    unfold break_ltb, ble. destruct (Nat.eqb_spec (br_vert a) (br_vert b)) as [E|E].
    - cbn [n_ltb R_num]. destruct (Rltb (br_t a) (br_t b)) eqn:L; [apply Rltb_true in L|apply Rltb_false in L]; right; split; auto; lra.
    - destruct (Z.ltb_spec (en_addr en (br_vert a)) (en_addr en (br_vert b))) as [L|L]; [now left|]. left.
      assert (en_addr en (br_vert a) <> en_addr en (br_vert b)) by (intros K; now apply addr_inj in K). lia.
  Qed.
  Lemma sorted_ble l : StronglySorted ble (sort_by (break_ltb en) l).
  Proof.
    apply (sort_by_sorted (break_ltb en) (fun _ => True) ble).
    - intros a b c _ _ _. apply ble_trans.
    - intros a b _ _. apply break_ltb_le.
    - apply Forall_forall. auto.
  Qed.
  Lemma unique_adjacent {A} (eq : A -> A -> bool) l : forall p, HdRel (fun x y => eq x y = false) p (unique_from eq p l) /\
    Sorted (fun x y => eq x y = false) (unique_from eq p l).
  Proof.
    induction l as [|x l IH]; intros p; cbn [unique_from]; [split; constructor|].
    destruct (eq p x) eqn:E; auto. destruct (IH x). split; [now constructor|]. constructor; auto.
  Qed.
  Lemma exact_same vs a b : exact_break vs a -> exact_break vs b -> br_vert a = br_vert b -> br_t a = br_t b -> br_pt a = br_pt b.
  Proof.
    intros (_ & v & g & V & G & P) (_ & v' & g' & V' & G' & P') E Et. rewrite <- E in V'. rewrite V in V'. injection V' as <-.
    rewrite G in G'. injection G' as <-. rewrite <- Et in P'. congruence.
  Qed.
  Lemma tidy_sorted vs l : Forall (exact_break vs) l -> StronglySorted blt (tidy_breaks en l).
  Proof.
    intros F. apply Sorted_StronglySorted; [intros a b c; apply blt_trans|].
    assert (S : StronglySorted ble (tidy_breaks en l)) by (apply unique_by_sorted, sorted_ble).
    assert (FE : Forall (exact_break vs) (tidy_breaks en l)).
    { rewrite Forall_forall in *. intros b Hb. apply F. now apply tidy_in in Hb. }
    assert (U : Sorted (fun a b => break_eqb a b = false) (tidy_breaks en l)).
    { unfold tidy_breaks. destruct (sort_by (break_ltb en) l) as [|x r]; [constructor|]. cbn [unique_by].
      destruct (unique_adjacent break_eqb r x). now constructor. }
    revert S FE U. generalize (tidy_breaks en l) as m. induction m as [|a m IH]; intros S FE U; [constructor|].
    inversion S as [|? ? S1 S2]; inversion FE as [|? ? F1 F2]; inversion U as [|? ? U1 U2]; subst. constructor; auto.
    destruct m as [|b m]; constructor. inversion U2 as [|? ? EB]; subst. inversion S2 as [|? ? L _]; inversion F2 as [|? ? F3 _]; subst.
    destruct L as [L|[L1 L2]]; [now left|]. right. split; auto.
    destruct (Req_dec (br_t a) (br_t b)) as [Et|]; [|lra]. exfalso.
    rewrite <- Bool.not_true_iff_false in EB. apply EB. unfold break_eqb. rewrite L1, Nat.eqb_refl. cbn [andb].
    rewrite (proj2 (veqb_R _ _) (exact_same vs a b F1 F3 L1 Et)). cbn [andb n_eqb R_num]. rewrite Et. now apply Reqb_true.
  Qed.
  (** The records of one vertex form one run. *)
  Lemma sorted_runs l i : StronglySorted blt l ->
    runs_for i l = match filter (fun b => Nat.eqb (br_vert b) i) l with [] => [] | x => [x] end.
  Proof.
    induction 1 as [|b l S IH F]; [reflexivity|].
    assert (NONE : match l with c :: _ => br_vert c <> br_vert b | [] => True end -> filter (fun c => Nat.eqb (br_vert c) (br_vert b)) l = []).
    { intros H. destruct l as [|c l]; [reflexivity|]. inversion F as [|? ? Fc Fl]; inversion S as [|? ? Sc Sl]; subst.
      destruct Fc as [Fc|[Fc _]]; [|congruence].
      assert (G : forall d, In d (c :: l) -> br_vert d <> br_vert b).
      { intros d [<-|Hd]; auto. rewrite Forall_forall in Sl. destruct (Sl d Hd) as [K|[K _]]; [|congruence]. intros E. rewrite E in K. lia. }
      clear -G. induction (c :: l) as [|d m IHm]; [reflexivity|]. cbn [filter].
      destruct (Nat.eqb_spec (br_vert d) (br_vert b)) as [E|]; [exfalso; apply (G d); simpl; auto|]. apply IHm. intros e He. apply G. now right. }
    unfold runs_for in *. cbn [runs filter]. destruct (runs l) as [|[v x] t] eqn:RL.
    - destruct l as [|c l]; [|destruct (runs_head c l) as (? & ? & K); congruence].
      cbn [filter fst map snd]. now destruct (Nat.eqb (br_vert b) i).
    - destruct l as [|c l]; [discriminate|]. destruct (runs_head c l) as (x1 & t1 & K). rewrite RL in K. injection K as -> -> ->.
      destruct (Nat.eqb_spec (br_vert b) (br_vert c)) as [E|E].
      + cbn [filter fst] in *. rewrite E in *. destruct (Nat.eqb_spec (br_vert c) i) as [Ei|Ei]; [|exact IH].
        cbn [map snd] in *. destruct (filter _ l); cbn in IH |- *; injection IH as -> ->; reflexivity.
      + cbn [filter fst] in *. destruct (Nat.eqb_spec (br_vert b) i) as [Ei|Ei]; [|exact IH]. subst i.
        cbn [map snd]. rewrite (NONE ltac:(congruence)) in *. destruct (Nat.eqb_spec (br_vert c) (br_vert b)); [congruence|].
        cbn [map] in *. rewrite IH. cbn [filter] in NONE. reflexivity.
  Qed.
End Groups.
