(** Which parts of the clipper each step of the sweep leaves alone. *)
From Coq Require Import ZArith Bool List Lia.
From Verif Require Import Outcome Num Rmath Segment ScanLine VState VLemmas VAel VOut VMain.
Import ListNotations.
Local Open Scope out.

(** Split the hypotheses that are runs of model code. *)
Ltac dmatch :=
  repeat (binvs; mods; match goal with
  | H : (match ?x with _ => _ end) = Ok _ |- _ => destruct x eqn:?; try discriminate
  | H : (if ?x then _ else _) = Ok _ |- _ => destruct x eqn:?; try discriminate
  end); binvs; mods; subst; try discriminate.

Section Frame.
  Context {T : Type} {N : Num T}.
  Implicit Types s : clipper T.

  (** What no step of the sweep changes *)
  Definition fin s := (verts s, lmins s, minima s, starts s, breaks s, (cop s, cfill s)).
  (** The output side *)
  Definition fout s := (bounds s, polys s, obl s).
  (** The queues *)
  Definition fq s := (scans s, changes s, cur s).

  Ltac fr := solve [ reflexivity | congruence | eauto | etransitivity; eauto ].

  Lemma emod_opt_frame s p f s' : emod_opt s p f = Ok s' ->
    fin s' = fin s /\ fout s' = fout s /\ fq s' = fq s /\ ael s' = ael s.
  Proof. unfold emod_opt. intros H. dmatch; auto. Qed.
  Lemma bmod_opt_frame s p f s' : bmod_opt s p f = Ok s' ->
    fin s' = fin s /\ fq s' = fq s /\ ael s' = ael s /\ edges s' = edges s /\ polys s' = polys s /\ obl s' = obl s.
  Proof. unfold bmod_opt. intros H. dmatch; auto 10. Qed.

  Ltac frames :=
    repeat match goal with
    | H : emod_opt _ _ _ = Ok _ |- _ => apply emod_opt_frame in H as (? & ? & ? & ?)
    end.

  Lemma insert_after_frame s l n s' : insert_after s l n = Ok s' ->
    fin s' = fin s /\ fout s' = fout s /\ fq s' = fq s.
  Proof. unfold insert_after. intros H. dmatch. frames. cbn in *. auto. Qed.
  Lemma insert_into_ael_frame s n s' : insert_into_ael s n = Ok s' ->
    fin s' = fin s /\ fout s' = fout s /\ fq s' = fq s.
  Proof. unfold insert_into_ael. intros H. dmatch; auto. now apply insert_after_frame in H. Qed.
  Lemma insert_into_ael_left_frame s l n s' : insert_into_ael_left s l n = Ok s' ->
    fin s' = fin s /\ fout s' = fout s /\ fq s' = fq s.
  Proof.
    unfold insert_into_ael_left. intros H. destruct l.
    - now apply insert_after_frame in H.
    - now apply insert_into_ael_frame in H.
  Qed.
  Lemma take_from_ael_frame s n s' : take_from_ael s n = Ok s' ->
    fin s' = fin s /\ fout s' = fout s /\ fq s' = fq s.
  Proof. unfold take_from_ael. intros H. dmatch; frames; cbn in *; auto. Qed.
  Lemma delete_active_edge_frame s n p s' : delete_active_edge s n = Ok (p, s') ->
    fin s' = fin s /\ fout s' = fout s /\ fq s' = fq s.
  Proof. unfold delete_active_edge. intros H. dmatch; frames; cbn in *; auto. Qed.
  Lemma calc_windcnt_frame s n s' : calc_windcnt s n = Ok s' ->
    fin s' = fin s /\ fout s' = fout s /\ fq s' = fq s /\ ael s' = ael s.
  Proof. unfold calc_windcnt. intros H. dmatch; cbn; auto. Qed.

  Ltac fsolve := repeat match goal with H : _ /\ _ |- _ => destruct H end; unfold fin, fout, fq in *; cbn in *; repeat split; congruence.

  Lemma recalc_at_frame fuel : forall s x c p s', recalc_at fuel s x c = Ok (p, s') ->
    fin s' = fin s /\ fq s' = fq s /\ polys s' = polys s /\ obl s' = obl s /\ ael s' = ael s.
  Proof.
    induction fuel; intros s x c p s' H; simpl in H; destruct c; dmatch; auto 10; try discriminate;
      apply IHfuel in H as (? & ? & ? & ? & ?); auto 10;
      match goal with K : calc_windcnt _ _ = Ok _ |- _ => apply calc_windcnt_frame in K as (? & K & ? & ?) end;
      fsolve.
  Qed.
  Lemma recalc_all_frame xs : forall s c s', recalc_all s xs c = Ok s' ->
    fin s' = fin s /\ fq s' = fq s /\ polys s' = polys s /\ obl s' = obl s /\ ael s' = ael s.
  Proof.
    induction xs; intros s c s' H; simpl in H; dmatch; auto 10.
    apply IHxs in H as (? & ? & ? & ? & ?). match goal with K : recalc_at _ _ _ _ = Ok _ |- _ => apply recalc_at_frame in K as (? & ? & ? & ? & ?) end. fsolve.
  Qed.
  Lemma recalc_windcnt_frame s s' : recalc_windcnt s = Ok s' ->
    fin s' = fin s /\ polys s' = polys s /\ obl s' = obl s /\ ael s' = ael s /\ scans s' = scans s /\ cur s' = cur s.
  Proof. unfold recalc_windcnt. intros H. apply recalc_all_frame in H as (? & ? & ? & ? & ?). fsolve. Qed.

  Lemma next_edge_frame s i s' : next_edge s i = Ok s' ->
    fin s' = fin s /\ fout s' = fout s /\ fq s' = fq s /\ ael s' = ael s.
  Proof. unfold next_edge. intros H. dmatch; auto. Qed.
  Lemma skip_horz_frame fuel : forall s i s', skip_horz fuel s i = Ok s' ->
    fin s' = fin s /\ fout s' = fout s /\ ael s' = ael s /\ scans s' = scans s /\ cur s' = cur s.
  Proof.
    induction fuel; intros s i s' H; simpl in H; dmatch; auto 10.
    apply IHfuel in H as (? & ? & ? & ? & ?). match goal with K : next_edge _ _ = Ok _ |- _ => apply next_edge_frame in K as (? & ? & ? & ?) end. fsolve.
  Qed.
  Lemma start_edge_frame s m b t d s' : start_edge s m b t d = Ok s' ->
    fin s' = fin s /\ fout s' = fout s /\ ael s' = ael s /\ scans s' = scans s /\ cur s' = cur s.
  Proof.
    unfold start_edge. intros H. dmatch. match goal with K : skip_horz _ _ _ = Ok _ |- _ => apply skip_horz_frame in K as (? & ? & ? & ? & ?) end. fsolve.
  Qed.
  Lemma insert_minimum_frame s m s' : insert_minimum s m = Ok s' ->
    fin s' = fin s /\ fout s' = fout s /\ cur s' = cur s.
  Proof.
    unfold insert_minimum. intros H. dmatch.
    repeat match goal with
    | K : start_edge _ _ _ _ _ = Ok _ |- _ => apply start_edge_frame in K as (? & ? & ? & ? & ?)
    | K : insert_into_ael _ _ = Ok _ |- _ => apply insert_into_ael_frame in K as (? & ? & ?)
    | K : insert_into_ael_left _ _ _ = Ok _ |- _ => apply insert_into_ael_left_frame in K as (? & ? & ?)
    end. fsolve.
  Qed.
  Lemma insert_minima_frame y rest : forall s s', insert_minima s y rest = Ok s' ->
    fin s' = fin s /\ fout s' = fout s.
  Proof.
    induction rest; intros s s' H; simpl in H; dmatch; auto.
    apply IHrest in H as (? & ?). match goal with K : insert_minimum _ _ = Ok _ |- _ => apply insert_minimum_frame in K as (? & ? & ?) end. fsolve.
  Qed.
  Lemma insert_local_minima_frame s y s' : insert_local_minima_to_ael s y = Ok s' ->
    fin s' = fin s /\ fout s' = fout s.
  Proof. apply insert_minima_frame. Qed.

  Lemma take_changed_frame fuel : forall s xs c acc s' l, take_changed fuel s xs c acc = Ok (s', l) ->
    fin s' = fin s /\ fq s' = fq s /\ polys s' = polys s /\ obl s' = obl s.
  Proof.
    induction fuel; intros s xs c acc s' l H; simpl in H; destruct xs as [|x xs]; [binvs; auto| |binvs; auto|].
    - destruct c; [discriminate|binvs; auto].
    - destruct c; [|binvs; auto].
      dmatch; apply IHfuel in H as (? & ? & ? & ?); auto;
      match goal with K : take_from_ael _ _ = Ok _ |- _ => apply take_from_ael_frame in K as (? & K & ?) end;
      fsolve.
  Qed.
  Lemma insert_all_frame l : forall s s', insert_all s l = Ok s' ->
    fin s' = fin s /\ fout s' = fout s /\ fq s' = fq s.
  Proof.
    induction l; intros s s' H; simpl in H; dmatch; auto.
    apply IHl in H as (? & ? & ?). match goal with K : insert_into_ael _ _ = Ok _ |- _ => apply insert_into_ael_frame in K as (? & ? & ?) end. fsolve.
  Qed.
  Lemma resort_ael_frame s s' : resort_ael s = Ok s' ->
    fin s' = fin s /\ polys s' = polys s /\ obl s' = obl s /\ scans s' = scans s /\ cur s' = cur s.
  Proof.
    unfold resort_ael. intros H. dmatch.
    apply insert_all_frame in H as (? & ? & ?). match goal with K : take_changed _ _ _ _ _ = Ok _ |- _ => apply take_changed_frame in K as (? & ? & ? & ?) end. fsolve.
  Qed.

  Lemma do_maxima_frame s i p s' : do_maxima s i = Ok (p, s') ->
    fin s' = fin s /\ polys s' = polys s /\ obl s' = obl s /\ fq s' = fq s.
  Proof.
    unfold do_maxima. intros H. dmatch; apply delete_active_edge_frame in H as (? & ? & ?); fsolve.
  Qed.
  Lemma extend_bound_frame s i s' : extend_bound s i = Ok s' ->
    fin s' = fin s /\ obl s' = obl s /\ fq s' = fq s /\ ael s' = ael s /\ edges s' = edges s /\
    length (polys s') = length (polys s).
  Proof.
    unfold extend_bound. intros H. dmatch; repeat split; cbn; rewrite ?length_upd; auto.
  Qed.
  Lemma climb_frame fuel : forall s i p s', climb fuel s i = Ok (p, s') ->
    fin s' = fin s /\ polys s' = polys s /\ obl s' = obl s /\ cur s' = cur s.
  Proof.
    induction fuel; intros s i p s' H; simpl in H; dmatch; auto.
    - apply do_maxima_frame in H as (? & ? & ? & ?). fsolve.
    - apply IHfuel in H as (? & ? & ? & ?). match goal with K : next_edge _ _ = Ok _ |- _ => apply next_edge_frame in K as (? & ? & ? & ?) end. fsolve.
  Qed.
  Lemma update_x_frame s i y s' : update_x s i y = Ok s' ->
    fin s' = fin s /\ fout s' = fout s /\ fq s' = fq s /\ ael s' = ael s.
  Proof. unfold update_x. intros H. dmatch; auto. Qed.
  Lemma top_loop_frame fuel : forall s y lx c s', top_loop fuel s y lx c = Ok s' ->
    fin s' = fin s /\ obl s' = obl s /\ cur s' = cur s /\ length (polys s') = length (polys s).
  Proof.
    induction fuel; intros s y lx c s' H; cbn [top_loop] in H; (destruct c; [|binvs; auto]); [discriminate|].
    binvs. destruct (n_eqb (vy (e_top x)) y).
    - binvs. mods.
      match goal with K : extend_bound _ _ = Ok _ |- _ => apply extend_bound_frame in K as (A1 & A2 & A3 & A4 & A5 & A6) end.
      assert (B : fin x1 = fin s /\ obl x1 = obl s /\ cur x1 = cur s /\ length (polys x1) = length (polys s)).
      { destruct (n_eqb (vx (e_top x)) lx); fsolve. }
      destruct B as (B1 & B2 & B3 & B4). destruct x2; binvs.
      + apply IHfuel in H as (? & ? & ? & ?). match goal with K : do_maxima _ _ = Ok _ |- _ => apply do_maxima_frame in K as (? & ? & ? & ?) end. fsolve.
      + apply IHfuel in H as (? & ? & ? & ?). match goal with K : next_edge _ _ = Ok _ |- _ => apply next_edge_frame in K as (? & ? & ? & ?) end.
        match goal with K : climb _ _ _ = Ok _ |- _ => apply climb_frame in K as (? & ? & ? & ?) end. fsolve.
    - binvs. match goal with K : update_x _ _ _ = Ok _ |- _ => apply update_x_frame in K as (? & ? & ? & ?) end.
      apply IHfuel in H as (A1 & A2 & A3 & A4).
      assert (B : fin x2 = fin x0 /\ obl x2 = obl x0 /\ cur x2 = cur x0 /\ polys x2 = polys x0).
      { destruct (e_bound x1); dmatch; auto. }
      destruct (n_eqb (e_x x1) lx); fsolve.
  Qed.
  Lemma do_top_frame s y s' : do_top_of_scanbeam s y = Ok s' ->
    fin s' = fin s /\ obl s' = obl s /\ cur s' = cur s /\ length (polys s') = length (polys s).
  Proof. unfold do_top_of_scanbeam. intros H. apply top_loop_frame in H. auto. Qed.

  Lemma delete_obl_bound_frame s b s' : delete_obl_bound s b = Ok s' ->
    fin s' = fin s /\ fq s' = fq s /\ ael s' = ael s /\ edges s' = edges s /\ polys s' = polys s.
  Proof.
    unfold delete_obl_bound. intros H. dmatch; apply bmod_opt_frame in H as (? & ? & ? & ? & ? & ?); fsolve.
  Qed.
  Lemma absorb_frame s d r u s' : absorb s d r u = Ok s' ->
    fin s' = fin s /\ fq s' = fq s /\ ael s' = ael s /\ edges s' = edges s /\ obl s' = obl s /\
    length (polys s') = length (polys s).
  Proof. unfold absorb. intros H. dmatch; repeat split; cbn; rewrite ?length_upd; auto. Qed.
  Lemma join_output_frame s a b y s' : join_output s a b y = Ok s' ->
    fin s' = fin s /\ fq s' = fq s /\ ael s' = ael s /\ length (polys s') = length (polys s).
  Proof.
    unfold join_output. intros H. binvs.
    apply emod_opt_frame in E1 as (? & ? & ? & ?). apply emod_opt_frame in E2 as (? & ? & ? & ?). mods.
    apply delete_obl_bound_frame in E9 as (? & ? & ? & ? & ?).
    apply delete_obl_bound_frame in H as (? & ? & ? & ? & ?).
    assert (B : fin x7 = fin x2 /\ fq x7 = fq x2 /\ ael x7 = ael x2 /\ length (polys x7) = length (polys x2)).
    { destruct (n_eqb (ob_stop_x x) (ob_stop_x x0)); binvs; [now cbn|].
      destruct (bound_up x); mods; repeat split; cbn; rewrite ?length_upd; auto. }
    assert (C : fin x8 = fin x7 /\ fq x8 = fq x7 /\ ael x8 = ael x7 /\ length (polys x8) = length (polys x7)).
    { destruct (Nat.eqb x5 x6); [mods; repeat split; cbn; rewrite ?length_upd; auto|].
      destruct (Nat.ltb x6 x5); match goal with K : absorb _ _ _ _ = Ok _ |- _ => apply absorb_frame in K as (? & ? & ? & ? & ? & ?) end; auto. }
    fsolve.
  Qed.
  Lemma close_loop_frame fuel : forall s y c n s', close_loop fuel s y c n = Ok s' ->
    fin s' = fin s /\ fq s' = fq s /\ ael s' = ael s /\ length (polys s') = length (polys s).
  Proof.
    induction fuel; intros s y c n s' H; simpl in H; (destruct n; [|binvs; auto]); [discriminate|]. binvs.
    assert (B : fin x1 = fin s /\ fq x1 = fq s /\ ael x1 = ael s /\ length (polys x1) = length (polys s)).
    { destruct (n_eqb (ob_stop_x x0) (ob_stop_x x)); binvs; auto. now apply join_output_frame in E1. }
    destruct (ob_next x); binvs; auto. apply IHfuel in H as (? & ? & ? & ?). fsolve.
  Qed.
  Lemma close_output_frame n s y s' : close_output n s y = Ok s' ->
    fin s' = fin s /\ fq s' = fq s /\ ael s' = ael s /\ length (polys s') = length (polys s).
  Proof.
    unfold close_output. destruct (obl s); intros H; binvs; auto. now apply close_loop_frame in H.
  Qed.

  Lemma new_output_frame s a b s' : new_output s a b = Ok s' ->
    fin s' = fin s /\ fq s' = fq s /\ ael s' = ael s /\ obl s' = obl s.
  Proof. unfold new_output. intros H. dmatch. destruct (edge_up x); binvs; auto. Qed.
  Lemma open_pairs_frame k : forall l s s' l', length l <= k -> open_pairs s l = Ok (s', l') ->
    fin s' = fin s /\ fq s' = fq s /\ ael s' = ael s /\ obl s' = obl s.
  Proof.
    induction k; intros l s s' l' Hk H.
    - destruct l; [|simpl in Hk; lia]. simpl in H. binvs; auto.
    - destruct l as [|a [|b l]]; simpl in H; binvs; auto. simpl in Hk.
      destruct (n_eqb (e_x x) (e_x x0)); binvs.
      + apply IHk in H as (? & ? & ? & ?); [|lia]. match goal with K : new_output _ _ _ = Ok _ |- _ => apply new_output_frame in K as (? & ? & ? & ?) end. fsolve.
      + apply IHk in E1; [auto|lia].
  Qed.
  Lemma update_bound_frame s b e s' : update_bound s b e = Ok s' ->
    fin s' = fin s /\ fq s' = fq s /\ ael s' = ael s /\ obl s' = obl s.
  Proof.
    unfold update_bound. intros H. binvs. mods.
    assert (B : fin x1 = fin s /\ fq x1 = fq s /\ ael x1 = ael s /\ obl x1 = obl s).
    { destruct (n_eqb (e_x x0) (ob_stop_x x)); dmatch; auto. }
    fsolve.
  Qed.
  Lemma connect_frame s a b y s' : connect s a b y = Ok s' ->
    fin s' = fin s /\ fq s' = fq s /\ ael s' = ael s.
  Proof.
    unfold connect. intros H. destruct (bd_what a), (bd_what b).
    - apply new_output_frame in H as (? & ? & ? & ?); auto.
    - apply update_bound_frame in H as (? & ? & ? & ?); auto.
    - apply update_bound_frame in H as (? & ? & ? & ?); auto.
    - apply join_output_frame in H as (? & ? & ? & ?); auto.
  Qed.
  Lemma match_up_frame fuel : forall s y l s', match_up fuel s y l = Ok s' ->
    fin s' = fin s /\ fq s' = fq s /\ ael s' = ael s.
  Proof.
    induction fuel; intros s y l s' H; simpl in H; (destruct l; [binvs; auto|]); [discriminate|].
    destruct (find_other (bd_x b) (is_edge b) l) as [[o r]|]; binvs.
    - apply IHfuel in H as (? & ? & ?). match goal with K : connect _ _ _ _ = Ok _ |- _ => apply connect_frame in K as (? & ? & ?) end. fsolve.
    - destruct l; [discriminate|]. binvs. apply IHfuel in H as (? & ? & ?). match goal with K : connect _ _ _ _ = Ok _ |- _ => apply connect_frame in K as (? & ? & ?) end. fsolve.
  Qed.
  Lemma link_obl_frame l : forall s last s', link_obl s last l = Ok s' ->
    fin s' = fin s /\ fq s' = fq s /\ ael s' = ael s /\ edges s' = edges s /\ polys s' = polys s /\ obl s' = obl s.
  Proof.
    induction l; intros s last s' H; simpl in H; dmatch; auto 10.
    apply IHl in H as (? & ? & ? & ? & ? & ?). fsolve.
  Qed.
  Lemma rebuild_obl_frame s l s' : rebuild_obl s l = Ok s' ->
    fin s' = fin s /\ fq s' = fq s /\ ael s' = ael s /\ edges s' = edges s /\ polys s' = polys s.
  Proof.
    unfold rebuild_obl. intros H. dmatch; auto 10.
    apply link_obl_frame in H as (? & ? & ? & ? & ? & ?). fsolve.
  Qed.
  Lemma update_output_bound_frame n s y s' : update_output_bound n s y = Ok s' ->
    fin s' = fin s /\ scans s' = scans s /\ cur s' = cur s /\ ael s' = ael s /\ changes s' = [].
  Proof.
    unfold update_output_bound. intros H. destruct (changes s) eqn:C; binvs; auto 10.
    apply (open_pairs_frame _ _ _ _ _ (le_n _)) in E0 as (? & ? & ? & ?).
    match goal with K : match_up _ _ _ _ = Ok _ |- _ => apply match_up_frame in K as (? & ? & ?) end. apply rebuild_obl_frame in H as (? & ? & ? & ? & ?). fsolve.
  Qed.
  Lemma scan_at_frame n s y s' : scan_at n s y = Ok s' -> fin s' = fin s.
  Proof.
    unfold scan_at. intros H. binvs.
    match goal with K : insert_local_minima_to_ael _ _ = Ok _ |- _ => apply insert_local_minima_frame in K as (? & ?) end. match goal with K : recalc_windcnt _ = Ok _ |- _ => apply recalc_windcnt_frame in K as (? & ? & ? & ? & ? & ?) end.
    apply update_output_bound_frame in H as (? & ? & ? & ? & ?). fsolve.
  Qed.
  Lemma beam_frame n s y s' : beam n s y = Ok s' -> fin s' = fin s /\ cur s' = cur s.
  Proof.
    unfold beam. intros H. binvs.
    match goal with K : do_top_of_scanbeam _ _ = Ok _ |- _ => apply do_top_frame in K as (? & ? & ? & ?) end. match goal with K : close_output _ _ _ = Ok _ |- _ => apply close_output_frame in K as (? & ? & ? & ?) end.
    apply resort_ael_frame in H as (? & ? & ? & ? & ?). fsolve.
  Qed.
  Lemma pop_scanline_frame s y p s' : pop_scanline s y = (p, s') ->
    fin s' = fin s /\ fout s' = fout s /\ ael s' = ael s /\ edges s' = edges s /\ cur s' = cur s /\ changes s' = changes s.
  Proof. unfold pop_scanline. destruct (drop_eq y (scans s)); intros H; injection H; intros; subst; auto 10. Qed.
  Lemma sweep_frame n fuel : forall s y s', sweep n fuel s y = Ok s' -> fin s' = fin s.
  Proof.
    induction fuel; intros s y s' H; simpl in H; [discriminate|]. apply bind_ok in H as (x & E & H).
    apply scan_at_frame in E.
    destruct (pop_scanline x y) as [[y'|] s1] eqn:P; apply pop_scanline_frame in P as (? & ? & ? & ? & ? & ?).
    - binvs. apply IHfuel in H. apply beam_frame in E0 as [? ?]. congruence.
    - binvs. congruence.
  Qed.
End Frame.
