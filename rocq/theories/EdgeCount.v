(** C64: how many edges the sweep starts. *)
From Coq Require Import ZArith Bool List Lia Permutation.
From Verif Require Import Outcome Num Rmath Segment ScanLine VState VLemmas VFrame VPath VBreak VAel VOut VMain VRepeat SortProofs.
Import ListNotations.
Local Open Scope nat_scope.
Local Open Scope out.

Section Count.
  Context {T : Type} {N : Num T}.
  Implicit Types s : clipper T.
  Notation el s := (length (edges s)).
  Ltac len := cbn in *; rewrite ?length_upd, ?app_length in *; cbn in *; try lia.

  Lemma emod_opt_el s p f s' : emod_opt s p f = Ok s' -> el s' = el s.
  Proof. unfold emod_opt. intros H. dmatch; len. Qed.
  Lemma bmod_opt_el s p f s' : bmod_opt s p f = Ok s' -> el s' = el s.
  Proof. unfold bmod_opt. intros H. dmatch; len. Qed.
  Ltac opts := repeat match goal with
    | H : emod_opt _ _ _ = Ok _ |- _ => apply emod_opt_el in H
    | H : bmod_opt _ _ _ = Ok _ |- _ => apply bmod_opt_el in H
    end.
  Lemma insert_after_el s l n s' : insert_after s l n = Ok s' -> el s' = el s.
  Proof. unfold insert_after. intros H. dmatch. opts. len. Qed.
  Lemma insert_into_ael_el s n s' : insert_into_ael s n = Ok s' -> el s' = el s.
  Proof. unfold insert_into_ael. intros H. dmatch; try (apply insert_after_el in H); opts; len. Qed.
  Lemma insert_into_ael_left_el s l n s' : insert_into_ael_left s l n = Ok s' -> el s' = el s.
  Proof. unfold insert_into_ael_left. intros H. destruct l; [now apply insert_after_el in H|now apply insert_into_ael_el in H]. Qed.
  Lemma take_from_ael_el s n s' : take_from_ael s n = Ok s' -> el s' = el s.
  Proof. unfold take_from_ael. intros H. dmatch; opts; len. Qed.
  Lemma delete_active_edge_el s n p s' : delete_active_edge s n = Ok (p, s') -> el s' = el s.
  Proof. unfold delete_active_edge. intros H. dmatch; opts; len. Qed.
  Lemma calc_windcnt_el s n s' : calc_windcnt s n = Ok s' -> el s' = el s.
  Proof. unfold calc_windcnt. intros H. dmatch; len. Qed.
  Lemma recalc_at_el fuel : forall s x c p s', recalc_at fuel s x c = Ok (p, s') -> el s' = el s.
  Proof.
    induction fuel; intros s x c p s' H; simpl in H; destruct c; dmatch; auto; try discriminate; apply IHfuel in H; auto;
      match goal with K : calc_windcnt _ _ = Ok _ |- _ => apply calc_windcnt_el in K end; len.
  Qed.
  Lemma recalc_all_el xs : forall s c s', recalc_all s xs c = Ok s' -> el s' = el s.
  Proof.
    induction xs; intros s c s' H; simpl in H; dmatch; auto. apply IHxs in H. match goal with K : recalc_at _ _ _ _ = Ok _ |- _ => apply recalc_at_el in K end. len.
  Qed.
  Lemma recalc_windcnt_el s s' : recalc_windcnt s = Ok s' -> el s' = el s.
  Proof. unfold recalc_windcnt. intros H. apply recalc_all_el in H. exact H. Qed.
  Lemma next_edge_el s i s' : next_edge s i = Ok s' -> el s' = el s.
  Proof. unfold next_edge. intros H. dmatch; len. Qed.
  Lemma skip_horz_el fuel : forall s i s', skip_horz fuel s i = Ok s' -> el s' = el s.
  Proof.
    induction fuel; intros s i s' H; simpl in H; dmatch; auto. apply IHfuel in H. match goal with K : next_edge _ _ = Ok _ |- _ => apply next_edge_el in K end. len.
  Qed.
  Lemma start_edge_el s m b t d s' : start_edge s m b t d = Ok s' -> el s' = S (el s).
  Proof. unfold start_edge. intros H. dmatch. match goal with K : skip_horz _ _ _ = Ok _ |- _ => apply skip_horz_el in K end. len. Qed.
  Lemma insert_minimum_el s m s' : insert_minimum s m = Ok s' -> el s' = 2 + el s.
  Proof.
    unfold insert_minimum. intros H. dmatch.
    repeat match goal with
    | K : start_edge _ _ _ _ _ = Ok _ |- _ => apply start_edge_el in K
    | K : insert_into_ael _ _ = Ok _ |- _ => apply insert_into_ael_el in K
    | K : insert_into_ael_left _ _ _ = Ok _ |- _ => apply insert_into_ael_left_el in K
    end. len.
  Qed.
  (** Two edges for each minimum taken *)
  Lemma insert_minima_el y rest : forall s s', insert_minima s y rest = Ok s' -> el s' + 2 * cur s = el s + 2 * cur s' /\ cur s' <= cur s + length rest.
  Proof.
    induction rest; intros s s' H; simpl in H; dmatch; auto; try (cbn; lia).
    apply IHrest in H as (? & ?). match goal with K : insert_minimum _ _ = Ok _ |- _ => pose proof (insert_minimum_el _ _ _ K); apply insert_minimum_frame in K as (? & ? & ?) end. cbn in *. lia.
  Qed.
  Lemma take_changed_el fuel : forall s xs c acc s' l, take_changed fuel s xs c acc = Ok (s', l) -> el s' = el s.
  Proof.
    induction fuel; intros s xs c acc s' l H; simpl in H; destruct xs as [|x xs]; [binvs; auto| |binvs; auto|].
    - destruct c; [discriminate|binvs; auto].
    - destruct c; [|binvs; auto]. dmatch; apply IHfuel in H; auto; match goal with K : take_from_ael _ _ = Ok _ |- _ => apply take_from_ael_el in K end; len.
  Qed.
  Lemma insert_all_el l : forall s s', insert_all s l = Ok s' -> el s' = el s.
  Proof.
    induction l; intros s s' H; simpl in H; dmatch; auto. apply IHl in H. match goal with K : insert_into_ael _ _ = Ok _ |- _ => apply insert_into_ael_el in K end. len.
  Qed.
  Lemma resort_ael_el s s' : resort_ael s = Ok s' -> el s' = el s.
  Proof.
    unfold resort_ael. intros H. dmatch. apply insert_all_el in H. match goal with K : take_changed _ _ _ _ _ = Ok _ |- _ => apply take_changed_el in K end. len.
  Qed.
  Lemma do_maxima_el s i p s' : do_maxima s i = Ok (p, s') -> el s' = el s.
  Proof. unfold do_maxima. intros H. dmatch; apply delete_active_edge_el in H; len. Qed.
  Lemma climb_el fuel : forall s i p s', climb fuel s i = Ok (p, s') -> el s' = el s.
  Proof.
    induction fuel; intros s i p s' H; simpl in H; dmatch; auto; [apply do_maxima_el in H; len|].
    apply IHfuel in H. match goal with K : next_edge _ _ = Ok _ |- _ => apply next_edge_el in K end. len.
  Qed.
  Lemma update_x_el s i y s' : update_x s i y = Ok s' -> el s' = el s.
  Proof. unfold update_x. intros H. dmatch; len. Qed.
  Lemma top_loop_el fuel : forall s y lx c s', top_loop fuel s y lx c = Ok s' -> el s' = el s.
  Proof.
    induction fuel; intros s y lx c s' H; cbn [top_loop] in H; (destruct c; [|binvs; auto]); [discriminate|].
    binvs. destruct (n_eqb (vy (e_top x)) y).
    - binvs. mods.
      match goal with K : extend_bound _ _ = Ok _ |- _ => apply extend_bound_frame in K as (A1 & A2 & A3 & A4 & A5 & A6) end.
      assert (B : el x1 = el s) by (rewrite A5; destruct (n_eqb (vx (e_top x)) lx); len).
      destruct x2; binvs.
      + apply IHfuel in H. match goal with K : do_maxima _ _ = Ok _ |- _ => apply do_maxima_el in K end. len.
      + apply IHfuel in H. match goal with K : next_edge _ _ = Ok _ |- _ => apply next_edge_el in K end. match goal with K : climb _ _ _ = Ok _ |- _ => apply climb_el in K end. len.
    - binvs. match goal with K : update_x _ _ _ = Ok _ |- _ => apply update_x_el in K end. apply IHfuel in H.
      assert (B : el x2 = el x0) by (destruct (e_bound x1); dmatch; auto).
      destruct (n_eqb (e_x x1) lx); len.
  Qed.
  Lemma do_top_el s y s' : do_top_of_scanbeam s y = Ok s' -> el s' = el s.
  Proof. unfold do_top_of_scanbeam. intros H. apply top_loop_el in H. exact H. Qed.
  Lemma join_output_el s a b y s' : join_output s a b y = Ok s' -> el s' = el s.
  Proof.
    unfold join_output. intros H. binvs. apply emod_opt_el in E1, E2. mods.
    apply delete_obl_bound_frame in E9 as (? & ? & ? & F1 & ?). apply delete_obl_bound_frame in H as (? & ? & ? & F2 & ?).
    assert (B : el x7 = el x2).
    { destruct (n_eqb (ob_stop_x x) (ob_stop_x x0)); binvs; [now cbn|]. destruct (bound_up x); mods; len. }
    assert (C : el x8 = el x7).
    { destruct (Nat.eqb x5 x6); [mods; len|]. destruct (Nat.ltb x6 x5); apply absorb_frame in E8 as (_ & _ & _ & E8 & _); now rewrite E8. }
    rewrite F2, F1. len.
  Qed.
  Lemma close_loop_el fuel : forall s y c n s', close_loop fuel s y c n = Ok s' -> el s' = el s.
  Proof.
    induction fuel; intros s y c n s' H; simpl in H; (destruct n; [|binvs; auto]); [discriminate|]. binvs.
    assert (B : el x1 = el s) by (destruct (n_eqb (ob_stop_x x0) (ob_stop_x x)); binvs; auto; now apply join_output_el in E1).
    destruct (ob_next x); binvs; auto. apply IHfuel in H. len.
  Qed.
  Lemma close_output_el n s y s' : close_output n s y = Ok s' -> el s' = el s.
  Proof. unfold close_output. destruct (obl s); intros H; binvs; auto. now apply close_loop_el in H. Qed.
  Lemma new_output_el s a b s' : new_output s a b = Ok s' -> el s' = el s.
  Proof. unfold new_output. intros H. dmatch. destruct (edge_up x); binvs; len. Qed.
  Lemma open_pairs_el k : forall l s s' l', length l <= k -> open_pairs s l = Ok (s', l') -> el s' = el s.
  Proof.
    induction k; intros l s s' l' Hk H.
    - destruct l; [|simpl in Hk; lia]. simpl in H. binvs; auto.
    - destruct l as [|a [|b l]]; simpl in H; binvs; auto. simpl in Hk. destruct (n_eqb (e_x x) (e_x x0)); binvs.
      + apply IHk in H; [|lia]. match goal with K : new_output _ _ _ = Ok _ |- _ => apply new_output_el in K end. len.
      + apply IHk in E1; [auto|lia].
  Qed.
  Lemma update_bound_el s b e s' : update_bound s b e = Ok s' -> el s' = el s.
  Proof.
    unfold update_bound. intros H. binvs. mods.
    assert (B : el x1 = el s) by (destruct (n_eqb (e_x x0) (ob_stop_x x)); dmatch; auto). len.
  Qed.
  Lemma connect_el s a b y s' : connect s a b y = Ok s' -> el s' = el s.
  Proof.
    unfold connect. intros H. destruct (bd_what a), (bd_what b); [now apply new_output_el in H|now apply update_bound_el in H|now apply update_bound_el in H|now apply join_output_el in H].
  Qed.
  Lemma match_up_el fuel : forall s y l s', match_up fuel s y l = Ok s' -> el s' = el s.
  Proof.
    induction fuel; intros s y l s' H; simpl in H; (destruct l; [binvs; auto|]); [discriminate|].
    destruct (find_other (bd_x b) (is_edge b) l) as [[o r]|]; binvs.
    - apply IHfuel in H. match goal with K : connect _ _ _ _ = Ok _ |- _ => apply connect_el in K end. len.
    - destruct l; [discriminate|]. binvs. apply IHfuel in H. match goal with K : connect _ _ _ _ = Ok _ |- _ => apply connect_el in K end. len.
  Qed.
  Lemma rebuild_el s l s' : rebuild_obl s l = Ok s' -> el s' = el s.
  Proof.
    unfold rebuild_obl. intros H. destruct l; [binvs; reflexivity|]. binvs. mods. apply link_obl_frame in H as (_ & _ & _ & H & _). now rewrite H.
  Qed.
  Lemma update_output_el n s y s' : update_output_bound n s y = Ok s' -> el s' = el s.
  Proof.
    unfold update_output_bound. destruct (changes s); intros H; [binvs; auto|]. cbv zeta in H. binvs. apply rebuild_el in H. use (@match_up_el). apply (open_pairs_el _ _ _ _ _ (le_n _)) in E0. len.
  Qed.
  Lemma scan_at_el n s y s' : scan_at n s y = Ok s' -> el s' + 2 * cur s = el s + 2 * cur s' /\ (cur s <= length (minima s) -> cur s' <= length (minima s')).
  Proof.
    intros H. unfold scan_at in H. apply bind_ok in H as (s1 & H1 & H). apply bind_ok in H as (s2 & H2 & H).
    pose proof (insert_local_minima_frame _ _ _ H1) as (F1 & _). unfold insert_local_minima_to_ael in H1. apply insert_minima_el in H1 as (K1 & K2).
    pose proof (recalc_windcnt_frame _ _ H2) as (F2 & _ & _ & _ & _ & C2). apply recalc_windcnt_el in H2.
    pose proof (update_output_bound_frame _ _ _ _ H) as (F3 & _ & C3 & _). apply update_output_el in H. unfold fin in *. rewrite skipn_length in K2.
    assert (M : minima s' = minima s) by congruence. rewrite M. lia.
  Qed.
  Lemma beam_el n s y s' : beam n s y = Ok s' -> el s' = el s /\ cur s' = cur s /\ minima s' = minima s.
  Proof.
    intros H. unfold beam in H. apply bind_ok in H as (s1 & H1 & H). apply bind_ok in H as (s2 & H2 & H).
    pose proof (do_top_frame _ _ _ H1) as (F1 & _ & C1 & _). apply do_top_el in H1. pose proof (close_output_frame _ _ _ _ H2) as (F2 & C2 & _). apply close_output_el in H2.
    pose proof (resort_ael_frame _ _ H) as (F3 & _ & _ & _ & C3). apply resort_ael_el in H. unfold fin, fq in *. split; [lia|]. split; congruence.
  Qed.
  Lemma sweep_el n fuel : forall s y s', sweep n fuel s y = Ok s' -> el s' + 2 * cur s = el s + 2 * cur s' /\ (cur s <= length (minima s) -> cur s' <= length (minima s')) /\ minima s' = minima s.
  Proof.
    induction fuel; intros s y s' H; simpl in H; [discriminate|]. apply bind_ok in H as (x & E & H). pose proof (scan_at_frame _ _ _ _ E) as F. apply scan_at_el in E as (E1 & E2). unfold fin in F.
    assert (M : minima x = minima s) by congruence.
    destruct (pop_scanline x y) as [[y'|] w] eqn:P; pose proof (pop_scanline_frame _ _ _ _ P) as (P1 & _ & _ & P2 & P3 & _); unfold fin in P1; assert (Mw : minima w = minima x) by congruence.
    - apply bind_ok in H as (z & B & H). apply beam_el in B as (B1 & B2 & B3). apply IHfuel in H as (K1 & K2 & K3). rewrite P2, P3, Mw in *. rewrite K3, B3 in *. rewrite M in *. csplit; [lia|intros; apply K2; rewrite B2; auto|auto].
    - binvs. rewrite P2, P3, Mw. rewrite M in *. csplit; auto.
  Qed.
  Lemma set_segment_el s p m g s' : set_segment s p m g = Ok s' -> edges s' = edges s.
  Proof. unfold set_segment. intros H. dmatch; auto. Qed.
  Lemma chain_el gs : forall s c s' n, VBreak.chain s c gs = Ok (s', n) -> edges s' = edges s.
  Proof.
    induction gs; intros s c s' n H; simpl in H; binvs; auto.
    apply IHgs in H. use (@set_segment_el). cbn in *. congruence.
  Qed.
  Lemma relink_el s st gs l s' : relink s st gs l = Ok s' -> edges s' = edges s.
  Proof. unfold relink. intros H. binvs. mods. use (@chain_el). use (@set_segment_el). cbn. congruence. Qed.
  Lemma break_vertex_el s st bs s' : break_vertex s st bs = Ok s' -> edges s' = edges s.
  Proof. unfold break_vertex. intros H. binvs. destruct x0; binvs; auto; now apply relink_el in H. Qed.
  Lemma break_all_el fuel : forall s l s', break_all fuel s l = Ok s' -> edges s' = edges s.
  Proof.
    induction fuel; intros s l s' H; simpl in H; (destruct l; [binvs; auto|]); [discriminate|].
    destruct (take_run (br_vert b) (b :: l)) as [r1 r2].
    binvs. use (@break_vertex_el). apply IHfuel in H. congruence.
  Qed.
  Lemma process_intersect_el en s s' : process_intersect en s = Ok s' -> edges s' = edges s.
  Proof. unfold process_intersect. intros H. binvs. now apply break_all_el in H. Qed.
  Lemma push_minima_el l : forall s s', push_minima s l = Ok s' -> edges s' = edges s /\ cur s' = cur s /\ minima s' = minima s.
  Proof. induction l; intros s s' H; simpl in H; binvs; auto. apply IHl in H. auto. Qed.
  Lemma C64_edges_lemma en fuel s op fill s' out : process en fuel s op fill = Ok (s', out) ->
    el s' = el s + 2 * cur s' /\ cur s' <= length (minima s) /\ Permutation (minima s) (minima s').
  Proof.
    unfold process. intros H. apply bind_ok in H as (s1 & P & H). pose proof (process_intersect_same _ _ _ P) as ((_ & _ & M & _) & _). cbn in M. apply process_intersect_el in P. apply bind_ok in H as (s2 & R & H).
    unfold reset in R. apply bind_ok in R as (s3 & R & R'). injection R' as <-. apply push_minima_el in R as (R1 & R2 & R3). cbn in R1, R2, R3, P.
    assert (PM : Permutation (minima s) (minima s3)) by (rewrite R3, <- M; apply sort_by_perm).
    rewrite (Permutation_length PM).
    destruct (pop_scanline _ _) as [[y'|] w] eqn:Q; pose proof (pop_scanline_frame _ _ _ _ Q) as (F & _ & _ & P2 & P3 & _); cbn in P2, P3; unfold fin in F; cbn in F; assert (MW : minima w = minima s3) by congruence.
    - apply bind_ok in H as (z & B & H). injection H as <- <-. apply sweep_el in B as (B1 & B2 & B3). rewrite P2, P3, R1, R2, P in *. rewrite B3, MW in *. csplit; [lia|apply B2; lia|auto].
    - injection H as <- <-. rewrite P2, P3, R1, R2, P, MW. csplit; [lia|apply Nat.le_0_l|auto].
  Qed.
End Count.
