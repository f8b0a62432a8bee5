(** C64: how many ends the polygons written have. *)
From Coq Require Import ZArith Bool List Lia Permutation.
From Verif Require Import Outcome Num Rmath Segment ScanLine VState VLemmas VFrame VPath VBreak VAel VOut VOutProofs VMain OutRun.
Import ListNotations.
Local Open Scope nat_scope.
Local Open Scope out.

Section Count.
  Context {T : Type} {N : Num T}.
  Implicit Types s : clipper T.
  (** Two for each polygon *)
  Notation bs s := (length (bounds s)).
  Notation ps s := (length (polys s)).
  Definition even_in s s' : Prop := bs s' = bs s /\ ps s' = ps s.
  Definition paired s s' : Prop := bs s' + 2 * ps s = bs s + 2 * ps s'.
  Lemma even_paired s s' : even_in s s' -> paired s s'.
  Proof. unfold even_in, paired. lia. Qed.
  Lemma even_refl s : even_in s s.
  Proof. split; reflexivity. Qed.
  Lemma even_trans s1 s2 s3 : even_in s1 s2 -> even_in s2 s3 -> even_in s1 s3.
  Proof. unfold even_in. intuition congruence. Qed.
  Lemma paired_trans s1 s2 s3 : paired s1 s2 -> paired s2 s3 -> paired s1 s3.
  Proof. unfold paired. lia. Qed.
  Ltac len := unfold even_in, paired in *; cbn in *; rewrite ?length_upd, ?app_length in *; cbn in *; try lia.

  Lemma fout_even s s' : fout s' = fout s -> even_in s s'.
  Proof. unfold fout, even_in. intros H. injection H as -> -> _. auto. Qed.
  Lemma recalc_at_bs fuel : forall s x c p s', recalc_at fuel s x c = Ok (p, s') -> even_in s s'.
  Proof.
    induction fuel; intros s x c p s' H; simpl in H; destruct c; dmatch; try apply even_refl; try discriminate; apply IHfuel in H; auto;
      match goal with K : calc_windcnt _ _ = Ok _ |- _ => apply calc_windcnt_frame in K as (_ & K & _); apply fout_even in K end; len.
  Qed.
  Lemma recalc_all_bs xs : forall s c s', recalc_all s xs c = Ok s' -> even_in s s'.
  Proof.
    induction xs; intros s c s' H; simpl in H; dmatch; try apply even_refl. apply IHxs in H. match goal with K : recalc_at _ _ _ _ = Ok _ |- _ => apply recalc_at_bs in K end. len.
  Qed.
  Lemma recalc_windcnt_bs s s' : recalc_windcnt s = Ok s' -> even_in s s'.
  Proof. unfold recalc_windcnt. intros H. apply recalc_all_bs in H. exact H. Qed.
  Lemma take_changed_bs fuel : forall s xs c acc s' l, take_changed fuel s xs c acc = Ok (s', l) -> even_in s s'.
  Proof.
    induction fuel; intros s xs c acc s' l H; simpl in H; destruct xs as [|x xs]; [binvs; apply even_refl| |binvs; apply even_refl|].
    - destruct c; [discriminate|binvs; apply even_refl].
    - destruct c; [|binvs; apply even_refl]. dmatch; apply IHfuel in H; auto; match goal with K : take_from_ael _ _ = Ok _ |- _ => apply take_from_ael_frame in K as (_ & K & _); apply fout_even in K end; len.
  Qed.
  Lemma resort_ael_bs s s' : resort_ael s = Ok s' -> even_in s s'.
  Proof.
    unfold resort_ael. intros H. dmatch. apply insert_all_frame in H as (_ & H & _). apply fout_even in H. match goal with K : take_changed _ _ _ _ _ = Ok _ |- _ => apply take_changed_bs in K end. len.
  Qed.
  Lemma do_maxima_bs s i p s' : do_maxima s i = Ok (p, s') -> even_in s s'.
  Proof. unfold do_maxima. intros H. dmatch; apply delete_active_edge_frame in H as (_ & H & _); apply fout_even in H; len. Qed.
  Lemma climb_bs fuel : forall s i p s', climb fuel s i = Ok (p, s') -> even_in s s'.
  Proof.
    induction fuel; intros s i p s' H; simpl in H; dmatch; try apply even_refl; try (split; reflexivity); [apply do_maxima_bs in H; len|].
    apply IHfuel in H. match goal with K : next_edge _ _ = Ok _ |- _ => apply next_edge_frame in K as (_ & K & _); apply fout_even in K end. len.
  Qed.
  Lemma extend_bound_bs s i s' : extend_bound s i = Ok s' -> even_in s s'.
  Proof. unfold extend_bound. intros H. dmatch; try apply even_refl; len. Qed.
  Lemma top_loop_bs fuel : forall s y lx c s', top_loop fuel s y lx c = Ok s' -> even_in s s'.
  Proof.
    induction fuel; intros s y lx c s' H; cbn [top_loop] in H; (destruct c; [|binvs; apply even_refl]); [discriminate|].
    binvs. destruct (n_eqb (vy (e_top x)) y).
    - binvs. mods.
      match goal with K : extend_bound _ _ = Ok _ |- _ => apply extend_bound_bs in K as A end.
      assert (B : even_in s x1) by (destruct (n_eqb (vx (e_top x)) lx); len).
      destruct x2; binvs.
      + apply IHfuel in H. match goal with K : do_maxima _ _ = Ok _ |- _ => apply do_maxima_bs in K end. eapply even_trans; [exact B|]. eapply even_trans; eassumption.
      + apply IHfuel in H. match goal with K : next_edge _ _ = Ok _ |- _ => apply next_edge_frame in K as (_ & K & _); apply fout_even in K end. match goal with K : climb _ _ _ = Ok _ |- _ => apply climb_bs in K end.
        eapply even_trans; [exact B|]. eapply even_trans; [eassumption|]. eapply even_trans; eassumption.
    - binvs. match goal with K : update_x _ _ _ = Ok _ |- _ => apply update_x_frame in K as (_ & K & _); apply fout_even in K end. apply IHfuel in H.
      assert (B : even_in x0 x2) by (destruct (e_bound x1); dmatch; try apply even_refl; len).
      destruct (n_eqb (e_x x1) lx); len.
  Qed.
  Lemma do_top_bs s y s' : do_top_of_scanbeam s y = Ok s' -> even_in s s'.
  Proof. unfold do_top_of_scanbeam. intros H. apply top_loop_bs in H. exact H. Qed.
  Lemma bmod_opt_bs s p f s' : bmod_opt s p f = Ok s' -> even_in s s'.
  Proof. unfold bmod_opt. intros H. dmatch; try apply even_refl; len. Qed.
  Lemma emod_opt_bs s p f s' : emod_opt s p f = Ok s' -> even_in s s'.
  Proof. intros H. apply emod_opt_frame in H as (_ & H & _). now apply fout_even. Qed.
  Lemma delete_obl_bound_bs s b s' : delete_obl_bound s b = Ok s' -> even_in s s'.
  Proof. unfold delete_obl_bound. intros H. dmatch; apply bmod_opt_bs in H; len. Qed.
  Lemma absorb_bs s d r u s' : absorb s d r u = Ok s' -> even_in s s'.
  Proof. unfold absorb. intros H. dmatch; len. Qed.
  Lemma join_output_bs s a b y s' : join_output s a b y = Ok s' -> even_in s s'.
  Proof.
    unfold join_output. intros H. binvs. apply emod_opt_bs in E1, E2. mods. apply delete_obl_bound_bs in E9, H.
    assert (B : even_in x2 x7).
    { destruct (n_eqb (ob_stop_x x) (ob_stop_x x0)); binvs; [len|]. destruct (bound_up x); mods; len. }
    assert (C : even_in x7 x8).
    { destruct (Nat.eqb x5 x6); [mods; len|]. destruct (Nat.ltb x6 x5); now apply absorb_bs in E8. }
    unfold even_in in *. lia.
  Qed.
  Lemma close_loop_bs fuel : forall s y c n s', close_loop fuel s y c n = Ok s' -> even_in s s'.
  Proof.
    induction fuel; intros s y c n s' H; simpl in H; (destruct n; [|binvs; apply even_refl]); [discriminate|]. binvs.
    assert (B : even_in s x1) by (destruct (n_eqb (ob_stop_x x0) (ob_stop_x x)); binvs; try apply even_refl; now apply join_output_bs in E1).
    destruct (ob_next x); binvs; auto. apply IHfuel in H. eapply even_trans; eassumption.
  Qed.
  Lemma close_output_bs n s y s' : close_output n s y = Ok s' -> even_in s s'.
  Proof. unfold close_output. destruct (obl s); intros H; binvs; try apply even_refl. now apply close_loop_bs in H. Qed.
  (** The only place where a polygon is begun *)
  Lemma new_output_bs s a b s' : new_output s a b = Ok s' -> paired s s'.
  Proof. unfold new_output. intros H. dmatch. destruct (edge_up x); binvs; len. Qed.
  Lemma open_pairs_bs k : forall l s s' l', length l <= k -> open_pairs s l = Ok (s', l') -> paired s s'.
  Proof.
    induction k; intros l s s' l' Hk H.
    - destruct l; [|simpl in Hk; lia]. simpl in H. binvs; len.
    - destruct l as [|a [|b l]]; simpl in H; binvs; try (unfold paired; lia). simpl in Hk. destruct (n_eqb (e_x x) (e_x x0)); binvs.
      + apply IHk in H; [|lia]. match goal with K : new_output _ _ _ = Ok _ |- _ => apply new_output_bs in K end. eapply paired_trans; eassumption.
      + apply IHk in E1; [auto|cbn; lia].
  Qed.
  Lemma update_bound_bs s b e s' : update_bound s b e = Ok s' -> even_in s s'.
  Proof.
    unfold update_bound. intros H. binvs. mods.
    assert (B : even_in s x1) by (destruct (n_eqb (e_x x0) (ob_stop_x x)); dmatch; try apply even_refl; len). len.
  Qed.
  Lemma connect_bs s a b y s' : connect s a b y = Ok s' -> paired s s'.
  Proof.
    unfold connect. intros H. destruct (bd_what a), (bd_what b); [now apply new_output_bs in H|apply even_paired; now apply update_bound_bs in H|apply even_paired; now apply update_bound_bs in H|apply even_paired; now apply join_output_bs in H].
  Qed.
  Lemma match_up_bs fuel : forall s y l s', match_up fuel s y l = Ok s' -> paired s s'.
  Proof.
    induction fuel; intros s y l s' H; simpl in H; (destruct l; [binvs; unfold paired; lia|]); [discriminate|].
    destruct (find_other (bd_x b) (is_edge b) l) as [[o r]|]; binvs.
    - apply IHfuel in H. match goal with K : connect _ _ _ _ = Ok _ |- _ => apply connect_bs in K end. eapply paired_trans; eassumption.
    - destruct l; [discriminate|]. binvs. apply IHfuel in H. match goal with K : connect _ _ _ _ = Ok _ |- _ => apply connect_bs in K end. eapply paired_trans; eassumption.
  Qed.
  Lemma link_obl_bs l : forall s last s', link_obl s last l = Ok s' -> even_in s s'.
  Proof. induction l; intros s last s' H; simpl in H; dmatch; try apply even_refl. apply IHl in H. len. Qed.
  Lemma rebuild_bs s l s' : rebuild_obl s l = Ok s' -> even_in s s'.
  Proof.
    unfold rebuild_obl. intros H. destruct l; [binvs; split; reflexivity|]. binvs. mods. apply link_obl_bs in H. len.
  Qed.
  Lemma update_output_bs n s y s' : update_output_bound n s y = Ok s' -> paired s s'.
  Proof.
    unfold update_output_bound. destruct (changes s); intros H; [binvs; unfold paired; lia|]. cbv zeta in H. binvs. apply rebuild_bs in H. use (@match_up_bs). apply (open_pairs_bs _ _ _ _ _ (le_n _)) in E0. len.
  Qed.
  Lemma scan_at_bs n s y s' : scan_at n s y = Ok s' -> paired s s'.
  Proof.
    intros H. unfold scan_at in H. apply bind_ok in H as (s1 & H1 & H). apply bind_ok in H as (s2 & H2 & H).
    apply insert_local_minima_frame in H1 as (_ & H1). apply fout_even in H1. apply recalc_windcnt_bs in H2. apply update_output_bs in H. unfold even_in, paired in *. lia.
  Qed.
  Lemma beam_bs n s y s' : beam n s y = Ok s' -> even_in s s'.
  Proof.
    intros H. unfold beam in H. apply bind_ok in H as (s1 & H1 & H). apply bind_ok in H as (s2 & H2 & H).
    apply do_top_bs in H1. apply close_output_bs in H2. apply resort_ael_bs in H. unfold even_in in *. lia.
  Qed.
  Lemma sweep_bs n fuel : forall s y s', sweep n fuel s y = Ok s' -> paired s s'.
  Proof.
    induction fuel; intros s y s' H; simpl in H; [discriminate|]. apply bind_ok in H as (x & E & H). apply scan_at_bs in E.
    destruct (pop_scanline x y) as [[y'|] w] eqn:P; pose proof (pop_scanline_frame _ _ _ _ P) as (_ & P1 & _); apply fout_even, even_paired in P1.
    - apply bind_ok in H as (z & B & H). apply beam_bs, even_paired in B. apply IHfuel in H. unfold paired in *. lia.
    - binvs. unfold paired in *. lia.
  Qed.
  Lemma push_minima_ps l : forall s s', push_minima s l = Ok s' -> polys s' = polys s.
  Proof. induction l; intros s s' H; simpl in H; binvs; auto. apply IHl in H. auto. Qed.
  Lemma C64_ends_lemma en fuel s op fill s' out : process en fuel s op fill = Ok (s', out) -> bs s' + 2 * ps s = bs s + 2 * ps s'.
  Proof.
    unfold process. intros H. apply bind_ok in H as (s1 & P & H). pose proof (process_intersect_bs _ _ _ P) as A. apply process_intersect_quiet in P as (B & _). cbn in A, B. apply bind_ok in H as (s2 & R & H).
    unfold reset in R. apply bind_ok in R as (s3 & R & R'). injection R' as <-. pose proof (push_minima_bs _ _ _ R) as R1. cbn in R1.
    assert (R2 : polys s3 = polys s1) by (apply push_minima_ps in R; exact R).
    destruct (pop_scanline _ _) as [[y'|] w] eqn:Q; pose proof (pop_scanline_frame _ _ _ _ Q) as (_ & F & _); apply fout_even in F; unfold even_in in F; cbn in F; rewrite R1, R2, A, B in F.
    - apply bind_ok in H as (z & K & H). injection H as <- <-. apply sweep_bs in K. unfold paired in K. lia.
    - injection H as <- <-. lia.
  Qed.
End Count.
