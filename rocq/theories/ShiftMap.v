(** The sweep does not see the edges, bounds and polygons of earlier runs. *)
From Coq Require Import ZArith Bool List Lia.
From Verif Require Import Outcome Num Rmath Segment VState VPath VBreak VAel VOut VMain VLemmas EquiMap.
Import ListNotations.
Local Open Scope out.

(** What [x1] gives, [x2] gives too. *)
Definition sim {A B} (g : A -> B) (x2 : outcome B) (x1 : outcome A) : Prop := forall a, x1 = Ok a -> x2 = Ok (g a).
Section Sim.
  Context {A B C D : Type}.
  Lemma sim_ok (g : A -> B) a b : b = g a -> sim g (Ok b) (Ok a).
  Proof. intros -> x H. now injection H as ->. Qed.
  Lemma sim_fuel (g : A -> B) x : sim g x NoFuel.
  Proof. intros a H. discriminate. Qed.
  Lemma sim_ub (g : A -> B) x w : sim g x (UB w).
  Proof. intros a H. discriminate. Qed.
  Lemma sim_throw (g : A -> B) x : sim g x Throw.
  Proof. intros a H. discriminate. Qed.
  Lemma sim_same (x : outcome A) : sim (fun a => a) x x.
  Proof. intros a H. exact H. Qed.
  Lemma sim_bind (g : A -> B) (h : C -> D) x2 x1 f2 f1 : sim g x2 x1 -> (forall a, x1 = Ok a -> sim h (f2 (g a)) (f1 a)) -> sim h (bind x2 f2) (bind x1 f1).
  Proof. intros H K c E. destruct x1 as [a| | |]; try discriminate. cbn in E. rewrite (H a eq_refl). cbn. now apply K. Qed.
End Sim.

Section Shift.
  Context {T : Type} {N : Num T}.
  (** What is there before *)
  Variables (E0 : list (edge T)) (B0 : list (bound T)) (P0 : list (poly T)) (BR : list (break_info T)).
  Notation de := (length E0).
  Notation db := (length B0).
  Notation dp := (length P0).
  Definition sedge (e : edge T) : edge T := Edge (e_bot e) (e_top e) (e_x e) (e_dx e) (e_cnt e) (e_cnt2 e)
    (option_map (Nat.add de) (e_prev e)) (option_map (Nat.add de) (e_next e)) (option_map (Nat.add db) (e_bound e)) (e_vtop e) (e_lmin e).
  Definition sbound (b : bound T) : bound T := Bound (option_map (Nat.add db) (ob_prev b)) (option_map (Nat.add db) (ob_next b))
    (option_map (Nat.add dp) (ob_owner b)) (option_map (Nat.add de) (ob_edge b)) (ob_stop_x b) (ob_dx b).
  Definition spoly (o : poly T) : poly T := Poly (o_origin o) (option_map (Nat.add db) (o_up_bound o)) (option_map (Nat.add db) (o_down_bound o)) (o_up o) (o_down o) (o_complete o).
  (** The same state after the earlier ones *)
  Definition sh (s : clipper T) : clipper T := Clipper (verts s) (lmins s) (minima s) (cur s) (starts s) BR (scans s)
    (E0 ++ map sedge (edges s)) (option_map (Nat.add de) (ael s)) (B0 ++ map sbound (bounds s)) (option_map (Nat.add db) (obl s)) (changes s)
    (P0 ++ map spoly (polys s)) (cop s) (cfill s).
  Implicit Types s : clipper T.

  (** *** Reading and writing *)
  Lemma nth_after {A} (l m : list A) i : nth_error (l ++ m) (length l + i) = nth_error m i.
  Proof. rewrite nth_error_app2 by lia. f_equal. lia. Qed.
  Lemma upd_after {A} (l m : list A) i f : upd (l ++ m) (length l + i) f = l ++ upd m i f.
  Proof. induction l; cbn; congruence. Qed.
  Lemma sim_at {A} (g : A -> A) (l m : list A) i : sim g (at_ (l ++ map g m) (length l + i)) (at_ m i).
  Proof. unfold at_. rewrite nth_after, nth_error_map. destruct (nth_error m i); cbn; [now apply sim_ok|apply sim_ub]. Qed.
  Lemma sim_deref d p : sim (Nat.add d) (deref (option_map (Nat.add d) p)) (deref p).
  Proof. destruct p; cbn; [now apply sim_ok|apply sim_ub]. Qed.
  Lemma emod_sh s i f1 f2 : (forall e, sedge (f1 e) = f2 (sedge e)) -> sim sh (emod (sh s) (de + i) f2) (emod s i f1).
  Proof.
    intros H. unfold emod. eapply sim_bind; [apply sim_at|]. intros e _. apply sim_ok. unfold sh, w_edges. cbn. rewrite upd_after. do 2 f_equal. symmetry. now apply (map_upd sedge f1 f2).
  Qed.
  Lemma bmod_sh s i f1 f2 : (forall b, sbound (f1 b) = f2 (sbound b)) -> sim sh (bmod (sh s) (db + i) f2) (bmod s i f1).
  Proof.
    intros H. unfold bmod. eapply sim_bind; [apply sim_at|]. intros e _. apply sim_ok. unfold sh, w_bounds. cbn. rewrite upd_after. do 2 f_equal. symmetry. now apply (map_upd sbound f1 f2).
  Qed.
  Lemma pmod_sh s i f1 f2 : (forall o, spoly (f1 o) = f2 (spoly o)) -> sim sh (pmod (sh s) (dp + i) f2) (pmod s i f1).
  Proof.
    intros H. unfold pmod. eapply sim_bind; [apply sim_at|]. intros e _. apply sim_ok. unfold sh, w_polys. cbn. rewrite upd_after. do 2 f_equal. symmetry. now apply (map_upd spoly f1 f2).
  Qed.
  Lemma emod_opt_sh s p f1 f2 : (forall e, sedge (f1 e) = f2 (sedge e)) -> sim sh (emod_opt (sh s) (option_map (Nat.add de) p) f2) (emod_opt s p f1).
  Proof. intros H. destruct p; cbn; [now apply emod_sh|now apply sim_ok]. Qed.
  Lemma bmod_opt_sh s p f1 f2 : (forall b, sbound (f1 b) = f2 (sbound b)) -> sim sh (bmod_opt (sh s) (option_map (Nat.add db) p) f2) (bmod_opt s p f1).
  Proof. intros H. destruct p; cbn; [now apply bmod_sh|now apply sim_ok]. Qed.
  Lemma add_eqb d i j : Nat.eqb (d + i) (d + j) = Nat.eqb i j.
  Proof. destruct (Nat.eqb_spec i j); [subst; apply Nat.eqb_refl|apply Nat.eqb_neq; lia]. Qed.
  Lemma add_ltb d i j : Nat.ltb (d + i) (d + j) = Nat.ltb i j.
  Proof. destruct (Nat.ltb_spec i j); [apply Nat.ltb_lt; lia|apply Nat.ltb_ge; lia]. Qed.
  Lemma len_edges_sh s : length (edges (sh s)) = de + length (edges s).
  Proof. unfold sh. cbn. now rewrite app_length, map_length. Qed.
  Lemma len_bounds_sh s : length (bounds (sh s)) = db + length (bounds s).
  Proof. unfold sh. cbn. now rewrite app_length, map_length. Qed.
  Lemma len_polys_sh s : length (polys (sh s)) = dp + length (polys s).
  Proof. unfold sh. cbn. now rewrite app_length, map_length. Qed.

  Ltac rdd := first [apply (sim_at sedge E0) | apply (sim_at sbound B0) | apply (sim_at spoly P0) | apply sim_deref | apply sim_same].
  Ltac keep := solve [intros; reflexivity | auto].
  Ltac wrr := first [apply emod_sh; keep | apply bmod_sh; keep | apply pmod_sh; keep | apply emod_opt_sh; keep | apply bmod_opt_sh; keep].
  Ltac nx := let a := fresh "a" in let K := fresh "K" in intros a K; cbv beta.
  Ltac bnd L := eapply sim_bind; [L|nx].
  Ltac cond := match goal with |- sim _ (if ?b2 then _ else _) (if ?b1 then _ else _) => change b2 with b1; let C := fresh "C" in destruct b1 eqn:C end.
  Ltac mtch := match goal with |- sim _ (match ?x2 with Some _ => _ | None => _ end) (match ?x1 with Some _ => _ | None => _ end) =>
    first [change x2 with (option_map (Nat.add de) x1) | change x2 with (option_map (Nat.add db) x1) | change x2 with x1]; let C := fresh "C" in destruct x1 eqn:C; cbn [option_map] end.
  Ltac fin_ok := apply sim_ok; reflexivity.
  Ltac go := repeat first [cond | mtch | wrr | (eapply sim_bind; [first [rdd | wrr]|nx]) | fin_ok | apply sim_fuel | apply sim_ub | apply sim_throw].

  (** *** Active edges *)
  Lemma update_x_sh s i y : sim sh (update_x (sh s) (de + i) y) (update_x s i y).
  Proof. unfold update_x. bnd ltac:(rdd). bnd ltac:(apply sim_same). wrr. Qed.
  Lemma next_edge_sh s i : sim sh (next_edge (sh s) (de + i)) (next_edge s i).
  Proof. unfold next_edge. bnd ltac:(rdd). bnd ltac:(apply sim_same). bnd ltac:(apply sim_same). bnd ltac:(apply sim_same). wrr. Qed.
  Lemma find_place_sh fuel : forall fuel' s r n, fuel <= fuel' -> sim (Nat.add de) (find_place fuel' (sh s) (de + r) (sedge n)) (find_place fuel s r n).
  Proof.
    induction fuel; intros [|fuel'] s r n L; try lia; cbn [find_place]; try apply sim_fuel. bnd ltac:(rdd). mtch; [|fin_ok]. bnd ltac:(rdd).
    bnd ltac:(apply sim_same). cond; [apply IHfuel; lia|fin_ok].
  Qed.
  Lemma insert_after_sh s l n : sim sh (insert_after (sh s) (de + l) (de + n)) (insert_after s l n).
  Proof.
    unfold insert_after. bnd ltac:(rdd). bnd ltac:(apply find_place_sh; rewrite len_edges_sh; lia). bnd ltac:(rdd). cbv zeta. go.
  Qed.
  Lemma insert_into_ael_sh s n : sim sh (insert_into_ael (sh s) (de + n)) (insert_into_ael s n).
  Proof.
    unfold insert_into_ael. mtch.
    - bnd ltac:(rdd). bnd ltac:(rdd). bnd ltac:(apply sim_same). cond; [apply insert_after_sh|]. bnd ltac:(wrr). bnd ltac:(wrr). fin_ok.
    - bnd ltac:(wrr). fin_ok.
  Qed.
  Lemma insert_into_ael_left_sh s l n : sim sh (insert_into_ael_left (sh s) (option_map (Nat.add de) l) (de + n)) (insert_into_ael_left s l n).
  Proof. destruct l; cbn; [apply insert_after_sh|apply insert_into_ael_sh]. Qed.
  Lemma take_from_ael_sh s i : sim sh (take_from_ael (sh s) (de + i)) (take_from_ael s i).
  Proof. unfold take_from_ael. bnd ltac:(rdd). eapply sim_bind; [go|nx]. bnd ltac:(wrr). wrr. Qed.
  Definition sns (x : option nat * clipper T) : option nat * clipper T := (option_map (Nat.add de) (fst x), sh (snd x)).
  Lemma delete_active_edge_sh s i : sim sns (delete_active_edge (sh s) (de + i)) (delete_active_edge s i).
  Proof. unfold delete_active_edge. bnd ltac:(rdd). bnd ltac:(wrr). eapply sim_bind; [go|nx]. fin_ok. Qed.

  (** *** Winding counts *)
  Lemma find_left_sh fuel : forall fuel' s pt p, fuel <= fuel' -> sim (option_map (Nat.add de)) (find_left fuel' (sh s) pt (option_map (Nat.add de) p)) (find_left fuel s pt p).
  Proof.
    induction fuel; intros fuel' s pt p L.
    - destruct p; cbn [find_left option_map]; [apply sim_fuel|]. destruct fuel'; fin_ok.
    - destruct fuel' as [|fuel']; [lia|]. destruct p; cbn [find_left option_map]; [|fin_ok]. bnd ltac:(rdd). bnd ltac:(apply sim_same). cond; [fin_ok|]. apply IHfuel. lia.
  Qed.
  Lemma ptr_eqb_sh d p i : ptr_eqb (option_map (Nat.add d) p) (Some (d + i)) = ptr_eqb p (Some i).
  Proof. destruct p; cbn; auto. apply add_eqb. Qed.
  Lemma sum_other_sh fuel : forall fuel' s pt l i c, fuel <= fuel' -> sim (fun x => x) (sum_other fuel' (sh s) pt (option_map (Nat.add de) l) (de + i) c) (sum_other fuel s pt l i c).
  Proof.
    induction fuel; intros fuel' s pt l i c L.
    - destruct fuel'; cbn [sum_other]; rewrite ptr_eqb_sh; (cond; [fin_ok|]); apply sim_fuel.
    - destruct fuel' as [|fuel']; [lia|]. cbn [sum_other]. rewrite ptr_eqb_sh. cond; [fin_ok|]. bnd ltac:(rdd). bnd ltac:(rdd). bnd ltac:(apply sim_same). apply IHfuel. lia.
  Qed.
  Lemma calc_windcnt_sh s i : sim sh (calc_windcnt (sh s) (de + i)) (calc_windcnt s i).
  Proof.
    unfold calc_windcnt. bnd ltac:(rdd). bnd ltac:(apply sim_same). bnd ltac:(apply find_left_sh; rewrite len_edges_sh; lia).
    eapply sim_bind with (g := fun x => (fst x, (fst (snd x), option_map (Nat.add de) (snd (snd x))))).
    { mtch; [bnd ltac:(rdd)|]; fin_ok. }
    intros (c & c2 & from) _. cbn [fst snd]. bnd ltac:(apply sum_other_sh; rewrite len_edges_sh; lia). wrr.
  Qed.
  Lemma recalc_at_sh fuel : forall fuel' s x c, fuel <= fuel' -> sim sns (recalc_at fuel' (sh s) x (option_map (Nat.add de) c)) (recalc_at fuel s x c).
  Proof.
    induction fuel; intros fuel' s x c L.
    - destruct c; cbn [recalc_at option_map]; [apply sim_fuel|]. destruct fuel'; fin_ok.
    - destruct fuel' as [|fuel']; [lia|]. destruct c; cbn [recalc_at option_map]; [|fin_ok]. bnd ltac:(rdd). cond; [apply IHfuel; lia|]. cond; [fin_ok|].
      eapply sim_bind; [go|nx]. bnd ltac:(wrr). bnd ltac:(apply calc_windcnt_sh). bnd ltac:(rdd). apply IHfuel. lia.
  Qed.
  Lemma recalc_all_sh xs : forall s c, sim sh (recalc_all (sh s) xs (option_map (Nat.add de) c)) (recalc_all s xs c).
  Proof.
    induction xs; intros s c; cbn [recalc_all]; [fin_ok|]. bnd ltac:(apply recalc_at_sh; rewrite len_edges_sh; lia). destruct a0. apply IHxs.
  Qed.
  Lemma recalc_windcnt_sh s : sim sh (recalc_windcnt (sh s)) (recalc_windcnt s).
  Proof. unfold recalc_windcnt. cbv zeta. apply (recalc_all_sh _ (w_changes s (tidy_changes (changes s)))). Qed.

  (** *** Local minima *)
  Lemma skip_horz_sh fuel : forall s i, sim sh (skip_horz fuel (sh s) (de + i)) (skip_horz fuel s i).
  Proof.
    induction fuel; intros s i; cbn [skip_horz]; bnd ltac:(rdd); (cond; [|fin_ok]); [apply sim_fuel|].
    bnd ltac:(apply next_edge_sh). bnd ltac:(rdd). apply (IHfuel (push_change a0 (vx (e_bot a1)))).
  Qed.
  Lemma start_edge_sh s m b t d : sim sh (start_edge (sh s) m b t d) (start_edge s m b t d).
  Proof.
    unfold start_edge. bnd ltac:(apply sim_same). cbv zeta. rewrite len_edges_sh.
    set (s1 := push_change (w_edges s (edges s ++ [Edge b (v_pt a) (n_ofZ 0) d 0 0 None None None t m])) (vx b)).
    match goal with |- sim _ (bind (skip_horz _ ?s2 _) _) _ => assert (X : s2 = sh s1) end.
    { unfold s1, push_change, w_edges, w_changes, sh. cbn. rewrite map_app, app_assoc. reflexivity. }
    rewrite X. bnd ltac:(apply skip_horz_sh). bnd ltac:(rdd). wrr.
  Qed.
  Lemma insert_minimum_sh s m : sim sh (insert_minimum (sh s) m) (insert_minimum s m).
  Proof.
    unfold insert_minimum. bnd ltac:(apply sim_same). bnd ltac:(apply sim_same). bnd ltac:(apply sim_same). bnd ltac:(apply sim_same). cbv zeta. rewrite len_edges_sh.
    bnd ltac:(apply start_edge_sh). rewrite len_edges_sh. bnd ltac:(apply start_edge_sh). bnd ltac:(apply insert_into_ael_sh).
    bnd ltac:(rdd). bnd ltac:(apply (insert_into_ael_left_sh a5 (e_prev a6))). bnd ltac:(rdd). bnd ltac:(rdd). fin_ok.
  Qed.
  Lemma insert_minima_sh y l : forall s, sim sh (insert_minima (sh s) y l) (insert_minima s y l).
  Proof.
    induction l; intros s; cbn [insert_minima]; [fin_ok|]. bnd ltac:(apply sim_same). bnd ltac:(apply sim_same). cond; [|fin_ok].
    bnd ltac:(apply (insert_minimum_sh (w_minima s (minima s) (S (cur s))))). apply IHl.
  Qed.
  Lemma insert_local_minima_sh s y : sim sh (insert_local_minima_to_ael (sh s) y) (insert_local_minima_to_ael s y).
  Proof. apply insert_minima_sh. Qed.

  (** *** Resorting *)
  Definition ssl (x : clipper T * list nat) : clipper T * list nat := (sh (fst x), map (Nat.add de) (snd x)).
  Lemma take_changed_sh fuel : forall fuel' s xs c acc, fuel <= fuel' ->
    sim ssl (take_changed fuel' (sh s) xs (option_map (Nat.add de) c) (map (Nat.add de) acc)) (take_changed fuel s xs c acc).
  Proof.
    induction fuel; intros fuel' s xs c acc L.
    - destruct xs as [|x xs]; [destruct fuel', c; fin_ok|]. destruct c; [apply sim_fuel|]. destruct fuel'; fin_ok.
    - destruct fuel' as [|fuel']; [lia|]. destruct xs as [|x xs]; cbn [take_changed]; [fin_ok|]. destruct c; cbn [option_map]; [|fin_ok].
      bnd ltac:(rdd). cond.
      + eapply sim_bind; [go|nx]. bnd ltac:(wrr). bnd ltac:(apply take_from_ael_sh).
        change [de + n] with (map (Nat.add de) [n]). rewrite <- map_app. apply IHfuel. lia.
      + cond; [|apply IHfuel; lia]. apply (IHfuel fuel' s xs (Some n)). lia.
  Qed.
  Lemma insert_all_sh l : forall s, sim sh (insert_all (sh s) (map (Nat.add de) l)) (insert_all s l).
  Proof. induction l; intros s; cbn [insert_all map]; [fin_ok|]. bnd ltac:(apply insert_into_ael_sh). apply IHl. Qed.
  Lemma resort_ael_sh s : sim sh (resort_ael (sh s)) (resort_ael s).
  Proof.
    unfold resort_ael. cbv zeta. cbn [changes w_changes edges ael].
    bnd ltac:(apply (take_changed_sh _ _ (w_changes s (tidy_changes (changes s))) _ _ []); rewrite len_edges_sh; cbn [sh changes]; lia). destruct a as (a & l). apply insert_all_sh.
  Qed.

  (** *** Output *)
  Lemma delete_obl_bound_sh s b : sim sh (delete_obl_bound (sh s) (db + b)) (delete_obl_bound s b).
  Proof. unfold delete_obl_bound. bnd ltac:(rdd). eapply sim_bind; [go|nx]. wrr. Qed.
  Lemma absorb_sh s d r up : sim sh (absorb (sh s) (dp + d) (dp + r) up) (absorb s d r up).
  Proof.
    unfold absorb. bnd ltac:(rdd). bnd ltac:(rdd). eapply sim_bind; [destruct up|nx; wrr].
    - bnd ltac:(apply pmod_sh; keep). bnd ltac:(apply (sim_deref db (o_up_bound a0))). wrr.
    - bnd ltac:(apply pmod_sh; keep). bnd ltac:(apply (sim_deref db (o_down_bound a0))). wrr.
  Qed.
  Lemma join_output_sh s a b y : sim sh (join_output (sh s) (db + a) (db + b) y) (join_output s a b y).
  Proof.
    unfold join_output. bnd ltac:(rdd). bnd ltac:(rdd). bnd ltac:(wrr). bnd ltac:(wrr). bnd ltac:(wrr). bnd ltac:(wrr).
    bnd ltac:(apply (sim_deref dp (ob_owner a0))). bnd ltac:(apply (sim_deref dp (ob_owner a1))).
    eapply sim_bind; [instantiate (1 := sh); cond; [fin_ok|]; cond; (apply pmod_sh; keep)|nx].
    rewrite add_eqb, add_ltb. eapply sim_bind; [instantiate (1 := sh); cond; [wrr|]; cond; apply absorb_sh|nx].
    bnd ltac:(apply delete_obl_bound_sh). apply delete_obl_bound_sh.
  Qed.
  Lemma new_output_sh s a b : sim sh (new_output (sh s) (de + a) (de + b)) (new_output s a b).
  Proof.
    unfold new_output. bnd ltac:(rdd). bnd ltac:(rdd). cbv zeta. rewrite len_bounds_sh, len_polys_sh, <- Nat.add_succ_r.
    match goal with |- sim _ (bind (emod ?s2 _ _) _) (bind (emod ?s1 _ _) _) => assert (X : s2 = sh s1) end.
    { unfold w_bounds, sh. cbn. rewrite map_app, app_assoc. reflexivity. }
    rewrite X. clear X. bnd ltac:(wrr). bnd ltac:(wrr). change (edge_up (sedge a0)) with (edge_up a0).
    destruct (edge_up a0); apply sim_ok; unfold w_polys, sh; cbn; rewrite map_app, app_assoc; reflexivity.
  Qed.
  Lemma update_bound_sh s b e : sim sh (update_bound (sh s) (db + b) (de + e)) (update_bound s b e).
  Proof.
    unfold update_bound. bnd ltac:(rdd). bnd ltac:(rdd).
    eapply sim_bind; [instantiate (1 := sh); cond; [fin_ok|]; bnd ltac:(apply (sim_deref dp (ob_owner a))); cond; (apply pmod_sh; keep)|nx]. bnd ltac:(wrr). wrr.
  Qed.
  Lemma collect_sh fuel : forall fuel' s c acc, fuel <= fuel' -> sim (map (Nat.add de)) (collect fuel' (sh s) (option_map (Nat.add de) c) (map (Nat.add de) acc)) (collect fuel s c acc).
  Proof.
    induction fuel; intros fuel' s c acc L.
    - destruct c; cbn [collect option_map]; [apply sim_fuel|]. destruct fuel'; fin_ok.
    - destruct fuel' as [|fuel']; [lia|]. destruct c; cbn [collect option_map]; [|fin_ok].
      bnd ltac:(rdd). bnd ltac:(apply sim_same).
      eapply sim_bind with (g := map (Nat.add de)); [|nx; apply IHfuel; lia].
      destruct a0; [|fin_ok]. destruct acc; [fin_ok|]. cbn [map]. bnd ltac:(rdd). bnd ltac:(apply sim_same). destruct a1; fin_ok.
  Qed.
  Lemma open_pairs_sh n : forall l s, length l <= n -> sim ssl (open_pairs (sh s) (map (Nat.add de) l)) (open_pairs s l).
  Proof.
    induction n; intros l s L; (destruct l as [|a [|b l]]; cbn [open_pairs map]; [fin_ok|fin_ok|]); cbn in L; [lia|].
    bnd ltac:(rdd). bnd ltac:(rdd). cond.
    - bnd ltac:(apply new_output_sh). apply IHn. lia.
    - bnd ltac:(apply IHn; lia). destruct a2. fin_ok.
  Qed.
  Definition sbd (b : bd (T := T)) : bd (T := T) := Bd (match bd_what b with inl e => inl (de + e) | inr o => inr (db + o) end) (bd_x b) (bd_idx b).
  Lemma sbl_edges_sh l : forall s k, sim (map sbd) (sbl_edges (sh s) (map (Nat.add de) l) k) (sbl_edges s l k).
  Proof. induction l; intros s k; cbn [sbl_edges map]; [fin_ok|]. bnd ltac:(rdd). bnd ltac:(apply IHl). fin_ok. Qed.
  Lemma sbl_bounds_sh n : forall s c k, sim (map sbd) (sbl_bounds n (sh s) (option_map (Nat.add db) c) k) (sbl_bounds n s c k).
  Proof. induction n; intros s c k; cbn [sbl_bounds]; (destruct c; cbn [option_map]; [|fin_ok]); [apply sim_fuel|]. bnd ltac:(rdd). bnd ltac:(apply IHn). fin_ok. Qed.
  Lemma is_edge_sh b : is_edge (sbd b) = is_edge b.
  Proof. unfold is_edge, sbd. cbn. now destruct (bd_what b). Qed.
  Lemma find_other_sh x k l : find_other x k (map sbd l) = option_map (fun p => (sbd (fst p), map sbd (snd p))) (find_other x k l).
  Proof.
    induction l; cbn [find_other map]; auto. rewrite is_edge_sh. cbn [sbd bd_x].
    destruct (n_eqb (bd_x a) x); auto. destruct (Bool.eqb _ _); auto. rewrite IHl. destruct (find_other x k l) as [(o & r)|]; auto.
  Qed.
  Lemma connect_sh s a b y : sim sh (connect (sh s) (sbd a) (sbd b) y) (connect s a b y).
  Proof.
    unfold connect. cbn [sbd bd_what]. destruct (bd_what a), (bd_what b); first [apply new_output_sh|apply join_output_sh|apply update_bound_sh].
  Qed.
  Lemma match_up_sh n : forall s y l, sim sh (match_up n (sh s) y (map sbd l)) (match_up n s y l).
  Proof.
    induction n; intros s y l; (destruct l as [|h l]; cbn [match_up map]; [fin_ok|]); [apply sim_fuel|].
    rewrite is_edge_sh. change (bd_x (sbd h)) with (bd_x h). rewrite find_other_sh.
    destruct (find_other _ _ l) as [(o & r)|]; cbn [option_map fst snd].
    - bnd ltac:(apply connect_sh). apply IHn.
    - destruct l; cbn [map]; [apply sim_ub|]. bnd ltac:(apply connect_sh). apply IHn.
  Qed.
  Lemma link_obl_sh l : forall s k, sim sh (link_obl (sh s) (db + k) (map (Nat.add de) l)) (link_obl s k l).
  Proof.
    induction l; intros s k; cbn [link_obl map]; [fin_ok|]. bnd ltac:(rdd). bnd ltac:(wrr). bnd ltac:(apply (sim_deref db (e_bound a0))). bnd ltac:(wrr). apply IHl.
  Qed.
  Lemma rebuild_obl_sh l s : sim sh (rebuild_obl (sh s) (map (Nat.add de) l)) (rebuild_obl s l).
  Proof.
    destruct l; cbn [rebuild_obl map]; [fin_ok|]. bnd ltac:(rdd). bnd ltac:(apply (sim_deref db (e_bound a))).
    bnd ltac:(apply (bmod_sh (w_obl s (Some a0))); keep). apply link_obl_sh.
  Qed.
  Lemma update_output_bound_sh n s y : sim sh (update_output_bound n (sh s) y) (update_output_bound n s y).
  Proof.
    unfold update_output_bound. change (changes (sh s)) with (changes s). destruct (changes s); [fin_ok|]. cbv zeta.
    change (w_changes (sh s) []) with (sh (w_changes s [])).
    bnd ltac:(apply (collect_sh _ _ (w_changes s []) (ael s) []); rewrite len_edges_sh; cbn [w_changes edges]; lia). rewrite <- map_rev.
    bnd ltac:(eapply open_pairs_sh; reflexivity). destruct a0 as (s1 & l1). cbn [ssl fst snd].
    bnd ltac:(apply sbl_edges_sh). rewrite map_length.
    bnd ltac:(apply sbl_bounds_sh). rewrite <- map_app, (sort_by_map sbd bd_ltb bd_ltb) by (intros; reflexivity). rewrite map_length.
    bnd ltac:(apply match_up_sh). apply rebuild_obl_sh.
  Qed.
  Lemma do_maxima_sh s i : sim sns (do_maxima (sh s) (de + i)) (do_maxima s i).
  Proof. unfold do_maxima. bnd ltac:(rdd). eapply sim_bind; [go|nx]. apply delete_active_edge_sh. Qed.
  Lemma extend_bound_sh s i : sim sh (extend_bound (sh s) (de + i)) (extend_bound s i).
  Proof.
    unfold extend_bound. bnd ltac:(rdd). mtch; [|fin_ok]. bnd ltac:(rdd). bnd ltac:(apply sim_same).
    bnd ltac:(apply (sim_deref dp (ob_owner a0))). change (bound_up (sbound a0)) with (bound_up a0).
    eapply sim_bind; [apply pmod_sh|nx; wrr]. destruct (bound_up a0); keep.
  Qed.
  Lemma climb_sh n : forall s i, sim sns (climb n (sh s) (de + i)) (climb n s i).
  Proof.
    induction n; intros s i; cbn [climb]; [apply sim_fuel|]. bnd ltac:(rdd). cond.
    - cbv zeta. bnd ltac:(apply sim_same). destruct a0; [apply (do_maxima_sh (push_change s (vx (e_top a))))|]. bnd ltac:(apply (next_edge_sh (push_change s (vx (e_top a))))). apply IHn.
    - fin_ok.
  Qed.
  Lemma push_if_sh s (b : bool) x : (if b then push_change (sh s) x else sh s) = sh (if b then push_change s x else s).
  Proof. destruct b; auto. Qed.
  Lemma top_loop_sh n : forall n' s y x c, n <= n' -> sim sh (top_loop n' (sh s) y x (option_map (Nat.add de) c)) (top_loop n s y x c).
  Proof.
    induction n; intros n' s y x c L.
    - destruct c; cbn [top_loop option_map]; [apply sim_fuel|]. destruct n'; fin_ok.
    - destruct n' as [|n']; [lia|]. destruct c; cbn [top_loop option_map]; [|fin_ok]. bnd ltac:(rdd). cond.
      + cbv zeta. bnd ltac:(wrr). change (vx (e_top (sedge a))) with (vx (e_top a)). rewrite push_if_sh.
        set (s1 := if n_eqb (vx (e_top a)) x then push_change a0 x else a0).
        bnd ltac:(apply extend_bound_sh). bnd ltac:(apply sim_same). destruct a2.
        * bnd ltac:(apply do_maxima_sh). destruct a2 as (m & s2). apply IHn. lia.
        * bnd ltac:(apply next_edge_sh). bnd ltac:(apply climb_sh). destruct a3 as (m & s2). apply IHn. lia.
      + bnd ltac:(apply update_x_sh). bnd ltac:(rdd). eapply sim_bind; [go|nx]. cbv zeta.
        change (e_x (sedge a1)) with (e_x a1). rewrite push_if_sh. apply IHn. lia.
  Qed.
  Lemma do_top_sh s y : sim sh (do_top_of_scanbeam (sh s) y) (do_top_of_scanbeam s y).
  Proof.
    unfold do_top_of_scanbeam. cbv zeta. change (w_changes (sh s) []) with (sh (w_changes s [])).
    apply (top_loop_sh _ _ (w_changes s [])). rewrite len_edges_sh. lia.
  Qed.
  Lemma close_loop_sh n : forall s y c m, sim sh (close_loop n (sh s) y (db + c) (option_map (Nat.add db) m)) (close_loop n s y c m).
  Proof.
    induction n; intros s y c m; cbn [close_loop]; (destruct m; cbn [option_map]; [|fin_ok]); [apply sim_fuel|]. bnd ltac:(rdd). bnd ltac:(rdd).
    eapply sim_bind; [instantiate (1 := sh); cond; [apply join_output_sh|fin_ok]|nx]. mtch; [|fin_ok]. bnd ltac:(rdd). apply (IHn a1 y n1 (ob_next a2)).
  Qed.
  Lemma close_output_sh n s y : sim sh (close_output n (sh s) y) (close_output n s y).
  Proof. unfold close_output. mtch; [|fin_ok]. bnd ltac:(rdd). apply close_loop_sh. Qed.

  (** *** The sweep *)
  Lemma pop_scanline_sh s y : pop_scanline (sh s) y = (fst (pop_scanline s y), sh (snd (pop_scanline s y))).
  Proof. unfold pop_scanline. change (scans (sh s)) with (scans s). destruct (drop_eq y (scans s)); reflexivity. Qed.
  Lemma push_minima_sh l : forall s, sim sh (push_minima (sh s) l) (push_minima s l).
  Proof.
    induction l; intros s; cbn [push_minima]; [fin_ok|]. bnd ltac:(apply sim_same). bnd ltac:(apply sim_same). apply (IHl (insert_scanline s (vy (v_pt a1)))).
  Qed.
  Lemma reset_sh s : sim sh (reset (sh s)) (reset s).
  Proof. unfold reset. cbv zeta. bnd ltac:(apply (push_minima_sh _ (w_minima s (sort_by (min_ltb s) (minima s)) 0))). fin_ok. Qed.
  Lemma scan_at_sh n s y : sim sh (scan_at n (sh s) y) (scan_at n s y).
  Proof. unfold scan_at. bnd ltac:(apply insert_local_minima_sh). bnd ltac:(apply recalc_windcnt_sh). apply update_output_bound_sh. Qed.
  Lemma beam_sh n s y : sim sh (beam n (sh s) y) (beam n s y).
  Proof. unfold beam. bnd ltac:(apply do_top_sh). bnd ltac:(apply close_output_sh). apply resort_ael_sh. Qed.
  Lemma sweep_sh n fuel : forall s y, sim sh (sweep n fuel (sh s) y) (sweep n fuel s y).
  Proof.
    induction fuel; intros s y; cbn [sweep]; [apply sim_fuel|]. bnd ltac:(apply scan_at_sh). rewrite pop_scanline_sh.
    destruct (pop_scanline a y) as ([z|] & s1); cbn [fst snd]; [|fin_ok]. bnd ltac:(apply beam_sh). apply IHfuel.
  Qed.
  Lemma write_poly_sh o : write_poly (spoly o) = write_poly o.
  Proof. reflexivity. Qed.
  Lemma build_output_sh s : build_output (sh s) = flat_map write_poly P0 ++ build_output s.
  Proof. unfold build_output. cbn [sh polys]. rewrite flat_map_app. f_equal. induction (polys s); cbn; auto. now rewrite write_poly_sh, IHl. Qed.
End Shift.
