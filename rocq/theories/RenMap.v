(** The sweep does not depend on how the vertices are numbered. *)
From Coq Require Import ZArith Bool List Lia.
From Verif Require Import Outcome Num Rmath Segment Path VState VPath VBreak VAel VOut VMain VFresh EquiMap.
Import ListNotations.
Local Open Scope out.

Section Ren.
  Context {T : Type} {N : Num T}.
  (** [W] holds the vertices [V] that satisfy [D], at the numbers given by [r]. *)
  Variable r : nat -> nat.
  Variables V W : list (vertex T).
  Variable D : nat -> Prop.
  Definition rv (v : vertex T) : vertex T := Vertex (v_pt v) (v_seg v) (option_map r (v_next v)) (option_map r (v_prev v)) (v_max v) (v_min v).
  Record renames : Prop := {
    rn_at : forall i, D i -> exists v, nth_error V i = Some v /\ nth_error W (r i) = Some (rv v) /\
      (forall j, v_next v = Some j -> D j) /\ (forall j, v_prev v = Some j -> D j);
    rn_len : length W = length V }.
  Hypothesis F : renames.
  (** The minima [L0] are in [LM], at the numbers given by [q]. *)
  Variable q : nat -> nat.
  Variables L0 LM : list lmin.
  Definition re (e : edge T) : edge T := Edge (e_bot e) (e_top e) (e_x e) (e_dx e) (e_cnt e) (e_cnt2 e)
    (e_prev e) (e_next e) (e_bound e) (r (e_vtop e)) (q (e_lmin e)).
  Definition rl (m : lmin) : lmin := Lmin (r (lm_vert m)) (lm_type m).
  Hypothesis QL : forall k, nth_error LM (q k) = option_map rl (nth_error L0 k).
  Hypothesis LD : Forall (fun m => D (lm_vert m)) L0.
  (** The start vertices and the breaks are not read any more; they are given. *)
  Variable ST : list nat.
  Variable B : list (break_info T).
  Definition rn (s : clipper T) : clipper T := Clipper W LM (map q (minima s)) (cur s) ST B (scans s)
    (map re (edges s)) (ael s) (bounds s) (obl s) (changes s) (polys s) (cop s) (cfill s).
  Definition home (e : edge T) : Prop := D (e_vtop e).
  Definition inv (s : clipper T) : Prop := verts s = V /\ lmins s = L0 /\ Forall home (edges s).
  Notation ev := (eqv rn inv).
  Implicit Types s : clipper T.

  (** *** State updates *)
  Lemma push_change_rn s x : push_change (rn s) x = rn (push_change s x).
  Proof. reflexivity. Qed.
  Lemma insert_scanline_rn s y : insert_scanline (rn s) y = rn (insert_scanline s y).
  Proof. reflexivity. Qed.
  Lemma emod_rn s i f1 f2 : (forall e, re (f1 e) = f2 (re e)) ->
    (forall e, nth_error (edges s) i = Some e -> home e -> home (f1 e)) -> inv s -> ev (emod (rn s) i f2) (emod s i f1).
  Proof.
    intros H K (I1 & I3 & I2). unfold emod. eapply eqv_bind; [apply (eqv_at re)|]. intros e E. cbv beta in E. apply eqv_ok.
    - unfold rn, w_edges. cbn. now rewrite (map_upd re f1 f2) by auto.
    - split; auto. split; auto. cbn. rewrite Forall_forall in *. intros x X. apply In_nth_error in X as (j & X). rewrite VLemmas.nth_upd in X.
      destruct (Nat.eqb i j) eqn:Q; [|apply I2; eapply nth_error_In; eauto]. apply Nat.eqb_eq in Q. subst j.
      rewrite E in X. cbn in X. injection X as <-. apply K; auto. apply I2. eapply nth_error_In; eauto.
  Qed.
  Lemma eqv_at_same {A} (l : list A) i : eqv (fun x => x) (fun x => nth_error l i = Some x) (at_ l i) (at_ l i).
  Proof. apply eqv_same. unfold at_. destruct (nth_error l i) eqn:E; cbn; auto. Qed.
  Lemma bmod_rn s i f : inv s -> ev (bmod (rn s) i f) (bmod s i f).
  Proof. intros I. unfold bmod. eapply eqv_bind; [apply eqv_at_same|]. intros b E. apply eqv_ok; auto. Qed.
  Lemma pmod_rn s i f : inv s -> ev (pmod (rn s) i f) (pmod s i f).
  Proof. intros I. unfold pmod. eapply eqv_bind; [apply eqv_at_same|]. intros b E. apply eqv_ok; auto. Qed.
  Lemma emod_opt_rn s p f1 f2 : (forall e, re (f1 e) = f2 (re e)) ->
    (forall e, home e -> home (f1 e)) -> inv s -> ev (emod_opt (rn s) p f2) (emod_opt s p f1).
  Proof. intros H K I. destruct p; cbn; [apply emod_rn; auto|apply eqv_ok; auto]. Qed.
  Lemma bmod_opt_rn s p f : inv s -> ev (bmod_opt (rn s) p f) (bmod_opt s p f).
  Proof. intros I. destruct p; cbn; [apply bmod_rn; auto|apply eqv_ok; auto]. Qed.

  Lemma inv_edge s i e : inv s -> nth_error (edges s) i = Some e -> home e.
  Proof. intros (_ & _ & H) E. rewrite Forall_forall in H. apply H. eapply nth_error_In; eauto. Qed.
  Lemma inv_lmin s i m : inv s -> nth_error (lmins s) i = Some m -> D (lm_vert m).
  Proof. intros (_ & H & _) E. rewrite H in E. rewrite Forall_forall in LD. apply LD. eapply nth_error_In; eauto. Qed.
  (** reading a minimum *)
  Lemma lmin_rn s k : inv s -> eqv rl (fun m => D (lm_vert m)) (at_ LM (q k)) (at_ (lmins s) k).
  Proof.
    intros I. pose proof (inv_lmin s k) as H. unfold at_. rewrite QL. destruct I as (I1 & I2 & I3). rewrite I2 in *.
    destruct (nth_error L0 k) as [m|]; cbn; [apply eqv_ok; auto; apply H; [split; auto|reflexivity]|apply eqv_ub].
  Qed.
  (** reading a vertex *)
  Definition kin (v : vertex T) : Prop := (forall j, v_next v = Some j -> D j) /\ (forall j, v_prev v = Some j -> D j).
  Lemma vert_rn s i : inv s -> D i -> eqv rv kin (at_ W (r i)) (at_ (verts s) i).
  Proof.
    intros (-> & _) H. destruct (rn_at F i H) as (v & E & E' & K). unfold at_. rewrite E, E'. cbn. apply eqv_ok; auto.
  Qed.
  Lemma link_rn (p : option nat) : (forall j, p = Some j -> D j) -> eqv r D (deref (option_map r p)) (deref p).
  Proof. intros H. destruct p; cbn; [apply eqv_ok; auto|apply eqv_ub]. Qed.

  Ltac rdd := first [apply (eqv_at re) | apply eqv_at_same | apply eqv_deref].
  Ltac keep := solve [intros; reflexivity | auto | (intros ? ? K; exact K) | (intros ? K; exact K)].
  Ltac wrr := first [apply emod_rn; [keep|keep|assumption] | apply bmod_rn; assumption | apply pmod_rn; assumption
    | apply emod_opt_rn; [keep|keep|assumption] | apply bmod_opt_rn; assumption].
  Ltac nx := let a := fresh "a" in let K := fresh "K" in intros a K; cbv beta in K; cbv beta.
  Ltac bnd L := eapply eqv_bind; [L|nx].
  Ltac cond := match goal with |- eqv _ _ (if ?b2 then _ else _) (if ?b1 then _ else _) => change b2 with b1; let C := fresh "C" in destruct b1 eqn:C end.
  Ltac mtch := match goal with |- eqv _ _ (match ?x2 with Some _ => _ | None => _ end) (match ?x1 with Some _ => _ | None => _ end) => change x2 with x1; let C := fresh "C" in destruct x1 eqn:C end.
  Ltac fin_ok := apply eqv_ok; [reflexivity|try assumption; try exact I].
  Ltac go := repeat first [cond | mtch | wrr | (eapply eqv_bind; [first [rdd | wrr]|nx]) | fin_ok | apply eqv_fuel | apply eqv_ub | apply eqv_throw].

  (** *** Reading *)
  Lemma get_polytype_rn s e : inv s -> eqv (fun x => x) (fun _ => True) (get_polytype (rn s) (re e)) (get_polytype s e).
  Proof. intros I. unfold get_polytype. bnd ltac:(apply (lmin_rn s); auto). fin_ok. Qed.
  Lemma is_maxima_rn s e : inv s -> home e -> eqv (fun x => x) (fun _ => True) (is_maxima (rn s) (re e)) (is_maxima s e).
  Proof. intros I H. unfold is_maxima. bnd ltac:(apply (vert_rn s); auto). fin_ok. Qed.
  Lemma get_seg_rn s e : inv s -> home e -> eqv (fun x => x) (fun _ => True) (get_seg (rn s) (re e)) (get_seg s e).
  Proof.
    intros I H. unfold get_seg. bnd ltac:(apply (vert_rn s); auto). destruct K as (K1 & K2). cond.
    - bnd ltac:(apply link_rn; auto). bnd ltac:(apply (vert_rn s); auto). fin_ok.
    - fin_ok.
  Qed.
  Lemma eqv_any {A} (o : outcome A) : eqv (fun x => x) (fun _ => True) o o.
  Proof. apply eqv_same. destruct o; exact I. Qed.
  Lemma edge_x_at_rn s e y : inv s -> home e -> eqv (fun x => x) (fun _ => True) (edge_x_at (rn s) (re e) y) (edge_x_at s e y).
  Proof. intros I H. unfold edge_x_at. bnd ltac:(apply get_seg_rn; auto). apply eqv_any. Qed.
  Lemma copy_seg_rn s e b : inv s -> home e -> eqv (fun x => x) (fun _ => True) (copy_seg (rn s) (re e) b) (copy_seg s e b).
  Proof. intros I H. unfold copy_seg. bnd ltac:(apply get_seg_rn; auto). apply eqv_any. Qed.
  Lemma update_x_rn s i y : inv s -> ev (update_x (rn s) i y) (update_x s i y).
  Proof. intros I. unfold update_x. bnd ltac:(rdd). bnd ltac:(apply edge_x_at_rn; eauto using inv_edge). wrr. Qed.
  Lemma next_edge_rn s i : inv s -> ev (next_edge (rn s) i) (next_edge s i).
  Proof.
    intros I. unfold next_edge. bnd ltac:(rdd). bnd ltac:(apply (vert_rn s); [auto|exact (inv_edge _ _ _ I K)]). destruct K0 as (K1 & K2).
    eapply eqv_bind with (g := r) (P := D).
    { change (edge_up (re a)) with (edge_up a). destruct (edge_up a); apply link_rn; auto. }
    nx. bnd ltac:(apply (vert_rn s); auto). apply emod_rn; auto.
  Qed.
  Lemma is_same_rn s a b : inv s -> home a -> home b -> eqv (fun x => x) (fun _ => True) (is_same (rn s) (re a) (re b)) (is_same s a b).
  Proof. intros I HA HB. unfold is_same. bnd ltac:(apply get_seg_rn; auto). bnd ltac:(apply get_seg_rn; auto). apply eqv_any. Qed.
  Lemma valid_order_rn s a b : inv s -> home a -> home b ->
    eqv (fun x => x) (fun _ => True) (valid_order (rn s) (re a) (re b)) (valid_order s a b).
  Proof.
    intros I HA HB. unfold valid_order. cond; [fin_ok|]. cbv zeta.
    bnd ltac:(apply edge_x_at_rn; auto). bnd ltac:(apply edge_x_at_rn; auto). cond; [fin_ok|].
    bnd ltac:(apply get_polytype_rn; auto). bnd ltac:(apply get_polytype_rn; auto). fin_ok.
  Qed.

  (** *** The active edge list *)
  Lemma find_place_rn fuel : forall s k n, inv s -> home n ->
    eqv (fun x => x) (fun _ => True) (find_place fuel (rn s) k (re n)) (find_place fuel s k n).
  Proof.
    induction fuel; intros s k n I TN; cbn [find_place]; [apply eqv_fuel|]. bnd ltac:(rdd). mtch; [|fin_ok]. bnd ltac:(rdd).
    bnd ltac:(apply valid_order_rn; eauto using inv_edge). cond; [apply IHfuel; auto|fin_ok].
  Qed.
  Lemma len_edges s : length (edges (rn s)) = length (edges s).
  Proof. apply map_length. Qed.
  Lemma len_verts s : inv s -> length (verts (rn s)) = length (verts s).
  Proof. intros (-> & _). apply (rn_len F). Qed.
  Lemma insert_after_rn s l n : inv s -> ev (insert_after (rn s) l n) (insert_after s l n).
  Proof.
    intros I. unfold insert_after. bnd ltac:(rdd). rewrite len_edges. bnd ltac:(apply find_place_rn; eauto using inv_edge). bnd ltac:(rdd). cbv zeta.
    go.
  Qed.
  Lemma insert_into_ael_rn s n : inv s -> ev (insert_into_ael (rn s) n) (insert_into_ael s n).
  Proof.
    intros I. unfold insert_into_ael. mtch.
    - bnd ltac:(rdd). bnd ltac:(rdd). bnd ltac:(apply valid_order_rn; eauto using inv_edge). cond; [apply insert_after_rn; auto|]. go.
    - go.
  Qed.
  Lemma insert_into_ael_left_rn s l n : inv s -> ev (insert_into_ael_left (rn s) l n) (insert_into_ael_left s l n).
  Proof. intros I. destruct l; cbn; [apply insert_after_rn|apply insert_into_ael_rn]; auto. Qed.
  Lemma take_from_ael_rn s i : inv s -> ev (take_from_ael (rn s) i) (take_from_ael s i).
  Proof.
    intros I. unfold take_from_ael. bnd ltac:(rdd). eapply eqv_bind; [instantiate (1 := inv); go|nx]. go.
  Qed.
  Definition fns (x : option nat * clipper T) : option nat * clipper T := (fst x, rn (snd x)).
  Definition ins (x : option nat * clipper T) : Prop := inv (snd x).
  Lemma delete_active_edge_rn s i : inv s -> eqv fns ins (delete_active_edge (rn s) i) (delete_active_edge s i).
  Proof.
    intros I. unfold delete_active_edge. bnd ltac:(rdd). bnd ltac:(wrr). eapply eqv_bind; [instantiate (1 := inv); go|nx]. go.
  Qed.

  (** *** Winding counts *)
  Lemma find_left_rn fuel : forall s pt p, inv s -> eqv (fun x => x) (fun _ => True) (find_left fuel (rn s) pt p) (find_left fuel s pt p).
  Proof.
    induction fuel; intros s pt p I; cbn [find_left]; (destruct p; [|fin_ok]); [apply eqv_fuel|]. bnd ltac:(rdd). bnd ltac:(apply get_polytype_rn; auto).
    cond; [fin_ok|]. apply IHfuel. auto.
  Qed.
  Lemma sum_other_rn fuel : forall s pt l i c, inv s -> eqv (fun x => x) (fun _ => True) (sum_other fuel (rn s) pt l i c) (sum_other fuel s pt l i c).
  Proof.
    induction fuel; intros s pt l i c I; cbn [sum_other]; cond; try fin_ok; [apply eqv_fuel|]. bnd ltac:(rdd). bnd ltac:(rdd). bnd ltac:(apply get_polytype_rn; auto).
    apply IHfuel. auto.
  Qed.
  Lemma calc_windcnt_rn s i : inv s -> ev (calc_windcnt (rn s) i) (calc_windcnt s i).
  Proof.
    intros I. unfold calc_windcnt. bnd ltac:(rdd). bnd ltac:(apply get_polytype_rn; auto). rewrite len_edges. bnd ltac:(apply find_left_rn; auto).
    eapply eqv_bind with (g := fun x => x) (P := fun _ => True).
    { mtch; [bnd ltac:(rdd)|]; fin_ok. }
    intros (c & c2 & from) _. bnd ltac:(apply sum_other_rn; auto). wrr.
  Qed.
  Lemma recalc_at_rn fuel : forall s x c, inv s -> eqv fns ins (recalc_at fuel (rn s) x c) (recalc_at fuel s x c).
  Proof.
    induction fuel; intros s x c I; cbn [recalc_at]; (destruct c; [|fin_ok]); [apply eqv_fuel|]. bnd ltac:(rdd). cond; [apply IHfuel; auto|]. cond; [fin_ok|].
    eapply eqv_bind; [instantiate (1 := inv); go|nx]. bnd ltac:(wrr). bnd ltac:(apply calc_windcnt_rn; auto). bnd ltac:(rdd). apply IHfuel; auto.
  Qed.
  Lemma recalc_all_rn xs : forall s c, inv s -> ev (recalc_all (rn s) xs c) (recalc_all s xs c).
  Proof.
    induction xs; intros s c I; cbn [recalc_all map]; [fin_ok|]. rewrite len_edges. bnd ltac:(apply recalc_at_rn; auto). destruct a0. apply IHxs. exact K.
  Qed.
  Lemma recalc_windcnt_rn s : inv s -> ev (recalc_windcnt (rn s)) (recalc_windcnt s).
  Proof.
    intros I. unfold recalc_windcnt. cbv zeta. change (changes (rn s)) with (changes s).
    apply (recalc_all_rn (tidy_changes (changes s)) (w_changes s (tidy_changes (changes s)))). exact I.
  Qed.

  (** *** Local minima *)
  Lemma skip_horz_rn fuel : forall s i, inv s -> ev (skip_horz fuel (rn s) i) (skip_horz fuel s i).
  Proof.
    induction fuel; intros s i I; cbn [skip_horz]; bnd ltac:(rdd); (cond; [|fin_ok]); [apply eqv_fuel|].
    bnd ltac:(apply next_edge_rn; auto). bnd ltac:(rdd).
    change (vx (e_bot (re a1))) with (vx (e_bot a1)). rewrite push_change_rn. apply IHfuel. exact K0.
  Qed.
  Lemma start_edge_rn s m b t d : inv s -> D t -> ev (start_edge (rn s) (q m) b (r t) d) (start_edge s m b t d).
  Proof.
    intros I H. unfold start_edge. bnd ltac:(apply (vert_rn s); auto). cbv zeta. rewrite len_edges.
    change (length (verts (w_edges (rn s) _))) with (length (verts (rn s))). rewrite (len_verts s I).
    change (length (verts (w_edges s _))) with (length (verts s)).
    set (s1 := push_change (w_edges s (edges s ++ [Edge b (v_pt a) (n_ofZ 0) d 0 0 None None None t m])) (vx b)).
    assert (J : inv s1).
    { destruct I as (I1 & I2 & I3). split; auto. split; auto. unfold s1. cbn. apply Forall_app. split; auto. }
    match goal with |- eqv _ _ (bind (skip_horz _ ?s2 _) _) _ => replace s2 with (rn s1) end.
    2: { unfold s1, push_change, w_edges, w_changes, rn. cbn. rewrite map_app. reflexivity. }
    bnd ltac:(apply skip_horz_rn; auto). bnd ltac:(rdd). wrr.
  Qed.
  Lemma insert_minimum_rn s m : inv s -> ev (insert_minimum (rn s) (q m)) (insert_minimum s m).
  Proof.
    intros I. unfold insert_minimum. bnd ltac:(apply (lmin_rn s); auto). bnd ltac:(apply (vert_rn s); auto). destruct K0 as (K1 & K2).
    bnd ltac:(apply link_rn; auto). bnd ltac:(apply link_rn; auto). cbv zeta. rewrite len_edges.
    bnd ltac:(apply start_edge_rn; auto). rewrite len_edges. bnd ltac:(apply start_edge_rn; auto). bnd ltac:(apply insert_into_ael_rn; auto).
    bnd ltac:(rdd). bnd ltac:(apply insert_into_ael_left_rn; auto). bnd ltac:(rdd). bnd ltac:(rdd). fin_ok.
  Qed.
  Lemma insert_minima_rn y l : forall s, inv s -> ev (insert_minima (rn s) y (map q l)) (insert_minima s y l).
  Proof.
    induction l; intros s I; cbn [insert_minima map]; [fin_ok|]. bnd ltac:(apply (lmin_rn s); auto). bnd ltac:(apply (vert_rn s); auto). cond; [|fin_ok].
    bnd ltac:(apply (insert_minimum_rn (w_minima s (minima s) (S (cur s)))); exact I). apply IHl. auto.
  Qed.
  Lemma insert_local_minima_rn s y : inv s -> ev (insert_local_minima_to_ael (rn s) y) (insert_local_minima_to_ael s y).
  Proof. intros I. unfold insert_local_minima_to_ael. cbn [rn minima cur]. rewrite skipn_map. now apply insert_minima_rn. Qed.

  (** *** Resorting *)
  Definition fsl (x : clipper T * list nat) : clipper T * list nat := (rn (fst x), snd x).
  Definition isl (x : clipper T * list nat) : Prop := inv (fst x).
  Lemma take_changed_rn fuel : forall s xs c acc, inv s -> eqv fsl isl (take_changed fuel (rn s) xs c acc) (take_changed fuel s xs c acc).
  Proof.
    induction fuel; intros s xs c acc I; destruct xs as [|x xs]; cbn [take_changed map]; try fin_ok; (destruct c; [|fin_ok]); [apply eqv_fuel|].
    bnd ltac:(rdd). cond.
    - eapply eqv_bind; [instantiate (1 := inv); go|nx]. bnd ltac:(wrr). bnd ltac:(apply take_from_ael_rn; auto). apply (IHfuel _ (x :: xs)). auto.
    - cond; [apply IHfuel; auto|apply (IHfuel _ (x :: xs)); auto].
  Qed.
  Lemma insert_all_rn l : forall s, inv s -> ev (insert_all (rn s) l) (insert_all s l).
  Proof. induction l; intros s I; cbn [insert_all]; [fin_ok|]. bnd ltac:(apply insert_into_ael_rn; auto). auto. Qed.
  Lemma resort_ael_rn s : inv s -> ev (resort_ael (rn s)) (resort_ael s).
  Proof.
    intros I. unfold resort_ael. cbv zeta. change (changes (rn s)) with (changes s).
    cbn [changes w_changes edges ael]. rewrite len_edges.
    bnd ltac:(apply (take_changed_rn _ (w_changes s (tidy_changes (changes s)))); exact I). destruct a as (a & l). apply insert_all_rn. exact K.
  Qed.

  (** *** Output *)
  Lemma is_contributing_rn s e : inv s -> eqv (fun x => x) (fun _ => True) (is_contributing (rn s) (re e)) (is_contributing s e).
  Proof. intros I. unfold is_contributing. bnd ltac:(apply get_polytype_rn; auto). fin_ok. Qed.
  Lemma delete_obl_bound_rn s b : inv s -> ev (delete_obl_bound (rn s) b) (delete_obl_bound s b).
  Proof. intros I. unfold delete_obl_bound. bnd ltac:(rdd). eapply eqv_bind; [instantiate (1 := inv); go|nx]. go. Qed.
  Lemma absorb_rn s d k up : inv s -> ev (absorb (rn s) d k up) (absorb s d k up).
  Proof.
    intros I. unfold absorb. bnd ltac:(rdd). bnd ltac:(rdd). eapply eqv_bind; [instantiate (1 := inv); destruct up|nx; go].
    - bnd ltac:(apply pmod_rn; auto). go.
    - bnd ltac:(apply pmod_rn; auto). go.
  Qed.
  Lemma join_output_rn s a b y : inv s -> ev (join_output (rn s) a b y) (join_output s a b y).
  Proof.
    intros I. unfold join_output. bnd ltac:(rdd). bnd ltac:(rdd). bnd ltac:(wrr). bnd ltac:(wrr). bnd ltac:(wrr). bnd ltac:(wrr).
    bnd ltac:(apply eqv_deref). bnd ltac:(apply eqv_deref).
    eapply eqv_bind; [instantiate (1 := inv); cond; [fin_ok|]; cond; (apply pmod_rn; auto)|nx].
    eapply eqv_bind; [instantiate (1 := inv); cond; [go|]; cond; apply absorb_rn; auto|nx].
    bnd ltac:(apply delete_obl_bound_rn; auto). apply delete_obl_bound_rn; auto.
  Qed.
  Lemma new_output_rn s a b : inv s -> ev (new_output (rn s) a b) (new_output s a b).
  Proof.
    intros I. unfold new_output. bnd ltac:(rdd). bnd ltac:(rdd). cbv zeta.
    change (length (bounds (rn s))) with (length (bounds s)). change (length (polys (rn s))) with (length (polys s)).
    match goal with |- eqv _ _ (bind (emod ?s2 _ _) _) (bind (emod ?s1 _ _) _) => change s2 with (rn s1); assert (J : inv s1) by exact I end.
    bnd ltac:(wrr). bnd ltac:(wrr). change (edge_up (re a0)) with (edge_up a0). destruct (edge_up a0); fin_ok.
  Qed.
  Lemma update_bound_rn s b e : inv s -> ev (update_bound (rn s) b e) (update_bound s b e).
  Proof.
    intros I. unfold update_bound. bnd ltac:(rdd). bnd ltac:(rdd).
    eapply eqv_bind; [instantiate (1 := inv); cond; [fin_ok|]; bnd ltac:(apply eqv_deref); cond; (apply pmod_rn; auto)|nx]. go.
  Qed.
  Lemma collect_rn fuel : forall s c acc, inv s -> eqv (fun x => x) (fun _ => True) (collect fuel (rn s) c acc) (collect fuel s c acc).
  Proof.
    induction fuel; intros s c acc I; cbn [collect]; (destruct c; [|fin_ok]); [apply eqv_fuel|].
    bnd ltac:(rdd). bnd ltac:(apply is_contributing_rn; auto).
    eapply eqv_bind with (g := fun x => x) (P := fun _ => True); [|nx; apply IHfuel; auto].
    destruct a0; [|fin_ok]. destruct acc; [fin_ok|]. bnd ltac:(rdd). bnd ltac:(apply is_same_rn; eauto using inv_edge). fin_ok.
  Qed.
  Lemma open_pairs_rn n : forall l s, length l <= n -> inv s -> eqv fsl isl (open_pairs (rn s) l) (open_pairs s l).
  Proof.
    induction n; intros l s L I; (destruct l as [|a [|b l]]; cbn [open_pairs]; [fin_ok|fin_ok|]); cbn in L; [lia|].
    bnd ltac:(rdd). bnd ltac:(rdd). cond.
    - bnd ltac:(apply new_output_rn; auto). apply IHn; auto. lia.
    - bnd ltac:(apply IHn; [lia|auto]). destruct a2. fin_ok.
  Qed.
  Lemma sbl_edges_rn l : forall s k, eqv (fun x => x) (fun _ => True) (sbl_edges (rn s) l k) (sbl_edges s l k).
  Proof. induction l; intros s k; cbn [sbl_edges]; [fin_ok|]. bnd ltac:(rdd). bnd ltac:(apply IHl). fin_ok. Qed.
  Lemma sbl_bounds_rn n : forall s c k, eqv (fun x => x) (fun _ => True) (sbl_bounds n (rn s) c k) (sbl_bounds n s c k).
  Proof. induction n; intros s c k; cbn [sbl_bounds]; (destruct c; [|fin_ok]); [apply eqv_fuel|]. bnd ltac:(rdd). bnd ltac:(apply IHn). fin_ok. Qed.
  Lemma connect_rn s a b y : inv s -> ev (connect (rn s) a b y) (connect s a b y).
  Proof.
    intros I. unfold connect. cbn [bd_what]. destruct (bd_what a), (bd_what b);
      first [apply new_output_rn|apply join_output_rn|apply update_bound_rn]; auto.
  Qed.
  Lemma match_up_rn n : forall s y l, inv s -> ev (match_up n (rn s) y l) (match_up n s y l).
  Proof.
    induction n; intros s y l I; (destruct l as [|h l]; cbn [match_up map]; [fin_ok|]); [apply eqv_fuel|].
    destruct (find_other _ _ l) as [(o & k)|].
    - bnd ltac:(apply connect_rn; auto). auto.
    - destruct l; cbn [map]; [apply eqv_ub|]. bnd ltac:(apply connect_rn; auto). auto.
  Qed.
  Lemma link_obl_rn l : forall s k, inv s -> ev (link_obl (rn s) k l) (link_obl s k l).
  Proof.
    induction l; intros s k I; cbn [link_obl]; [fin_ok|]. bnd ltac:(rdd). bnd ltac:(wrr). bnd ltac:(apply eqv_deref). bnd ltac:(wrr). auto.
  Qed.
  Lemma rebuild_obl_rn l s : inv s -> ev (rebuild_obl (rn s) l) (rebuild_obl s l).
  Proof.
    intros I. destruct l; cbn [rebuild_obl]; [fin_ok|]. bnd ltac:(rdd). bnd ltac:(apply eqv_deref).
    bnd ltac:(apply (bmod_rn (w_obl s (Some a0))); exact I). apply link_obl_rn. auto.
  Qed.
  Lemma update_output_bound_rn n s y : inv s -> ev (update_output_bound n (rn s) y) (update_output_bound n s y).
  Proof.
    intros I. unfold update_output_bound. change (changes (rn s)) with (changes s). destruct (changes s); [fin_ok|]. cbn [map]. cbv zeta.
    change (w_changes (rn s) []) with (rn (w_changes s [])). rewrite len_edges.
    bnd ltac:(apply collect_rn; exact I). bnd ltac:(eapply open_pairs_rn; [reflexivity|exact I]). destruct a0 as (s1 & l1). cbn [fsl fst snd].
    bnd ltac:(apply sbl_edges_rn). change (obl (rn s1)) with (obl s1). change (bounds (rn s1)) with (bounds s1).
    bnd ltac:(apply sbl_bounds_rn).
    bnd ltac:(apply match_up_rn; exact K0). apply rebuild_obl_rn. auto.
  Qed.
  Lemma do_maxima_rn s i : inv s -> eqv fns ins (do_maxima (rn s) i) (do_maxima s i).
  Proof.
    intros I. unfold do_maxima. bnd ltac:(rdd). eapply eqv_bind; [instantiate (1 := inv); go|nx]. apply delete_active_edge_rn. auto.
  Qed.
  Lemma extend_bound_rn s i : inv s -> ev (extend_bound (rn s) i) (extend_bound s i).
  Proof.
    intros I. unfold extend_bound. bnd ltac:(rdd). mtch; [|fin_ok]. bnd ltac:(rdd). bnd ltac:(apply copy_seg_rn; eauto using inv_edge).
    bnd ltac:(apply eqv_deref). 
    bnd ltac:(apply pmod_rn; auto). wrr.
  Qed.
  Lemma climb_rn n : forall s i, inv s -> eqv fns ins (climb n (rn s) i) (climb n s i).
  Proof.
    induction n; intros s i I; cbn [climb]; [apply eqv_fuel|]. bnd ltac:(rdd). cond.
    - cbv zeta. change (vx (e_top (re a))) with (vx (e_top a)). rewrite push_change_rn. bnd ltac:(apply is_maxima_rn; [exact I|exact (inv_edge _ _ _ I K)]).
      destruct a0; [apply do_maxima_rn; exact I|]. bnd ltac:(apply next_edge_rn; exact I). auto.
    - change (vy (e_top (re a))) with (vy (e_top a)). rewrite insert_scanline_rn. fin_ok.
  Qed.
  Lemma push_if_rn s (b : bool) x : (if b then push_change (rn s) x else rn s) = rn (if b then push_change s x else s).
  Proof. now destruct b. Qed.
  Lemma top_loop_rn n : forall s y x c, inv s -> ev (top_loop n (rn s) y x c) (top_loop n s y x c).
  Proof.
    induction n; intros s y x c I; cbn [top_loop]; (destruct c; [|fin_ok]); [apply eqv_fuel|]. bnd ltac:(rdd). cond.
    - cbv zeta. change (vx (e_top (re a))) with (vx (e_top a)). bnd ltac:(wrr). rewrite push_if_rn.
      set (s1 := if n_eqb (vx (e_top a)) x then push_change a0 x else a0). assert (J : inv s1) by (unfold s1; destruct (n_eqb _ x); exact K0).
      bnd ltac:(apply extend_bound_rn; auto). bnd ltac:(apply is_maxima_rn; [auto|exact (inv_edge _ _ _ I K)]). destruct a2.
      + bnd ltac:(apply do_maxima_rn; auto). destruct a2 as (m & s2). apply IHn. exact K3.
      + bnd ltac:(apply next_edge_rn; auto). rewrite len_verts by auto. bnd ltac:(apply climb_rn; auto). destruct a3 as (m & s2). apply IHn. exact K4.
    - bnd ltac:(apply update_x_rn; auto). bnd ltac:(rdd). eapply eqv_bind; [instantiate (1 := inv); go|nx]. cbv zeta.
      change (e_x (re a1)) with (e_x a1). rewrite push_if_rn. apply IHn. destruct (n_eqb _ x); exact K2.
  Qed.
  Lemma do_top_rn s y : inv s -> ev (do_top_of_scanbeam (rn s) y) (do_top_of_scanbeam s y).
  Proof.
    intros I. unfold do_top_of_scanbeam. cbv zeta. change (w_changes (rn s) []) with (rn (w_changes s [])). rewrite len_edges.
    apply top_loop_rn. exact I.
  Qed.
  Lemma close_loop_rn n : forall s y c m, inv s -> ev (close_loop n (rn s) y c m) (close_loop n s y c m).
  Proof.
    induction n; intros s y c m I; cbn [close_loop]; (destruct m; [|fin_ok]); [apply eqv_fuel|]. bnd ltac:(rdd). bnd ltac:(rdd).
    eapply eqv_bind; [instantiate (1 := inv); cond; [apply join_output_rn; auto|fin_ok]|nx]. mtch; [|fin_ok]. bnd ltac:(rdd). apply IHn. auto.
  Qed.
  Lemma close_output_rn n s y : inv s -> ev (close_output n (rn s) y) (close_output n s y).
  Proof. intros I. unfold close_output. mtch; [|fin_ok]. bnd ltac:(rdd). apply close_loop_rn. auto. Qed.

  (** *** The sweep *)
  Lemma pop_scanline_rn s y : pop_scanline (rn s) y = (fst (pop_scanline s y), rn (snd (pop_scanline s y))).
  Proof. unfold pop_scanline. change (scans (rn s)) with (scans s). destruct (drop_eq y (scans s)); reflexivity. Qed.
  Lemma pop_scanline_inv s y : inv s -> inv (snd (pop_scanline s y)).
  Proof. unfold pop_scanline. intros I. destruct (drop_eq y (scans s)); exact I. Qed.
  Lemma min_ltb_rn s a b : inv s -> min_ltb (rn s) (q a) (q b) = min_ltb s a b.
  Proof.
    intros I. unfold min_ltb. cbn [rn lmins verts]. rewrite !QL. pose proof I as (I1 & I2 & _). rewrite <- I2.
    destruct (nth_error (lmins s) a) as [l|] eqn:A; auto. destruct (nth_error (lmins s) b) as [m|] eqn:C; auto. cbn [option_map rl lm_vert].
    destruct (rn_at F _ (inv_lmin _ _ _ I A)) as (v & E & E' & _). destruct (rn_at F _ (inv_lmin _ _ _ I C)) as (w & G & G' & _).
    rewrite I1, E, E', G, G'. reflexivity.
  Qed.
  Lemma push_minima_rn l : forall s, inv s -> ev (push_minima (rn s) (map q l)) (push_minima s l).
  Proof.
    induction l; intros s I; cbn [push_minima map]; [fin_ok|]. bnd ltac:(apply (lmin_rn s); auto). bnd ltac:(apply (vert_rn s); auto).
    change (vy (v_pt (rv a1))) with (vy (v_pt a1)). rewrite insert_scanline_rn. apply IHl. exact I.
  Qed.
  Lemma reset_rn s : inv s -> ev (reset (rn s)) (reset s).
  Proof.
    intros I. unfold reset. cbv zeta. change (minima (rn s)) with (map q (minima s)).
    replace (sort_by (min_ltb (rn s)) (map q (minima s))) with (map q (sort_by (min_ltb s) (minima s))).
    - rewrite <- map_rev. bnd ltac:(apply (push_minima_rn _ (w_minima s (sort_by (min_ltb s) (minima s)) 0)); exact I). fin_ok.
    - symmetry. apply sort_by_map. intros. now apply min_ltb_rn.
  Qed.
  Lemma scan_at_rn n s y : inv s -> ev (scan_at n (rn s) y) (scan_at n s y).
  Proof.
    intros I. unfold scan_at. bnd ltac:(apply insert_local_minima_rn; auto). bnd ltac:(apply recalc_windcnt_rn; auto). apply update_output_bound_rn. auto.
  Qed.
  Lemma beam_rn n s y : inv s -> ev (beam n (rn s) y) (beam n s y).
  Proof. intros I. unfold beam. bnd ltac:(apply do_top_rn; auto). bnd ltac:(apply close_output_rn; auto). apply resort_ael_rn. auto. Qed.
  Lemma sweep_rn n fuel : forall s y, inv s -> ev (sweep n fuel (rn s) y) (sweep n fuel s y).
  Proof.
    induction fuel; intros s y I; cbn [sweep]; [apply eqv_fuel|]. bnd ltac:(apply scan_at_rn; auto). rewrite pop_scanline_rn.
    pose proof (pop_scanline_inv a y K) as J. destruct (pop_scanline a y) as ([z|] & s1); cbn [fst snd option_map] in *; [|fin_ok].
    bnd ltac:(apply beam_rn; auto). auto.
  Qed.

  Lemma finish_rn fuel s : inv s -> eqv (fun x => (rn (fst x), snd x)) (fun _ => True) (finish fuel (rn s)) (finish fuel s).
  Proof.
    intros I. unfold finish. bnd ltac:(apply reset_rn; auto). rewrite pop_scanline_rn. pose proof (pop_scanline_inv a (n_neg n_huge) K) as J.
    destruct (pop_scanline a (n_neg n_huge)) as ([z|] & s1); cbn [fst snd option_map] in *; [|fin_ok].
    bnd ltac:(apply sweep_rn; auto). fin_ok.
  Qed.
End Ren.
