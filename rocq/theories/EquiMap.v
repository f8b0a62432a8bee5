(** Runs of the sweep on polygons that differ only by increasing maps of the two
    coordinates: axis-parallel ones for any such maps, others for maps that keep
    straight lines straight. *)
From Coq Require Import ZArith Bool List Lia.
From Verif Require Import Outcome Num Rmath Segment Path VState VPath VBreak VAel VOut VMain VFresh.
Import ListNotations.
Local Open Scope out.

Definition omap {A B} (f : A -> B) (o : outcome A) : outcome B := bind o (fun a => Ok (f a)).
(** [o2] is the image of [o1], and the value of [o1], if any, satisfies [P]. *)
Definition eqv {A B} (g : A -> B) (P : A -> Prop) (o2 : outcome B) (o1 : outcome A) : Prop := o2 = omap g o1 /\ okp P o1.
Lemma eqv_ok {A B} (g : A -> B) (P : A -> Prop) a b : b = g a -> P a -> eqv g P (Ok b) (Ok a).
Proof. intros -> H. split; auto. Qed.
Lemma eqv_bind {A B C D} (g : A -> B) (P : A -> Prop) (h : C -> D) (Q : C -> Prop) o2 o1 k2 k1 :
  eqv g P o2 o1 -> (forall a, P a -> eqv h Q (k2 (g a)) (k1 a)) -> eqv h Q (bind o2 k2) (bind o1 k1).
Proof. intros (-> & H) K. destruct o1; cbn in *; try (split; [reflexivity|exact I]). auto. Qed.
Lemma eqv_weak {A B} (g : A -> B) (P Q : A -> Prop) o2 o1 : eqv g P o2 o1 -> (forall a, P a -> Q a) -> eqv g Q o2 o1.
Proof. intros (E & H) K. split; auto. destruct o1; cbn in *; auto. Qed.
Lemma eqv_same {A} (P : A -> Prop) (o : outcome A) : okp P o -> eqv (fun x => x) P o o.
Proof. intros H. split; auto. destruct o; reflexivity. Qed.
Lemma eqv_ub {A B} (g : A -> B) (P : A -> Prop) w : eqv g P (UB w) (UB w).
Proof. split; [reflexivity|exact I]. Qed.
Lemma eqv_fuel {A B} (g : A -> B) (P : A -> Prop) : eqv g P NoFuel NoFuel.
Proof. split; [reflexivity|exact I]. Qed.
Lemma eqv_throw {A B} (g : A -> B) (P : A -> Prop) : eqv g P Throw Throw.
Proof. split; [reflexivity|exact I]. Qed.
Lemma eqv_at {A B} (g : A -> B) l i : eqv g (fun x => nth_error l i = Some x) (at_ (map g l) i) (at_ l i).
Proof. unfold at_. rewrite nth_error_map. destruct (nth_error l i) eqn:E; cbn; [apply eqv_ok; auto|apply eqv_ub]. Qed.
Lemma eqv_deref p : eqv (fun x => x) (fun x => p = Some x) (deref p) (deref p).
Proof. apply eqv_same. destruct p; cbn; auto. Qed.
Lemma eqv_opt {A B} (g : A -> B) w o : eqv g (fun x => o = Some x) (of_opt w (option_map g o)) (of_opt w o).
Proof. destruct o; cbn; [apply eqv_ok; auto|apply eqv_ub]. Qed.
Lemma map_upd {A B} (g : A -> B) f1 f2 : (forall x, g (f1 x) = f2 (g x)) -> forall l i, map g (upd l i f1) = upd (map g l) i f2.
Proof. intros H l. induction l; intros [|i]; cbn; auto; f_equal; auto. Qed.
Lemma insert_by_map {A B} (g : A -> B) lt1 lt2 x l : (forall y, In y l -> lt2 (g x) (g y) = lt1 x y) ->
  insert_by lt2 (g x) (map g l) = map g (insert_by lt1 x l).
Proof.
  induction l as [|y l IH]; intros H; cbn; auto. rewrite H by (left; auto). destruct (lt1 x y); auto. cbn. f_equal. apply IH. intros z Z. apply H. right; auto.
Qed.
Lemma insert_by_in {A} lt (x : A) l y : In y (insert_by lt x l) -> y = x \/ In y l.
Proof. induction l; cbn; [intuition|]. destruct (lt x a); cbn; intuition. Qed.
Lemma sort_by_map {A B} (g : A -> B) lt1 lt2 l : (forall x y, In x l -> In y l -> lt2 (g x) (g y) = lt1 x y) ->
  sort_by lt2 (map g l) = map g (sort_by lt1 l).
Proof.
  unfold sort_by. intros H. change (@nil B) with (map g []).
  assert (K : forall acc, (forall x, In x acc -> In x l) -> forall r, (forall x, In x r -> In x l) ->
    fold_left (fun acc x => insert_by lt2 x acc) (map g r) (map g acc) = map g (fold_left (fun acc x => insert_by lt1 x acc) r acc)).
  { intros acc HA r. revert acc HA. induction r as [|x r IH]; intros acc HA HR; cbn; auto.
    rewrite (insert_by_map g lt1 lt2) by (intros; apply H; auto; apply HR; left; auto). apply IH.
    - intros z Z. apply insert_by_in in Z as [->|Z]; auto. apply HR. left; auto.
    - intros z Z. apply HR. right; auto. }
  apply K; auto. intros x [].
Qed.
Lemma unique_by_map {A B} (g : A -> B) e1 e2 l : (forall x y, In x l -> In y l -> e2 (g x) (g y) = e1 x y) ->
  unique_by e2 (map g l) = map g (unique_by e1 l).
Proof.
  destruct l as [|a l]; cbn; auto. intros H. f_equal.
  assert (K : forall r p, (forall x, In x (p :: r) -> In x (a :: l)) -> unique_from e2 (g p) (map g r) = map g (unique_from e1 p r)).
  { induction r as [|x r IH]; intros p HP; cbn; auto. rewrite (H p x) by (apply HP; cbn; auto).
    destruct (e1 p x); [|cbn; f_equal]; apply IH; intros z Z; apply HP; cbn in *; tauto. }
  apply K. auto.
Qed.

(** the first x of a new edge is not used *)
Lemma skip_first {T} {N : Num T} fuel (s : clipper T) i z : i < length (edges s) ->
  (do s <- skip_horz fuel (w_edges s (upd (edges s) i (set_ex z))) i ;; do e <- at_ (edges s) i ;; emod s i (set_ex (vx (e_bot e))))
  = (do s <- skip_horz fuel s i ;; do e <- at_ (edges s) i ;; emod s i (set_ex (vx (e_bot e)))).
Proof.
  intros L. destruct (nth_error (edges s) i) as [e|] eqn:E; [|apply nth_error_None in E; lia].
  assert (E' : nth_error (upd (edges s) i (set_ex z)) i = Some (set_ex z e)) by (rewrite VLemmas.nth_upd, Nat.eqb_refl, E; reflexivity).
  assert (U : forall f, (forall e, f (set_ex z e) = f e) -> upd (upd (edges s) i (set_ex z)) i f = upd (edges s) i f).
  { intros f Hf. clear - Hf. revert i. generalize (edges s) as l. induction l; destruct i; cbn; auto; f_equal; auto. }
  assert (Y : skip_horz fuel (w_edges s (upd (edges s) i (set_ex z))) i = skip_horz fuel s i \/
    skip_horz fuel (w_edges s (upd (edges s) i (set_ex z))) i = Ok (w_edges s (upd (edges s) i (set_ex z))) /\ skip_horz fuel s i = Ok s).
  { destruct fuel; cbn [skip_horz edges w_edges]; unfold at_; rewrite E', E; cbn [of_opt bind];
      change (is_horz (set_ex z e)) with (is_horz e); (destruct (is_horz e); [|right; auto]); left; auto.
    apply (f_equal (fun o => bind o (fun s0 => do e0 <- at_ (edges s0) i ;; skip_horz fuel (push_change s0 (vx (e_bot e0))) i))).
    unfold next_edge, at_. cbn [edges w_edges verts]. rewrite E', E. cbn [of_opt bind set_ex e_vtop edge_up e_dx].
    destruct (nth_error (verts s) (e_vtop e)); cbn [of_opt bind]; auto.
    change (edge_up (set_ex z e)) with (edge_up e).
    destruct (deref (if edge_up e then v_next v else v_prev v)); cbn [of_opt bind]; auto.
    destruct (nth_error (verts s) a); cbn [of_opt bind]; auto. unfold emod, at_. cbn [edges w_edges]. rewrite E', E. cbn [of_opt bind]. unfold w_edges. cbn.
    do 2 f_equal. apply U. reflexivity. }
  destruct Y as [Y|(Y1 & Y2)]; [now rewrite Y|]. rewrite Y1, Y2. cbn [of_opt bind edges w_edges]. unfold at_. rewrite E', E. cbn [of_opt bind set_ex e_bot].
  unfold emod, at_. cbn [edges w_edges]. rewrite E', E. cbn [of_opt bind]. unfold w_edges. cbn. do 2 f_equal. apply U. reflexivity.
Qed.
(** the part of [process] after the intersections *)
Definition finish {T} {N : Num T} (fuel : nat) (s : clipper T) : outcome (clipper T * list (call (T := T))) :=
  do s <- reset s ;;
  match pop_scanline s (n_neg n_huge) with
  | (None, s) => Ok (s, [])
  | (Some y, s) => do s <- sweep fuel fuel s y ;; Ok (s, build_output s)
  end.

Section Equi.
  Context {T1 T2 : Type} {N1 : Num T1} {N2 : Num T2}.
  Variables fx fy : T1 -> T2.
  Definition fp (p : vec2 T1) : vec2 T2 := V2 (fx (vx p)) (fy (vy p)).
  Definition fseg (g : seg T1) : seg T2 :=
    match g with
    | SMove t => SMove (fp t) | SLine t => SLine (fp t) | SArc t c l => SArc (fp t) (fp c) l | SCubic a b t => SCubic (fp a) (fp b) (fp t)
    end.
  Definition fvert (v : vertex T1) : vertex T2 := Vertex (fp (v_pt v)) (option_map fseg (v_seg v)) (v_next v) (v_prev v) (v_max v) (v_min v).
  Definition fedge (e : edge T1) : edge T2 := Edge (fp (e_bot e)) (fp (e_top e)) (fx (e_x e)) (e_dx e) (e_cnt e) (e_cnt2 e)
    (e_prev e) (e_next e) (e_bound e) (e_vtop e) (e_lmin e).
  Definition fbound (b : bound T1) : bound T2 := Bound (ob_prev b) (ob_next b) (ob_owner b) (ob_edge b) (fx (ob_stop_x b)) (ob_dx b).
  Definition fpoly (o : poly T1) : poly T2 := Poly (fp (o_origin o)) (o_up_bound o) (o_down_bound o) (map fseg (o_up o)) (map fseg (o_down o)) (o_complete o).
  (** The list of breaks is not read after it is stored; it is given. *)
  Variable B : list (break_info T2).
  Definition cm (s : clipper T1) : clipper T2 := Clipper (map fvert (verts s)) (lmins s) (minima s) (cur s) (starts s) B (map fy (scans s))
    (map fedge (edges s)) (ael s) (map fbound (bounds s)) (obl s) (map fx (changes s)) (map fpoly (polys s)) (cop s) (cfill s).
  Definition fcall (c : call (T := T1)) : call (T := T2) :=
    match c with
    | MoveTo _ t => MoveTo (V2 (n_ofZ 0) (n_ofZ 0)) (fp t)
    | LineTo a b => LineTo (fp a) (fp b)
    | CubicTo a b c d => CubicTo (fp a) (fp b) (fp c) (fp d)
    end.

  (** Comparisons do not change. *)
  Record cmaps : Prop := {
    fx_lt : forall a b, n_ltb (fx a) (fx b) = n_ltb a b;
    fx_eq : forall a b, n_eqb (fx a) (fx b) = n_eqb a b;
    fy_lt : forall a b, n_ltb (fy a) (fy b) = n_ltb a b;
    fy_eq : forall a b, n_eqb (fy a) (fy b) = n_eqb a b }.
  Hypothesis F : cmaps.
  (** The segments that there are, on which the abscissa moves with the height *)
  Variable AX : vec2 T1 -> vec2 T1 -> Prop.
  (** and the heights that correspond *)
  Variable YR : T1 -> T2 -> Prop.
  Record chords : Prop := {
    yr_same : forall y, YR y (fy y);
    yr_mid : forall a b, YR ((a + b) / n_ofZ 2)%num ((fy a + fy b) / n_ofZ 2)%num;
    ch_move : forall a t y z, AX a t -> YR y z -> chord_x (fp a) (fp t) z = fx (chord_x a t y) }.
  Hypothesis CH : chords.

  (** What is needed of the state: straight segments of this kind, and edges that
      know the point of their upper vertex. *)
  Definition gplain (v : vertex T1) : Prop := match v_seg v with None => True | Some (SLine t) => AX (v_pt v) t | _ => False end.
  Definition topped (vs : list (vertex T1)) (e : edge T1) : Prop := forall v, nth_error vs (e_vtop e) = Some v -> v_pt v = e_top e.
  Definition ginv (s : clipper T1) : Prop := Forall gplain (verts s) /\ Forall (topped (verts s)) (edges s).
  Notation inv := ginv.
  Notation plain := gplain.
  Notation ev := (eqv cm inv).
  Implicit Types s : clipper T1.

  (** *** Comparisons *)
  Lemma fp_eq a b : veqb (fp a) (fp b) = veqb a b.
  Proof. unfold veqb, fp. cbn. now rewrite (fx_eq F), (fy_eq F). Qed.
  Lemma fp_neq a b : vneqb (fp a) (fp b) = vneqb a b.
  Proof. unfold vneqb. now rewrite fp_eq. Qed.
  Lemma fy_min a b : n_min (fy a) (fy b) = fy (n_min a b).
  Proof. unfold n_min. rewrite (fy_lt F). now destruct (n_ltb b a). Qed.
  Lemma fseg_target g : seg_target (fseg g) = fp (seg_target g).
  Proof. now destruct g. Qed.
  Lemma fseg_reverse g p : seg_reverse (fseg g) (fp p) = fseg (seg_reverse g p).
  Proof. now destruct g. Qed.
  Lemma tidy_changes_cm l : tidy_changes (map fx l) = map fx (tidy_changes l).
  Proof.
    unfold tidy_changes. rewrite (sort_by_map fx n_ltb n_ltb) by (intros; apply (fx_lt F)).
    apply unique_by_map. intros; apply (fx_eq F).
  Qed.

  (** *** State updates *)
  Lemma push_change_cm s x : push_change (cm s) (fx x) = cm (push_change s x).
  Proof. unfold push_change, cm. cbn. now rewrite map_app. Qed.
  Lemma insert_scanline_cm s y : insert_scanline (cm s) (fy y) = cm (insert_scanline s y).
  Proof. unfold insert_scanline, cm, w_scans. cbn. f_equal. apply insert_by_map. intros; apply (fy_lt F). Qed.
  Lemma emod_cm s i f1 f2 : (forall e, fedge (f1 e) = f2 (fedge e)) ->
    (forall e, nth_error (edges s) i = Some e -> topped (verts s) e -> topped (verts s) (f1 e)) -> inv s -> ev (emod (cm s) i f2) (emod s i f1).
  Proof.
    intros H K (I1 & I2). unfold emod. eapply eqv_bind; [apply (eqv_at fedge)|]. intros e E. cbv beta in E. apply eqv_ok.
    - unfold cm, w_edges. cbn. now rewrite (map_upd fedge f1 f2) by auto.
    - split; auto. cbn. rewrite Forall_forall in *. intros x X. apply In_nth_error in X as (j & X). rewrite VLemmas.nth_upd in X.
      destruct (Nat.eqb i j) eqn:D; [|apply I2; eapply nth_error_In; eauto]. apply Nat.eqb_eq in D. subst j.
      rewrite E in X. cbn in X. injection X as <-. apply K; auto. apply I2. eapply nth_error_In; eauto.
  Qed.
  Lemma bmod_cm s i f1 f2 : (forall b, fbound (f1 b) = f2 (fbound b)) -> inv s -> ev (bmod (cm s) i f2) (bmod s i f1).
  Proof.
    intros H I. unfold bmod. eapply eqv_bind; [apply (eqv_at fbound)|]. intros b E. apply eqv_ok; auto.
    unfold cm, w_bounds. cbn. now rewrite (map_upd fbound f1 f2) by auto.
  Qed.
  Lemma pmod_cm s i f1 f2 : (forall o, fpoly (f1 o) = f2 (fpoly o)) -> inv s -> ev (pmod (cm s) i f2) (pmod s i f1).
  Proof.
    intros H I. unfold pmod. eapply eqv_bind; [apply (eqv_at fpoly)|]. intros b E. apply eqv_ok; auto.
    unfold cm, w_polys. cbn. now rewrite (map_upd fpoly f1 f2) by auto.
  Qed.
  Lemma emod_opt_cm s p f1 f2 : (forall e, fedge (f1 e) = f2 (fedge e)) ->
    (forall e, topped (verts s) e -> topped (verts s) (f1 e)) -> inv s -> ev (emod_opt (cm s) p f2) (emod_opt s p f1).
  Proof. intros H K I. destruct p; cbn; [apply emod_cm; auto|apply eqv_ok; auto]. Qed.
  Lemma bmod_opt_cm s p f1 f2 : (forall b, fbound (f1 b) = f2 (fbound b)) -> inv s -> ev (bmod_opt (cm s) p f2) (bmod_opt s p f1).
  Proof. intros H I. destruct p; cbn; [apply bmod_cm; auto|apply eqv_ok; auto]. Qed.

  Lemma eqv_at_same {A} (l : list A) i : eqv (fun x => x) (fun x => nth_error l i = Some x) (at_ l i) (at_ l i).
  Proof. apply eqv_same. unfold at_. destruct (nth_error l i) eqn:E; cbn; auto. Qed.
  Lemma inv_edge s i e : inv s -> nth_error (edges s) i = Some e -> topped (verts s) e.
  Proof. intros (_ & H) E. rewrite Forall_forall in H. apply H. eapply nth_error_In; eauto. Qed.
  Lemma inv_vert s i v : inv s -> nth_error (verts s) i = Some v -> plain v.
  Proof. intros (H & _) E. rewrite Forall_forall in H. apply H. eapply nth_error_In; eauto. Qed.

  Ltac cmp := solve [reflexivity | apply (fx_eq F) | apply (fx_lt F) | apply (fy_eq F) | apply (fy_lt F) | apply fp_eq | apply fp_neq
    | (apply (f_equal negb); first [apply (fx_eq F) | apply (fy_eq F) | apply fp_eq])
    | (apply f_equal2; first [apply fp_eq | apply (fx_eq F) | apply (fy_eq F)])].
  Ltac rdd := first [apply (eqv_at fedge) | apply (eqv_at fvert) | apply (eqv_at fbound) | apply (eqv_at fpoly) | apply eqv_at_same | apply eqv_deref | apply (eqv_opt fseg)].
  Ltac keep := solve [intros; reflexivity | auto | (intros ? ? K; exact K) | (intros ? K; exact K)].
  Ltac wrr := first [apply emod_cm; [keep|keep|assumption] | apply bmod_cm; [keep|assumption] | apply pmod_cm; [keep|assumption]
    | apply emod_opt_cm; [keep|keep|assumption] | apply bmod_opt_cm; [keep|assumption]].
  Ltac nx := let a := fresh "a" in let K := fresh "K" in intros a K; cbv beta in K; cbv beta.
  Ltac bnd L := eapply eqv_bind; [L|nx].
  Ltac cond := match goal with |- eqv _ _ (if ?b2 then _ else _) (if ?b1 then _ else _) => replace b2 with b1 by (symmetry; cmp); let C := fresh "C" in destruct b1 eqn:C end.
  Ltac mtch := match goal with |- eqv _ _ (match ?x2 with Some _ => _ | None => _ end) (match ?x1 with Some _ => _ | None => _ end) => change x2 with x1; let C := fresh "C" in destruct x1 eqn:C end.
  Ltac fin_ok := apply eqv_ok; [reflexivity|try assumption; try exact I].
  Ltac go := repeat first [cond | mtch | wrr | (eapply eqv_bind; [first [rdd | wrr]|nx]) | fin_ok | apply eqv_fuel | apply eqv_ub | apply eqv_throw].

  (** *** Reading *)
  Lemma get_polytype_cm s e : eqv (fun x => x) (fun _ => True) (get_polytype (cm s) (fedge e)) (get_polytype s e).
  Proof. unfold get_polytype. bnd ltac:(apply eqv_at_same). fin_ok. Qed.
  Lemma is_maxima_cm s e : eqv (fun x => x) (fun _ => True) (is_maxima (cm s) (fedge e)) (is_maxima s e).
  Proof. unfold is_maxima. bnd ltac:(rdd). fin_ok. Qed.
  Definition fgs (x : option (seg T1) * vec2 T1) : option (seg T2) * vec2 T2 := (option_map fseg (fst x), fp (snd x)).
  Lemma get_seg_cm s e : inv s -> topped (verts s) e ->
    eqv fgs (fun x => match fst x with None => True | Some (SLine t) => AX (snd x) t | _ => False end) (get_seg (cm s) (fedge e)) (get_seg s e).
  Proof.
    intros I TP. unfold get_seg. bnd ltac:(rdd). cond.
    - bnd ltac:(rdd). bnd ltac:(rdd). apply eqv_ok; [reflexivity|]. cbn. apply (inv_vert s a0 a1 I K1).
    - apply eqv_ok; [reflexivity|]. cbn. rewrite <- (TP _ K). apply (inv_vert s _ a I K).
  Qed.
  Lemma edge_x_at_cm s e y z : YR y z -> inv s -> topped (verts s) e -> eqv fx (fun _ => True) (edge_x_at (cm s) (fedge e) z) (edge_x_at s e y).
  Proof.
    intros Z I TP. unfold edge_x_at. bnd ltac:(apply get_seg_cm; auto). bnd ltac:(rdd). rewrite K0 in K. destruct a0; try contradiction. cbn.
    apply eqv_ok; auto. apply (ch_move CH); auto.
  Qed.
  Lemma copy_seg_cm s e r : inv s -> topped (verts s) e -> eqv fseg (fun _ => True) (copy_seg (cm s) (fedge e) r) (copy_seg s e r).
  Proof.
    intros I TP. unfold copy_seg. bnd ltac:(apply get_seg_cm; auto). bnd ltac:(rdd). rewrite K0 in K. destruct a0; try contradiction. cbn.
    apply eqv_ok; auto. now destruct r.
  Qed.
  Lemma update_x_cm s i y : inv s -> ev (update_x (cm s) i (fy y)) (update_x s i y).
  Proof.
    intros I. unfold update_x. bnd ltac:(rdd). bnd ltac:(apply edge_x_at_cm; eauto using inv_edge; apply (yr_same CH)). wrr.
  Qed.
  Lemma next_edge_cm s i : inv s -> ev (next_edge (cm s) i) (next_edge s i).
  Proof.
    intros I. unfold next_edge. bnd ltac:(rdd). bnd ltac:(rdd). bnd ltac:(apply eqv_deref). bnd ltac:(rdd). apply emod_cm; auto.
    intros e _ _ v V. cbn in *. congruence.
  Qed.
  Lemma is_same_cm s a b : inv s -> topped (verts s) a -> topped (verts s) b ->
    eqv (fun x => x) (fun _ => True) (is_same (cm s) (fedge a) (fedge b)) (is_same s a b).
  Proof.
    intros I TA TB. unfold is_same. bnd ltac:(apply get_seg_cm; auto). bnd ltac:(apply get_seg_cm; auto). cond; [|fin_ok].
    bnd ltac:(rdd). bnd ltac:(rdd). rewrite K1 in K. rewrite K2 in K0. destruct a2; try contradiction. destruct a3; try contradiction. fin_ok.
  Qed.
  Lemma valid_order_cm s r n : inv s -> topped (verts s) r -> topped (verts s) n ->
    eqv (fun x => x) (fun _ => True) (valid_order (cm s) (fedge r) (fedge n)) (valid_order s r n).
  Proof.
    intros I TR TN. unfold valid_order. cond; [apply eqv_ok; auto; apply (fx_lt F)|]. cbv zeta. change (vy (e_top (fedge r))) with (fy (vy (e_top r))). change (vy (e_top (fedge n))) with (fy (vy (e_top n))).
    change (vy (e_bot (fedge r))) with (fy (vy (e_bot r))). change (vy (e_bot (fedge n))) with (fy (vy (e_bot n))). rewrite !fy_min.
    bnd ltac:(apply edge_x_at_cm; auto; apply (yr_mid CH)). bnd ltac:(apply edge_x_at_cm; auto; apply (yr_mid CH)). cond; [apply eqv_ok; auto; apply (fx_lt F)|].
    bnd ltac:(apply get_polytype_cm). bnd ltac:(apply get_polytype_cm). fin_ok.
  Qed.

  (** *** The active edge list *)
  Lemma find_place_cm fuel : forall s r n, inv s -> topped (verts s) n ->
    eqv (fun x => x) (fun _ => True) (find_place fuel (cm s) r (fedge n)) (find_place fuel s r n).
  Proof.
    induction fuel; intros s r n I TN; cbn [find_place]; [apply eqv_fuel|]. bnd ltac:(rdd). mtch; [|fin_ok]. bnd ltac:(rdd).
    bnd ltac:(apply valid_order_cm; eauto using inv_edge). cond; [apply IHfuel; auto|fin_ok].
  Qed.
  Lemma len_edges s : length (edges (cm s)) = length (edges s).
  Proof. apply map_length. Qed.
  Lemma len_verts s : length (verts (cm s)) = length (verts s).
  Proof. apply map_length. Qed.
  Lemma insert_after_cm s l n : inv s -> ev (insert_after (cm s) l n) (insert_after s l n).
  Proof.
    intros I. unfold insert_after. bnd ltac:(rdd). rewrite len_edges. bnd ltac:(apply find_place_cm; eauto using inv_edge). bnd ltac:(rdd). cbv zeta.
    go.
  Qed.
  Lemma insert_into_ael_cm s n : inv s -> ev (insert_into_ael (cm s) n) (insert_into_ael s n).
  Proof.
    intros I. unfold insert_into_ael. mtch.
    - bnd ltac:(rdd). bnd ltac:(rdd). bnd ltac:(apply valid_order_cm; eauto using inv_edge). cond; [apply insert_after_cm; auto|]. go.
    - go.
  Qed.
  Lemma insert_into_ael_left_cm s l n : inv s -> ev (insert_into_ael_left (cm s) l n) (insert_into_ael_left s l n).
  Proof. intros I. destruct l; cbn; [apply insert_after_cm|apply insert_into_ael_cm]; auto. Qed.
  Lemma take_from_ael_cm s i : inv s -> ev (take_from_ael (cm s) i) (take_from_ael s i).
  Proof.
    intros I. unfold take_from_ael. bnd ltac:(rdd). eapply eqv_bind; [instantiate (1 := inv); go|nx]. go.
  Qed.
  Definition fns (x : option nat * clipper T1) : option nat * clipper T2 := (fst x, cm (snd x)).
  Definition ins (x : option nat * clipper T1) : Prop := inv (snd x).
  Lemma delete_active_edge_cm s i : inv s -> eqv fns ins (delete_active_edge (cm s) i) (delete_active_edge s i).
  Proof.
    intros I. unfold delete_active_edge. bnd ltac:(rdd). bnd ltac:(wrr). eapply eqv_bind; [instantiate (1 := inv); go|nx]. go.
  Qed.

  (** *** Winding counts *)
  Lemma find_left_cm fuel : forall s pt p, eqv (fun x => x) (fun _ => True) (find_left fuel (cm s) pt p) (find_left fuel s pt p).
  Proof.
    induction fuel; intros s pt p; cbn [find_left]; (destruct p; [|fin_ok]); [apply eqv_fuel|]. bnd ltac:(rdd). bnd ltac:(apply get_polytype_cm).
    cond; [fin_ok|]. apply IHfuel.
  Qed.
  Lemma sum_other_cm fuel : forall s pt l i c, eqv (fun x => x) (fun _ => True) (sum_other fuel (cm s) pt l i c) (sum_other fuel s pt l i c).
  Proof.
    induction fuel; intros s pt l i c; cbn [sum_other]; cond; try fin_ok; [apply eqv_fuel|]. bnd ltac:(rdd). bnd ltac:(rdd). bnd ltac:(apply get_polytype_cm).
    apply IHfuel.
  Qed.
  Lemma calc_windcnt_cm s i : inv s -> ev (calc_windcnt (cm s) i) (calc_windcnt s i).
  Proof.
    intros I. unfold calc_windcnt. bnd ltac:(rdd). bnd ltac:(apply get_polytype_cm). rewrite len_edges. bnd ltac:(apply find_left_cm).
    eapply eqv_bind with (g := fun x => x) (P := fun _ => True).
    { mtch; [bnd ltac:(rdd)|]; fin_ok. }
    intros (c & c2 & from) _. bnd ltac:(apply sum_other_cm). wrr.
  Qed.
  Lemma recalc_at_cm fuel : forall s x c, inv s -> eqv fns ins (recalc_at fuel (cm s) (fx x) c) (recalc_at fuel s x c).
  Proof.
    induction fuel; intros s x c I; cbn [recalc_at]; (destruct c; [|fin_ok]); [apply eqv_fuel|]. bnd ltac:(rdd). cond; [apply IHfuel; auto|]. cond; [fin_ok|].
    eapply eqv_bind; [instantiate (1 := inv); go|nx]. bnd ltac:(wrr). bnd ltac:(apply calc_windcnt_cm; auto). bnd ltac:(rdd). apply IHfuel; auto.
  Qed.
  Lemma recalc_all_cm xs : forall s c, inv s -> ev (recalc_all (cm s) (map fx xs) c) (recalc_all s xs c).
  Proof.
    induction xs; intros s c I; cbn [recalc_all map]; [fin_ok|]. rewrite len_edges. bnd ltac:(apply recalc_at_cm; auto). destruct a0. apply IHxs. exact K.
  Qed.
  Lemma recalc_windcnt_cm s : inv s -> ev (recalc_windcnt (cm s)) (recalc_windcnt s).
  Proof.
    intros I. unfold recalc_windcnt. cbv zeta. change (changes (cm s)) with (map fx (changes s)). rewrite tidy_changes_cm.
    apply (recalc_all_cm (tidy_changes (changes s)) (w_changes s (tidy_changes (changes s)))). exact I.
  Qed.

  (** *** Local minima *)
  Lemma skip_horz_cm fuel : forall s i, inv s -> ev (skip_horz fuel (cm s) i) (skip_horz fuel s i).
  Proof.
    induction fuel; intros s i I; cbn [skip_horz]; bnd ltac:(rdd); (cond; [|fin_ok]); [apply eqv_fuel|].
    bnd ltac:(apply next_edge_cm; auto). bnd ltac:(rdd).
    change (vx (e_bot (fedge a1))) with (fx (vx (e_bot a1))). rewrite push_change_cm. apply IHfuel. exact K0.
  Qed.
  Lemma start_edge_cm s m b t d : inv s -> ev (start_edge (cm s) m (fp b) t d) (start_edge s m b t d).
  Proof.
    intros I. unfold start_edge. bnd ltac:(rdd). cbv zeta. rewrite len_edges.
    set (s1 := push_change (w_edges s (edges s ++ [Edge b (v_pt a) (n_ofZ 0) d 0 0 None None None t m])) (vx b)).
    set (s2 := push_change (w_edges (cm s) (edges (cm s) ++ [Edge (fp b) (v_pt (fvert a)) (n_ofZ 0) d 0 0 None None None t m])) (vx (fp b))).
    assert (J : inv s1).
    { destruct I as (I1 & I2). split; auto. unfold s1. cbn. apply Forall_app. split; auto. constructor; auto. intros v V. cbn in *. congruence. }
    assert (X : w_edges s2 (upd (edges s2) (length (edges s)) (set_ex (fx (n_ofZ 0)))) = cm s1).
    { unfold s1, s2, push_change, w_edges, w_changes, cm. cbn. rewrite !map_app. cbn. f_equal.
      rewrite <- (map_length fedge). clear. induction (map fedge (edges s)); cbn; f_equal; auto. }
    change (length (verts (w_edges (cm s) _))) with (length (verts (cm s))). rewrite len_verts.
    change (length (verts (w_edges s _))) with (length (verts s)).
    rewrite <- (skip_first _ s2 _ (fx (n_ofZ 0))) by (unfold s2; cbn; rewrite app_length, map_length; cbn; lia).
    rewrite X. bnd ltac:(apply skip_horz_cm; auto). bnd ltac:(rdd). wrr.
  Qed.
  Lemma insert_minimum_cm s m : inv s -> ev (insert_minimum (cm s) m) (insert_minimum s m).
  Proof.
    intros I. unfold insert_minimum. bnd ltac:(rdd). bnd ltac:(rdd). bnd ltac:(rdd). bnd ltac:(rdd). cbv zeta. rewrite len_edges.
    bnd ltac:(apply start_edge_cm; auto). rewrite len_edges. bnd ltac:(apply start_edge_cm; auto). bnd ltac:(apply insert_into_ael_cm; auto).
    bnd ltac:(rdd). bnd ltac:(apply insert_into_ael_left_cm; auto). bnd ltac:(rdd). bnd ltac:(rdd).
    apply eqv_ok.
    - change (vy (e_top (fedge ?x))) with (fy (vy (e_top x))). rewrite !insert_scanline_cm. reflexivity.
    - auto.
  Qed.
  Lemma insert_minima_cm y l : forall s, inv s -> ev (insert_minima (cm s) (fy y) l) (insert_minima s y l).
  Proof.
    induction l; intros s I; cbn [insert_minima]; [fin_ok|]. bnd ltac:(rdd). bnd ltac:(rdd). cond; [|fin_ok].
    bnd ltac:(apply (insert_minimum_cm (w_minima s (minima s) (S (cur s)))); exact I). apply IHl. auto.
  Qed.
  Lemma insert_local_minima_cm s y : inv s -> ev (insert_local_minima_to_ael (cm s) (fy y)) (insert_local_minima_to_ael s y).
  Proof. apply insert_minima_cm. Qed.

  (** *** Resorting *)
  Definition fsl (x : clipper T1 * list nat) : clipper T2 * list nat := (cm (fst x), snd x).
  Definition isl (x : clipper T1 * list nat) : Prop := inv (fst x).
  Lemma take_changed_cm fuel : forall s xs c acc, inv s -> eqv fsl isl (take_changed fuel (cm s) (map fx xs) c acc) (take_changed fuel s xs c acc).
  Proof.
    induction fuel; intros s xs c acc I; destruct xs as [|x xs]; cbn [take_changed map]; try fin_ok; (destruct c; [|fin_ok]); [apply eqv_fuel|].
    bnd ltac:(rdd). cond.
    - eapply eqv_bind; [instantiate (1 := inv); go|nx]. bnd ltac:(wrr). bnd ltac:(apply take_from_ael_cm; auto). apply (IHfuel _ (x :: xs)). auto.
    - cond; [apply IHfuel; auto|apply (IHfuel _ (x :: xs)); auto].
  Qed.
  Lemma insert_all_cm l : forall s, inv s -> ev (insert_all (cm s) l) (insert_all s l).
  Proof. induction l; intros s I; cbn [insert_all]; [fin_ok|]. bnd ltac:(apply insert_into_ael_cm; auto). auto. Qed.
  Lemma resort_ael_cm s : inv s -> ev (resort_ael (cm s)) (resort_ael s).
  Proof.
    intros I. unfold resort_ael. cbv zeta. change (changes (cm s)) with (map fx (changes s)). rewrite tidy_changes_cm.
    cbn [changes w_changes edges ael]. rewrite len_edges, map_length.
    bnd ltac:(apply (take_changed_cm _ (w_changes s (tidy_changes (changes s)))); exact I). destruct a as (a & l). apply insert_all_cm. exact K.
  Qed.

  (** *** Output *)
  Lemma is_contributing_cm s e : eqv (fun x => x) (fun _ => True) (is_contributing (cm s) (fedge e)) (is_contributing s e).
  Proof. unfold is_contributing. bnd ltac:(apply get_polytype_cm). fin_ok. Qed.
  Lemma delete_obl_bound_cm s b : inv s -> ev (delete_obl_bound (cm s) b) (delete_obl_bound s b).
  Proof. intros I. unfold delete_obl_bound. bnd ltac:(rdd). eapply eqv_bind; [instantiate (1 := inv); go|nx]. go. Qed.
  Ltac poly_eq := intros; unfold fpoly; cbn; rewrite ?map_app, ?map_rev; reflexivity.
  Lemma absorb_cm s d r up : inv s -> ev (absorb (cm s) d r up) (absorb s d r up).
  Proof.
    intros I. unfold absorb. bnd ltac:(rdd). bnd ltac:(rdd). eapply eqv_bind; [instantiate (1 := inv); destruct up|nx; go].
    - bnd ltac:(apply pmod_cm; [poly_eq|auto]). go.
    - bnd ltac:(apply pmod_cm; [poly_eq|auto]). go.
  Qed.
  Lemma join_output_cm s a b y : inv s -> ev (join_output (cm s) a b (fy y)) (join_output s a b y).
  Proof.
    intros I. unfold join_output. bnd ltac:(rdd). bnd ltac:(rdd). bnd ltac:(wrr). bnd ltac:(wrr). bnd ltac:(wrr). bnd ltac:(wrr).
    bnd ltac:(apply eqv_deref). bnd ltac:(apply eqv_deref).
    eapply eqv_bind; [instantiate (1 := inv); cond; [fin_ok|]; cond; (apply pmod_cm; [poly_eq|auto])|nx].
    eapply eqv_bind; [instantiate (1 := inv); cond; [go|]; cond; apply absorb_cm; auto|nx].
    bnd ltac:(apply delete_obl_bound_cm; auto). apply delete_obl_bound_cm; auto.
  Qed.
  Lemma new_output_cm s a b : inv s -> ev (new_output (cm s) a b) (new_output s a b).
  Proof.
    intros I. unfold new_output. bnd ltac:(rdd). bnd ltac:(rdd). cbv zeta.
    change (length (bounds (cm s))) with (length (map fbound (bounds s))). change (length (polys (cm s))) with (length (map fpoly (polys s))).
    rewrite !map_length.
    match goal with |- eqv _ _ (bind (emod ?s2 _ _) _) (bind (emod ?s1 _ _) _) => assert (X : s2 = cm s1); [|rewrite X; assert (J : inv s1) by exact I] end.
    { unfold w_bounds, cm. cbn. rewrite map_app. reflexivity. }
    clear X. bnd ltac:(wrr). bnd ltac:(wrr). change (edge_up (fedge a0)) with (edge_up a0).
    destruct (edge_up a0); (apply eqv_ok; [|auto]); unfold w_polys, cm; cbn; rewrite map_app; unfold fpoly at 2; cbn;
      change (V2 (fx (vx ?p)) (fy (vy ?p))) with (fp p); rewrite fp_neq; destruct (vneqb _ _); reflexivity.
  Qed.
  Lemma update_bound_cm s b e : inv s -> ev (update_bound (cm s) b e) (update_bound s b e).
  Proof.
    intros I. unfold update_bound. bnd ltac:(rdd). bnd ltac:(rdd).
    eapply eqv_bind; [instantiate (1 := inv); cond; [fin_ok|]; bnd ltac:(apply eqv_deref); cond; (apply pmod_cm; [poly_eq|auto])|nx]. go.
  Qed.
  Lemma collect_cm fuel : forall s c acc, inv s -> eqv (fun x => x) (fun _ => True) (collect fuel (cm s) c acc) (collect fuel s c acc).
  Proof.
    induction fuel; intros s c acc I; cbn [collect]; (destruct c; [|fin_ok]); [apply eqv_fuel|].
    bnd ltac:(rdd). bnd ltac:(apply is_contributing_cm).
    eapply eqv_bind with (g := fun x => x) (P := fun _ => True); [|nx; apply IHfuel; auto].
    destruct a0; [|fin_ok]. destruct acc; [fin_ok|]. bnd ltac:(rdd). bnd ltac:(apply is_same_cm; eauto using inv_edge). fin_ok.
  Qed.
  Lemma open_pairs_cm n : forall l s, length l <= n -> inv s -> eqv fsl isl (open_pairs (cm s) l) (open_pairs s l).
  Proof.
    induction n; intros l s L I; (destruct l as [|a [|b l]]; cbn [open_pairs]; [fin_ok|fin_ok|]); cbn in L; [lia|].
    bnd ltac:(rdd). bnd ltac:(rdd). cond.
    - bnd ltac:(apply new_output_cm; auto). apply IHn; auto. lia.
    - bnd ltac:(apply IHn; [lia|auto]). destruct a2. fin_ok.
  Qed.
  Definition fbd (b : bd (T := T1)) : bd (T := T2) := Bd (bd_what b) (fx (bd_x b)) (bd_idx b).
  Lemma sbl_edges_cm l : forall s k, eqv (map fbd) (fun _ => True) (sbl_edges (cm s) l k) (sbl_edges s l k).
  Proof. induction l; intros s k; cbn [sbl_edges]; [fin_ok|]. bnd ltac:(rdd). bnd ltac:(apply IHl). fin_ok. Qed.
  Lemma sbl_bounds_cm n : forall s c k, eqv (map fbd) (fun _ => True) (sbl_bounds n (cm s) c k) (sbl_bounds n s c k).
  Proof. induction n; intros s c k; cbn [sbl_bounds]; (destruct c; [|fin_ok]); [apply eqv_fuel|]. bnd ltac:(rdd). bnd ltac:(apply IHn). fin_ok. Qed.
  Lemma bd_ltb_cm a b : bd_ltb (fbd a) (fbd b) = bd_ltb a b.
  Proof. unfold bd_ltb. cbn. now rewrite (fx_eq F), (fx_lt F). Qed.
  Lemma find_other_cm x k l : find_other (fx x) k (map fbd l) = option_map (fun p => (fbd (fst p), map fbd (snd p))) (find_other x k l).
  Proof.
    induction l; cbn [find_other map]; auto. cbn [fbd bd_x]. rewrite (fx_eq F). change (is_edge (fbd a)) with (is_edge a).
    destruct (n_eqb (bd_x a) x); auto. destruct (Bool.eqb _ _); auto. rewrite IHl. destruct (find_other x k l) as [(o & r)|]; auto.
  Qed.
  Lemma connect_cm s a b y : inv s -> ev (connect (cm s) (fbd a) (fbd b) (fy y)) (connect s a b y).
  Proof.
    intros I. unfold connect. cbn [fbd bd_what]. destruct (bd_what a), (bd_what b);
      first [apply new_output_cm|apply join_output_cm|apply update_bound_cm]; auto.
  Qed.
  Lemma match_up_cm n : forall s y l, inv s -> ev (match_up n (cm s) (fy y) (map fbd l)) (match_up n s y l).
  Proof.
    induction n; intros s y l I; (destruct l as [|h l]; cbn [match_up map]; [fin_ok|]); [apply eqv_fuel|].
    change (bd_x (fbd h)) with (fx (bd_x h)). change (is_edge (fbd h)) with (is_edge h). rewrite find_other_cm.
    destruct (find_other _ _ l) as [(o & r)|]; cbn [option_map fst snd].
    - bnd ltac:(apply connect_cm; auto). auto.
    - destruct l; cbn [map]; [apply eqv_ub|]. bnd ltac:(apply connect_cm; auto). auto.
  Qed.
  Lemma link_obl_cm l : forall s k, inv s -> ev (link_obl (cm s) k l) (link_obl s k l).
  Proof.
    induction l; intros s k I; cbn [link_obl]; [fin_ok|]. bnd ltac:(rdd). bnd ltac:(wrr). bnd ltac:(apply eqv_deref). bnd ltac:(wrr). auto.
  Qed.
  Lemma rebuild_obl_cm l s : inv s -> ev (rebuild_obl (cm s) l) (rebuild_obl s l).
  Proof.
    intros I. destruct l; cbn [rebuild_obl]; [fin_ok|]. bnd ltac:(rdd). bnd ltac:(apply eqv_deref).
    bnd ltac:(apply (bmod_cm (w_obl s (Some a0))); [keep|exact I]). apply link_obl_cm. auto.
  Qed.
  Lemma update_output_bound_cm n s y : inv s -> ev (update_output_bound n (cm s) (fy y)) (update_output_bound n s y).
  Proof.
    intros I. unfold update_output_bound. change (changes (cm s)) with (map fx (changes s)). destruct (changes s); [fin_ok|]. cbn [map]. cbv zeta.
    change (w_changes (cm s) []) with (cm (w_changes s [])). rewrite len_edges.
    bnd ltac:(apply collect_cm; exact I). bnd ltac:(eapply open_pairs_cm; [reflexivity|exact I]). destruct a0 as (s1 & l1). cbn [fsl fst snd].
    bnd ltac:(apply sbl_edges_cm). change (obl (cm s1)) with (obl s1). rewrite map_length.
    bnd ltac:(apply sbl_bounds_cm). rewrite <- map_app, (sort_by_map fbd bd_ltb bd_ltb) by (intros; apply bd_ltb_cm). rewrite map_length.
    bnd ltac:(apply match_up_cm; exact K0). apply rebuild_obl_cm. auto.
  Qed.
  Lemma do_maxima_cm s i : inv s -> eqv fns ins (do_maxima (cm s) i) (do_maxima s i).
  Proof.
    intros I. unfold do_maxima. bnd ltac:(rdd). eapply eqv_bind; [instantiate (1 := inv); go|nx]. apply delete_active_edge_cm. auto.
  Qed.
  Lemma extend_bound_cm s i : inv s -> ev (extend_bound (cm s) i) (extend_bound s i).
  Proof.
    intros I. unfold extend_bound. bnd ltac:(rdd). mtch; [|fin_ok]. bnd ltac:(rdd). bnd ltac:(apply copy_seg_cm; eauto using inv_edge).
    bnd ltac:(apply eqv_deref). change (bound_up (fbound a0)) with (bound_up a0).
    eapply eqv_bind; [apply pmod_cm; [|eassumption]|nx; wrr]. destruct (bound_up a0); poly_eq.
  Qed.
  Lemma climb_cm n : forall s i, inv s -> eqv fns ins (climb n (cm s) i) (climb n s i).
  Proof.
    induction n; intros s i I; cbn [climb]; [apply eqv_fuel|]. bnd ltac:(rdd). cond.
    - cbv zeta. change (vx (e_top (fedge a))) with (fx (vx (e_top a))). rewrite push_change_cm. bnd ltac:(apply is_maxima_cm).
      destruct a0; [apply do_maxima_cm; exact I|]. bnd ltac:(apply next_edge_cm; exact I). auto.
    - change (vy (e_top (fedge a))) with (fy (vy (e_top a))). rewrite insert_scanline_cm. fin_ok.
  Qed.
  Lemma push_if_cm s (b : bool) x : (if b then push_change (cm s) (fx x) else cm s) = cm (if b then push_change s x else s).
  Proof. destruct b; auto. apply push_change_cm. Qed.
  Lemma top_loop_cm n : forall s y x c, inv s -> ev (top_loop n (cm s) (fy y) (fx x) c) (top_loop n s y x c).
  Proof.
    induction n; intros s y x c I; cbn [top_loop]; (destruct c; [|fin_ok]); [apply eqv_fuel|]. bnd ltac:(rdd). cond.
    - cbv zeta. change (vx (e_top (fedge a))) with (fx (vx (e_top a))). bnd ltac:(wrr). rewrite (fx_eq F), push_if_cm.
      set (s1 := if n_eqb (vx (e_top a)) x then push_change a0 x else a0). assert (J : inv s1) by (unfold s1; destruct (n_eqb _ x); exact K0).
      bnd ltac:(apply extend_bound_cm; auto). bnd ltac:(apply is_maxima_cm). destruct a2.
      + bnd ltac:(apply do_maxima_cm; auto). destruct a2 as (m & s2). apply IHn. exact K3.
      + bnd ltac:(apply next_edge_cm; auto). rewrite len_verts. bnd ltac:(apply climb_cm; auto). destruct a3 as (m & s2). apply IHn. exact K4.
    - bnd ltac:(apply update_x_cm; auto). bnd ltac:(rdd). eapply eqv_bind; [instantiate (1 := inv); go|nx]. cbv zeta.
      change (e_x (fedge a1)) with (fx (e_x a1)). rewrite (fx_eq F), push_if_cm. apply IHn. destruct (n_eqb _ x); exact K2.
  Qed.
  Lemma close_loop_cm n : forall s y c m, inv s -> ev (close_loop n (cm s) (fy y) c m) (close_loop n s y c m).
  Proof.
    induction n; intros s y c m I; cbn [close_loop]; (destruct m; [|fin_ok]); [apply eqv_fuel|]. bnd ltac:(rdd). bnd ltac:(rdd).
    eapply eqv_bind; [instantiate (1 := inv); cond; [apply join_output_cm; auto|fin_ok]|nx]. mtch; [|fin_ok]. bnd ltac:(rdd). apply IHn. auto.
  Qed.
  Lemma close_output_cm n s y : inv s -> ev (close_output n (cm s) (fy y)) (close_output n s y).
  Proof. intros I. unfold close_output. mtch; [|fin_ok]. bnd ltac:(rdd). apply close_loop_cm. auto. Qed.

  (** *** The sweep *)
  Lemma drop_eq_cm y l : drop_eq (fy y) (map fy l) = map fy (drop_eq y l).
  Proof. induction l; cbn [drop_eq map]; auto. rewrite (fy_eq F). now destruct (n_eqb a y). Qed.
  Lemma pop_scanline_cm s y : pop_scanline (cm s) (fy y) = (option_map fy (fst (pop_scanline s y)), cm (snd (pop_scanline s y))).
  Proof.
    unfold pop_scanline. change (scans (cm s)) with (map fy (scans s)). rewrite drop_eq_cm. destruct (drop_eq y (scans s)); cbn [map]; auto.
    rewrite drop_eq_cm. reflexivity.
  Qed.
  Lemma pop_scanline_inv s y : inv s -> inv (snd (pop_scanline s y)).
  Proof. unfold pop_scanline. intros I. destruct (drop_eq y (scans s)); exact I. Qed.
  Lemma min_ltb_cm s a b : min_ltb (cm s) a b = min_ltb s a b.
  Proof.
    unfold min_ltb. cbn [cm lmins verts]. destruct (nth_error (lmins s) a); auto. destruct (nth_error (lmins s) b); auto.
    rewrite !nth_error_map. destruct (nth_error (verts s) (lm_vert l)); auto. cbn [option_map]. destruct (nth_error (verts s) (lm_vert l0)); auto.
    cbn. now rewrite (fy_eq F), (fy_lt F), (fx_lt F).
  Qed.
  Lemma push_minima_cm l : forall s, inv s -> ev (push_minima (cm s) l) (push_minima s l).
  Proof.
    induction l; intros s I; cbn [push_minima]; [fin_ok|]. bnd ltac:(rdd). bnd ltac:(rdd).
    change (vy (v_pt (fvert a1))) with (fy (vy (v_pt a1))). rewrite insert_scanline_cm. apply IHl. exact I.
  Qed.
  Lemma reset_cm s : inv s -> ev (reset (cm s)) (reset s).
  Proof.
    intros I. unfold reset. cbv zeta. change (minima (cm s)) with (minima s).
    replace (sort_by (min_ltb (cm s)) (minima s)) with (sort_by (min_ltb s) (minima s)).
    - bnd ltac:(apply (push_minima_cm _ (w_minima s (sort_by (min_ltb s) (minima s)) 0)); exact I). fin_ok.
    - rewrite <- (map_id (sort_by _ _)), <- (sort_by_map (fun x => x) (min_ltb s) (min_ltb (cm s))), map_id; auto. intros. apply min_ltb_cm.
  Qed.
  Lemma scan_at_cm n s y : inv s -> ev (scan_at n (cm s) (fy y)) (scan_at n s y).
  Proof.
    intros I. unfold scan_at. bnd ltac:(apply insert_local_minima_cm; auto). bnd ltac:(apply recalc_windcnt_cm; auto). apply update_output_bound_cm. auto.
  Qed.
  (** *** The calls of the write functions *)
  Lemma write_path_cm l : forall p, write_path (fp p) (map fseg l) = (map fcall (fst (write_path p l)), fp (snd (write_path p l))).
  Proof.
    induction l; intros p; cbn [write_path map]; auto. rewrite fseg_target, IHl. destruct (write_path (seg_target a) l). cbn [fst snd map].
    f_equal. f_equal. now destruct a.
  Qed.
  Lemma write_poly_cm o : write_poly (fpoly o) = map fcall (write_poly o).
  Proof.
    unfold write_poly. cbn [fpoly o_complete o_up o_down o_origin]. destruct (o_complete o); auto.
    assert (X : (let '(c1, p) := write_path (fp (o_origin o)) (map fseg (o_up o)) in
      let '(c2, _) := write_path p (rev (map fseg (o_down o))) in MoveTo (V2 (n_ofZ 0) (n_ofZ 0)) (fp (o_origin o)) :: c1 ++ c2) =
      map fcall (let '(c1, p) := write_path (o_origin o) (o_up o) in
      let '(c2, _) := write_path p (rev (o_down o)) in MoveTo (V2 (n_ofZ 0) (n_ofZ 0)) (o_origin o) :: c1 ++ c2)).
    { rewrite <- map_rev, write_path_cm. destruct (write_path (o_origin o) (o_up o)) as (c1 & p). cbn [fst snd]. rewrite write_path_cm.
      destruct (write_path p (rev (o_down o))). cbn [fst snd map fcall]. now rewrite map_app. }
    destruct (o_up o) eqn:U; [|exact X]. destruct (o_down o) eqn:D; [reflexivity|exact X].
  Qed.
  Lemma build_output_cm s : build_output (cm s) = map fcall (build_output s).
  Proof.
    unfold build_output. cbn [cm polys]. induction (polys s); cbn; auto. now rewrite write_poly_cm, IHl, map_app.
  Qed.

End Equi.

Section Axis.
  Context {T1 T2 : Type} {N1 : Num T1} {N2 : Num T2}.
  Variables fx fy : T1 -> T2.
  (** An axis-parallel segment. *)
  Definition axis (a t : vec2 T1) : Prop := n_eqb (vx a) (vx t) = true \/ n_eqb (vy a) (vy t) = true.
  Notation fp := (fp fx fy).
  Record maps : Prop := {
    maps_c :> cmaps fx fy;
    fx_huge : fx n_huge = n_huge; fx_nhuge : fx (n_neg n_huge) = n_neg n_huge;
    fy_huge : fy n_huge = n_huge; fy_nhuge : fy (n_neg n_huge) = n_neg n_huge;
    chord1 : forall a t y, axis a t -> fx (chord_x a t y) = fx (vx a);
    chord2 : forall a t y, axis a t -> chord_x (fp a) (fp t) y = fx (vx a) }.
  Variable B : list (break_info T2).
  Hypothesis F : maps.
  Notation cm := (cm fx fy B).
  Definition plain (v : vertex T1) : Prop := match v_seg v with None => True | Some (SLine t) => axis (v_pt v) t | _ => False end.
  Definition inv (s : clipper T1) : Prop := Forall plain (verts s) /\ Forall (topped (verts s)) (edges s).
  Notation ev := (eqv cm inv).
  Implicit Types s : clipper T1.
  Lemma axis_chords : chords fx fy axis (fun _ _ => True).
  Proof. constructor; auto. intros a t y z H _. now rewrite (chord2 F), (chord1 F). Qed.
  Ltac nx := let a := fresh "a" in let K := fresh "K" in intros a K; cbv beta in K; cbv beta.
  Ltac bnd L := eapply eqv_bind; [L|nx].
  Ltac fin_ok := apply eqv_ok; [reflexivity|try assumption; try exact I].

  Lemma do_top_cm s y : inv s -> ev (do_top_of_scanbeam (cm s) (fy y)) (do_top_of_scanbeam s y).
  Proof.
    intros I. unfold do_top_of_scanbeam. cbv zeta. change (w_changes (cm s) []) with (cm (w_changes s [])). rewrite len_edges, <- (fx_nhuge F).
    apply (top_loop_cm fx fy B F axis _ axis_chords). exact I.
  Qed.
  Lemma beam_cm n s y : inv s -> ev (beam n (cm s) (fy y)) (beam n s y).
  Proof. intros I. unfold beam. bnd ltac:(apply do_top_cm; auto). bnd ltac:(apply (close_output_cm fx fy B F axis); exact K). apply (resort_ael_cm fx fy B F axis _ axis_chords). exact K0. Qed.
  Lemma sweep_cm n fuel : forall s y, inv s -> ev (sweep n fuel (cm s) (fy y)) (sweep n fuel s y).
  Proof.
    induction fuel; intros s y I; cbn [sweep]; [apply eqv_fuel|]. bnd ltac:(apply (scan_at_cm fx fy B F axis _ axis_chords); exact I). rewrite pop_scanline_cm by apply F.
    pose proof (pop_scanline_inv axis a y K) as J. destruct (pop_scanline a y) as ([z|] & s1); cbn [fst snd option_map] in *; [|fin_ok].
    bnd ltac:(apply beam_cm; exact J). auto.
  Qed.
  Lemma finish_cm fuel s : inv s -> eqv (fun x => (cm (fst x), map (fcall fx fy) (snd x))) (fun _ => True) (finish fuel (cm s)) (finish fuel s).
  Proof.
    intros I. unfold finish. bnd ltac:(apply (reset_cm fx fy B F axis); exact I). rewrite <- (fy_nhuge F), pop_scanline_cm by apply F. pose proof (pop_scanline_inv axis a (n_neg n_huge) K) as J.
    destruct (pop_scanline a (n_neg n_huge)) as ([z|] & s1); cbn [fst snd option_map] in *; [|fin_ok].
    bnd ltac:(apply sweep_cm; exact J). apply eqv_ok; auto. cbn [fst snd]. now rewrite build_output_cm.
  Qed.
End Axis.
