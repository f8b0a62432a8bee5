(** Moving and scaling the lines moves and scales the half-edge structure. *)
From Coq Require Import ZArith Bool List Reals Lra Lia Permutation.
From Verif Require Import Outcome Num Rmath RTac ScanLine VState VLemmas VFresh Dcel DcelAgainSpec DcelCut LineSpec LineR StretchSpec EquiMap AffineSpec AffineBreak DcelMoveSpec.
Import ListNotations.
Local Open Scope out.

Lemma atan2_scaled k y x : (0 < k)%R -> Ratan2 (k * y) (k * x) = Ratan2 y x.
Proof.
  intros K. unfold Ratan2. rewrite scale_div by auto.
  assert (P : forall z, (0 < k * z <-> 0 < z)%R) by (intros z; split; intros H; [apply (Rmult_lt_reg_l k); lra|apply Rmult_lt_0_compat; lra]).
  assert (Q : forall z, (k * z < 0 <-> z < 0)%R).
  { intros z. specialize (P (- z)%R). replace (k * - z)%R with (- (k * z))%R in P by ring. split; intros H; [enough (0 < - z)%R by lra; apply P; lra|enough (0 < - (k * z))%R by lra; apply P; lra]. }
  pose proof (P x). pose proof (Q x). pose proof (P y). pose proof (Q y).
  destruct (Rlt_dec 0 (k * x)), (Rlt_dec 0 x); try tauto. destruct (Rlt_dec (k * x) 0), (Rlt_dec x 0); try tauto.
  - destruct (Rle_dec 0 (k * y)) as [A|A], (Rle_dec 0 y) as [B|B]; auto; exfalso; apply Rnot_le_lt in A || apply Rnot_le_lt in B; tauto || (assert (0 <= k * y)%R by (apply Rmult_le_pos; lra); lra) || (assert (k * y < 0)%R by tauto; lra).
  - destruct (Rlt_dec 0 (k * y)), (Rlt_dec 0 y); try tauto. destruct (Rlt_dec (k * y) 0), (Rlt_dec y 0); tauto.
Qed.
Lemma oset_map {A B} (g : A -> B) lt1 lt2 x l : (forall y, In y l -> lt2 (g x) (g y) = lt1 x y /\ lt2 (g y) (g x) = lt1 y x) ->
  oset_insert lt2 (g x) (map g l) = map g (oset_insert lt1 x l).
Proof.
  induction l as [|y l IH]; intros H; cbn; auto. destruct (H y) as (-> & ->); [now left|]. destruct (lt1 x y); auto. destruct (lt1 y x); auto. cbn. f_equal. apply IH. intros z Z. apply H. now right.
Qed.
Lemma oset_in_any {A} lt (x : A) l y : In y (oset_insert lt x l) -> y = x \/ In y l.
Proof. induction l as [|z l IH]; cbn; [intuition|]. destruct (lt x z); cbn; [intuition|]. destruct (lt z x); cbn; intuition. Qed.

Section Move.
  Variables k b c : R.
  Hypothesis K : (0 < k)%R.
  Notation m := (there k b c).
  Notation fp := (moved_dpoint k b c).
  Notation fh := (moved_half k b c).
  Notation dm := (moved_dcel k b c).
  Definition good (p : vec2 R) : Prop := fin p /\ fin (m p).
  Definition kept (h : half R) : Prop := Forall good (h_breaks h).
  Record inv (s : dcel R) : Prop := {
    i_points : Forall (fun p => good (p_at p)) (d_points s);
    i_halves : Forall (fun o => match o with Some h => kept h | None => True end) (d_halves s);
    i_pset : Forall (fun i => i < length (d_points s)) (d_pset s) }.
  Notation ev := (eqv dm inv).
  Implicit Types s : dcel R.
  Ltac nx := let x := fresh "x" in let I := fresh "I" in intros x I; cbv beta in I; cbv beta.
  Ltac bnd L := eapply eqv_bind; [L|nx].

  Lemma fin_pt p q t : fin p -> fin q -> (0 <= t <= 1)%R -> fin (pt p q t).
  Proof.
    intros ((A1 & A2) & A3 & A4) ((B1 & B2) & B3 & B4) T. unfold fin, pt. cbn [vx vy].
    assert (L : forall l u v, (l <= u -> l <= v -> l <= u + t * (v - u))%R) by (intros; nra).
    assert (U : forall l u v, (u <= l -> v <= l -> u + t * (v - u) <= l)%R) by (intros; nra).
    split; split; auto.
  Qed.
  Lemma good_pt p q t : good p -> good q -> (0 <= t <= 1)%R -> good (pt p q t).
  Proof. intros (A & B) (C & D) T. split; [now apply fin_pt|]. unfold there. rewrite moved_pt. now apply fin_pt. Qed.
  Lemma push_good (g : bool) n l x : Forall (fun i => good (ip i)) l -> good (ip x) -> okp (Forall (fun i => good (ip i))) (push_if g n l x).
  Proof. intros H1 H2. unfold push_if, push_res. destruct g; [|exact H1]. destruct (Nat.ltb _ _); cbn; auto. apply Forall_app. split; auto. Qed.
  Lemma okp_bind {A B} (P : A -> Prop) (Q : B -> Prop) o (f : A -> outcome B) : okp P o -> (forall a, P a -> okp Q (f a)) -> okp Q (bind o f).
  Proof. destruct o; cbn; auto. Qed.
  Lemma good_isects p0 p1 p2 p3 : good p0 -> good p1 -> good p2 -> good p3 -> okp (Forall (fun i => good (ip i))) (intersect_lines p0 p1 p2 p3).
  Proof.
    intros G0 G1 G2 G3. unfold intersect_lines. cbv zeta. destruct (_ || _).
    - destruct (n_eqb _ _); [|constructor]. eapply okp_bind; [apply push_good; auto; constructor|]. intros l1 L1.
      eapply okp_bind; [apply push_good; auto|]. intros l2 L2. eapply okp_bind; [apply push_good; auto|]. intros l3 L3. apply push_good; auto.
    - match goal with |- context [Isect (vadd p0 (vmul _ ?na)) ?na ?nb] => set (t := na); set (u := nb) end.
      destruct ((_ && _) && (_ && _)) eqn:E; [|constructor]. rops. apply andb_prop in E as (E & _). apply andb_prop in E as (E1 & E2). rbool.
      cbn. constructor; [|constructor]. cbn [ip].
      replace (vadd p0 (vmul (vsub p1 p0) t)) with (pt p0 p1 t); [now apply good_pt|]. unfold pt, vadd, vmul, vsub. cbn [vx vy]. rops. f_equal; ring.
  Qed.
  Lemma lines_m p0 p1 p2 p3 : good p0 -> good p1 -> good p2 -> good p3 ->
    eqv (map (moved_isect k b k c)) (Forall (fun i => good (ip i))) (intersect_lines (m p0) (m p1) (m p2) (m p3)) (intersect_lines p0 p1 p2 p3).
  Proof. intros G0 G1 G2 G3. split; [|now apply good_isects]. apply moved_lines; auto; apply G0 || apply G1 || apply G2 || apply G3. Qed.

  (** *** Reading and writing *)
  Lemma half_m s e : inv s -> eqv fh kept (half_at (dm s) e) (half_at s e).
  Proof.
    intros I. unfold half_at. cbn [moved_dcel d_halves]. rewrite nth_error_map. destruct (nth_error (d_halves s) e) as [[h|]|] eqn:E; cbn; [|apply eqv_ub|apply eqv_ub].
    apply eqv_ok; auto. pose proof (i_halves _ I) as H. rewrite Forall_forall in H. exact (H _ (nth_error_In _ _ E)).
  Qed.
  Lemma Forall_upd {A} (P : A -> Prop) l i f : Forall P l -> (forall x, P x -> P (f x)) -> Forall P (upd l i f).
  Proof. intros H F. revert i. induction H as [|x l X H IH]; intros [|i]; cbn; constructor; auto. Qed.
  Lemma hmod_m s e f1 f2 : (forall h, fh (f1 h) = f2 (fh h)) -> (forall h, kept h -> kept (f1 h)) -> inv s -> ev (hmod (dm s) e f2) (hmod s e f1).
  Proof.
    intros H G I. unfold hmod. bnd ltac:(apply half_m; exact I). apply eqv_ok.
    - unfold moved_dcel, wd_halves. cbn. f_equal. symmetry. apply map_upd. intros [h|]; cbn; auto. now rewrite H.
    - destruct I as [I1 I2 I3]. constructor; auto. cbn. apply Forall_upd; auto. intros [h|]; cbn; auto.
  Qed.
  Lemma point_m s i : inv s -> eqv fp (fun p => good (p_at p)) (point_at_ (dm s) i) (point_at_ s i).
  Proof.
    intros I. eapply eqv_weak; [apply (eqv_at fp)|]. intros p H. pose proof (i_points _ I) as G. rewrite Forall_forall in G. exact (G _ (nth_error_In _ _ H)).
  Qed.
  Lemma dpmod_m s i f1 f2 : (forall p, fp (f1 p) = f2 (fp p)) -> (forall p, p_at (f1 p) = p_at p) -> inv s -> ev (dpmod (dm s) i f2) (dpmod s i f1).
  Proof.
    intros H G I. unfold dpmod. bnd ltac:(apply point_m; exact I). apply eqv_ok.
    - unfold moved_dcel, wd_points. cbn. f_equal. symmetry. apply map_upd. auto.
    - destruct I as [I1 I2 I3]. constructor; auto; cbn; [|now rewrite length_upd]. apply Forall_upd; auto. intros p. now rewrite G.
  Qed.
  Lemma vec_ltb_m p q : vec_ltb (m p) (m q) = vec_ltb p q.
  Proof. unfold vec_ltb, there, moved. cbn [vx vy]. rops. now rewrite !aff_ltb, aff_eqb. Qed.
  Lemma coord_m s i : i < length (d_points s) -> coord (dm s) i = m (coord s i).
  Proof. intros H. unfold coord. cbn [moved_dcel d_points]. rewrite nth_error_map. destruct (nth_error (d_points s) i) eqn:E; auto. apply nth_error_None in E. lia. Qed.
  Lemma find_m s x l : Forall (fun i => i < length (d_points s)) l -> pset_find (dm s) (m x) l = pset_find s x l.
  Proof. induction 1 as [|i l H L IH]; cbn [pset_find]; auto. now rewrite coord_m, !vec_ltb_m, IH. Qed.
  Definition dmn (r : dcel R * nat) : dcel R * nat := (dm (fst r), snd r).
  Lemma find_add_m s x y : inv s -> good (V2 x y) ->
    find_or_add_point (dm s) (affine k b x) (affine k c y) = dmn (find_or_add_point s x y) /\ inv (fst (find_or_add_point s x y)).
  Proof.
    intros I G. unfold find_or_add_point. change (V2 (affine k b x) (affine k c y)) with (m (V2 x y)). change (d_pset (dm s)) with (d_pset s). rewrite find_m by apply I.
    destruct (pset_find s (V2 x y) (d_pset s)) as [i|]; [split; auto|]. cbv zeta.
    set (s1 := wd_points s (d_points s ++ [Point (V2 x y) []])).
    assert (S1 : wd_points (dm s) (d_points (dm s) ++ [Point (m (V2 x y)) []]) = dm s1).
    { unfold moved_dcel, s1, wd_points. cbn. now rewrite map_app. }
    assert (L0 : length (d_points (dm s)) = length (d_points s)) by apply map_length.
    assert (L1 : length (d_points s1) = S (length (d_points s))) by (cbn; rewrite app_length; cbn; lia).
    rewrite S1, L0. destruct I as [I1 I2 I3]. split.
    - unfold dmn. cbn [fst snd]. change (d_pset (dm s1)) with (d_pset s). change (d_pset s1) with (d_pset s).
      pose proof (oset_map (fun i => i) (fun a a0 => vec_ltb (coord s1 a) (coord s1 a0)) (fun a a0 => vec_ltb (coord (dm s1) a) (coord (dm s1) a0)) (length (d_points s)) (d_pset s)) as OM.
      rewrite !map_id in OM. rewrite OM; [reflexivity|]. intros i Hi. rewrite Forall_forall in I3. specialize (I3 i Hi). rewrite !coord_m, !vec_ltb_m by lia. auto.
    - cbn [fst]. constructor; cbn [wd_pset wd_points d_points d_halves d_pset]; auto.
      + apply Forall_app. split; auto.
      + change (length (d_points s ++ [Point (V2 x y) []])) with (length (d_points s1)). rewrite L1. apply Forall_forall. intros i Hi. apply oset_in_any in Hi as [->|Hi]; [lia|].
        rewrite Forall_forall in I3. specialize (I3 i Hi). lia.
  Qed.
  Lemma new_edge_m s i j : inv s -> eqv dmn (fun r => inv (fst r)) (new_line_edge (dm s) i j) (new_line_edge s i j).
  Proof.
    intros I. unfold new_line_edge. cbv zeta. cbn [moved_dcel d_halves d_edges d_type]. rewrite map_length.
    set (e := length (d_halves s)). set (s1 := wd_edges (wd_halves s (d_halves s ++ [Some (Half i j None None None None (d_type s) [])])) (d_edges s ++ [e])).
    match goal with |- context [dpmod (wd_edges (wd_halves ?x ?y) ?z) i] => replace (wd_edges (wd_halves x y) z) with (dm s1) end.
    2: { unfold moved_dcel, s1, wd_edges, wd_halves. cbn. now rewrite map_app. }
    assert (I1 : inv s1). { destruct I as [A B C]. constructor; auto. cbn. apply Forall_app. split; auto. constructor; auto. constructor. }
    bnd ltac:(apply (dpmod_m s1 i (add_edge e true) (add_edge e true)); auto). bnd ltac:(apply (dpmod_m x j (add_edge e false) (add_edge e false)); auto). apply eqv_ok; auto.
  Qed.
  Lemma add_line_m s x1 y1 x2 y2 : inv s -> good (V2 x1 y1) -> good (V2 x2 y2) ->
    ev (add_line (dm s) (affine k b x1) (affine k c y1) (affine k b x2) (affine k c y2)) (add_line s x1 y1 x2 y2).
  Proof.
    intros I G1 G2. unfold add_line. rops. rewrite !aff_eqb by auto. destruct (_ && _); [now apply eqv_ok|].
    destruct (find_add_m s x1 y1 I G1) as (E1 & I1). rewrite E1. destruct (find_or_add_point s x1 y1) as (s1 & i). cbn [dmn fst snd] in *.
    destruct (find_add_m s1 x2 y2 I1 G2) as (E2 & I2). rewrite E2. destruct (find_or_add_point s1 x2 y2) as (s2 & j). cbn [dmn fst snd] in *.
    bnd ltac:(apply new_edge_m; exact I2). destruct x as (s3 & e). cbn [dmn fst snd] in *. now apply eqv_ok.
  Qed.

  (** *** Crossings *)
  Lemma add_break_m s e p : inv s -> good p -> ev (add_break_point (dm s) e (m p)) (add_break_point s e p).
  Proof.
    intros I G. unfold add_break_point. apply hmod_m; auto.
    - intros h. unfold moved_half, set_breaks. cbn. f_equal. symmetry. apply (oset_map m). intros q _. split; apply vec_ltb_m.
    - intros h H. unfold kept in *. cbn. rewrite Forall_forall in *. intros q Hq. apply oset_in_any in Hq as [->|Hq]; auto.
  Qed.
  Lemma add_break_if_m g s e p : inv s -> good p -> ev (add_break_if g (dm s) e (m p)) (add_break_if g s e p).
  Proof. intros I G. unfold add_break_if. destruct g; [now apply add_break_m|now apply eqv_ok]. Qed.
  Lemma intersect_m s l r : inv s -> ev (half_intersect (dm s) l r) (half_intersect s l r).
  Proof.
    intros I. unfold half_intersect. bnd ltac:(apply half_m; exact I). bnd ltac:(apply half_m; exact I).
    bnd ltac:(apply point_m; exact I). bnd ltac:(apply point_m; exact I). bnd ltac:(apply point_m; exact I). bnd ltac:(apply point_m; exact I).
    bnd ltac:(apply lines_m; auto). destruct x5 as [|i [|j [|? ?]]]; cbn [map]; try (now apply eqv_ok).
    - inversion I6; subst. cbn [moved_isect ip it0 it1]. bnd ltac:(apply add_break_m; auto). apply add_break_m; auto.
    - inversion I6 as [|? ? G1 H1]; subst. inversion H1 as [|? ? G2 H2]; subst. cbn [moved_isect ip it0 it1].
      bnd ltac:(apply add_break_if_m; auto). bnd ltac:(apply add_break_if_m; auto). bnd ltac:(apply add_break_if_m; auto). apply add_break_if_m; auto.
  Qed.
  Lemma intersect_all_m ids l : forall s, inv s -> ev (intersect_all (dm s) ids l) (intersect_all s ids l).
  Proof.
    induction l as [|(i & j) l IH]; intros s I; cbn [intersect_all]; [now apply eqv_ok|].
    destruct (at_ ids i); cbn [bind]; try (split; [reflexivity|exact Logic.I]). destruct (at_ ids j); cbn [bind]; try (split; [reflexivity|exact Logic.I]).
    bnd ltac:(apply intersect_m; exact I). auto.
  Qed.
  Lemma box_m s e : inv s -> eqv (moved_rect k b k c) (fun _ => True) (half_box (dm s) e) (half_box s e).
  Proof.
    intros I. unfold half_box. bnd ltac:(apply half_m; exact I). bnd ltac:(apply point_m; exact I). bnd ltac:(apply point_m; exact I). apply eqv_ok; auto.
    cbn [moved_dpoint p_at]. apply moved_box; auto; apply I1 || apply I2.
  Qed.
  Lemma boxes_m s l : inv s -> eqv (map (moved_rect k b k c)) (fun _ => True) (half_boxes (dm s) l) (half_boxes s l).
  Proof. intros I. induction l as [|e l IH]; cbn [half_boxes]; [now apply eqv_ok|]. bnd ltac:(apply box_m; exact I). bnd ltac:(exact IH). now apply eqv_ok. Qed.
  Lemma along_m p q u v : along_ltb (m p) (m q) (m u) (m v) = along_ltb p q u v.
  Proof. unfold along_ltb, there, moved. cbn [vx vy]. rops. now rewrite !aff_leb, !aff_ltb. Qed.

  Variable en : denv.
  Hypothesis PO : forall l, Permutation (de_order en l) l.
  Lemma pieces_m bp : forall s cur e, inv s -> Forall good bp -> ev (add_pieces (dm s) cur (map m bp) e) (add_pieces s cur bp e).
  Proof.
    induction bp as [|p bp IH]; intros s cur e I G; cbn [add_pieces map].
    - bnd ltac:(apply new_edge_m; exact I). destruct x as (s1 & j). now apply eqv_ok.
    - inversion G as [|? ? G1 G2]; subst. destruct p as [px py]. destruct (find_add_m s px py I G1) as (E1 & I1). cbn [there moved vx vy]. rewrite E1.
      destruct (find_or_add_point s px py) as (s1 & i). cbn [dmn fst snd] in *. bnd ltac:(apply new_edge_m; exact I1). destruct x as (s2 & j). cbn [dmn fst snd] in *. auto.
  Qed.
  Lemma break_half_m s e : inv s -> ev (break_half (dm s) e) (break_half s e).
  Proof.
    intros I. unfold break_half. bnd ltac:(apply half_m; exact I). cbn [moved_half h_breaks h_start h_end]. destruct (h_breaks x) as [|q bs] eqn:BS; cbn [map]; [now apply eqv_ok|].
    bnd ltac:(apply point_m; exact I). bnd ltac:(apply point_m; exact I). cbn [moved_dpoint p_at].
    change (m q :: map m bs) with (map m (q :: bs)). rewrite (sort_by_map m (along_ltb (p_at x0) (p_at x1))) by (intros; apply along_m).
    eapply eqv_bind.
    { apply pieces_m; auto. unfold kept in I0. rewrite BS in I0. rewrite Forall_forall in *. intros y Hy. apply I0. eapply Permutation_in; [apply Permutation_sym, SortProofs.sort_by_perm|exact Hy]. }
    nx. change (wd_edges (dm x2) (filter (fun i => negb (Nat.eqb i e)) (d_edges (dm x2)))) with (dm (wd_edges x2 (filter (fun i => negb (Nat.eqb i e)) (d_edges x2)))).
    assert (I4 : inv (wd_edges x2 (filter (fun i => negb (Nat.eqb i e)) (d_edges x2)))) by (destruct I3 as [A B C]; constructor; auto).
    bnd ltac:(apply (dpmod_m _ _ (remove_edge e) (remove_edge e)); auto). bnd ltac:(apply (dpmod_m _ _ (remove_edge e) (remove_edge e)); auto). apply eqv_ok.
    - unfold moved_dcel, wd_halves. cbn. f_equal. symmetry. apply map_upd. auto.
    - destruct I6 as [A B C]. constructor; auto. cbn. apply Forall_upd; auto.
  Qed.
  Lemma break_halves_m l : forall s, inv s -> ev (break_halves (dm s) l) (break_halves s l).
  Proof. induction l as [|e l IH]; intros s I; cbn [break_halves]; [now apply eqv_ok|]. bnd ltac:(apply break_half_m; exact I). auto. Qed.
  Lemma process_break_m s : inv s -> ev (process_break en (dm s)) (process_break en s).
  Proof.
    intros I. unfold process_break. cbv zeta. change (d_edges (dm s)) with (d_edges s). bnd ltac:(apply boxes_m; exact I). rewrite moved_process by auto.
    bnd ltac:(apply intersect_all_m; exact I). apply break_halves_m. exact I1.
  Qed.

  (** *** Twins and faces *)
  Lemma kept_twin t h : kept h -> kept (set_twin t h). Proof. auto. Qed.
  Lemma twin_m s e : inv s -> ev (build_twin (dm s) e) (build_twin s e).
  Proof.
    intros I. unfold build_twin. bnd ltac:(apply half_m; exact I). cbn [moved_half h_start h_end]. bnd ltac:(apply new_edge_m; exact I). destruct x0 as (s1 & t). cbn [dmn fst snd] in *.
    bnd ltac:(apply (hmod_m s1 t (set_twin (Some e)) (set_twin (Some e))); auto). apply (hmod_m _ _ (set_twin (Some t)) (set_twin (Some t))); auto.
  Qed.
  Lemma twins_m l : forall s, inv s -> ev (build_twins_of (dm s) l) (build_twins_of s l).
  Proof. induction l as [|e l IH]; intros s I; cbn [build_twins_of]; [now apply eqv_ok|]. bnd ltac:(apply twin_m; exact I). auto. Qed.
  Lemma angle_m s e : inv s -> eqv (fun x => x) (fun _ => True) (sort_angle (dm s) e) (sort_angle s e).
  Proof.
    intros I. unfold sort_angle. bnd ltac:(apply half_m; exact I). bnd ltac:(apply point_m; exact I). bnd ltac:(apply point_m; exact I). apply eqv_ok; auto.
    cbv zeta. cbn [moved_dpoint p_at vsub there moved vx vy]. rops. rewrite !aff_sub, atan2_scaled by auto. reflexivity.
  Qed.
  Lemma vector_m s l : inv s -> eqv (fun x => x) (fun _ => True) (sort_vector (dm s) l) (sort_vector s l).
  Proof.
    intros I. induction l as [|(e & emit) l IH]; cbn [sort_vector]; [now apply eqv_ok|]. eapply (eqv_bind (fun x => x) (fun _ => True)).
    - destruct emit; [now apply angle_m|]. bnd ltac:(apply half_m; exact I). cbn [moved_half h_twin]. bnd ltac:(apply eqv_deref). now apply angle_m.
    - nx. bnd ltac:(exact IH). now apply eqv_ok.
  Qed.
  Lemma sort_point_m s i : inv s -> ev (sort_point en (dm s) i) (sort_point en s i).
  Proof. intros I. unfold sort_point. bnd ltac:(apply point_m; exact I). cbn [moved_dpoint p_edges]. bnd ltac:(apply vector_m; exact I). apply dpmod_m; auto. Qed.
  Lemma sort_points_m l : forall s, inv s -> ev (sort_points en (dm s) l) (sort_points en s l).
  Proof. induction l as [|e l IH]; intros s I; cbn [sort_points]; [now apply eqv_ok|]. bnd ltac:(apply sort_point_m; exact I). auto. Qed.
  Lemma free_m s l : inv s -> eqv (fun x => x) (fun _ => True) (first_free (dm s) l) (first_free s l).
  Proof.
    intros I. induction l as [|(e & emit) l IH]; cbn [first_free]; [apply eqv_fuel|]. destruct emit; auto. bnd ltac:(apply half_m; exact I). cbn [moved_half h_prev]. destruct (h_prev x); auto. now apply eqv_ok.
  Qed.
  Lemma get_next_m s p e : inv s -> eqv (fun x => x) (fun _ => True) (get_next (dm s) (fp p) e) (get_next s p e).
  Proof.
    intros I. unfold get_next. cbn [moved_dpoint p_edges]. destruct (entry_of e (p_edges p)); [|now apply eqv_ok]. bnd ltac:(apply free_m; exact I). now apply eqv_ok.
  Qed.
  Lemma walk_m fuel : forall s f e st cu, inv s -> ev (walk_face fuel (dm s) f e st cu) (walk_face fuel s f e st cu).
  Proof.
    induction fuel as [|fuel IH]; intros s f e st cu I; cbn [walk_face]; [apply eqv_fuel|]. bnd ltac:(apply half_m; exact I). cbn [moved_half h_next h_end].
    destruct (h_next x); [now apply eqv_ok|]. bnd ltac:(apply (hmod_m s cu (set_face (Some f)) (set_face (Some f))); auto). bnd ltac:(apply point_m; exact I1).
    bnd ltac:(apply get_next_m; exact I1). bnd ltac:(apply (hmod_m _ cu (set_next x2) (set_next x2)); auto). bnd ltac:(apply eqv_deref).
    bnd ltac:(apply (hmod_m _ x4 (set_prev (Some cu)) (set_prev (Some cu))); auto). bnd ltac:(apply half_m; exact I6). cbn [moved_half h_end].
    destruct (Nat.eqb (h_end x6) st); [|auto]. bnd ltac:(apply (hmod_m _ x4 (set_next (Some e)) (set_next (Some e))); auto).
    apply (hmod_m _ e (set_prev (Some x4)) (set_prev (Some x4))); auto.
  Qed.
  Lemma start_m s e : inv s -> ev (start_face (dm s) e) (start_face s e).
  Proof.
    intros I. unfold start_face. bnd ltac:(apply half_m; exact I). cbn [moved_half h_next h_start]. destruct (h_next x); [now apply eqv_ok|]. cbv zeta.
    set (s1 := wd_faces (wd_fpool s (d_fpool s ++ [e])) (d_faces (wd_fpool s (d_fpool s ++ [e])) ++ [length (d_fpool s)])).
    match goal with |- eqv _ _ (walk_face _ ?y _ _ _ _) _ => change y with (dm s1) end.
    cbn [moved_dcel d_halves d_fpool wd_faces wd_fpool]. rewrite map_length. apply (walk_m _ s1). destruct I as [A B C]. constructor; auto.
  Qed.
  Lemma link_m l : forall s, inv s -> ev (link_faces (dm s) l) (link_faces s l).
  Proof. induction l as [|e l IH]; intros s I; cbn [link_faces]; [now apply eqv_ok|]. bnd ltac:(apply start_m; exact I). auto. Qed.
  Definition dmo (r : dcel R * option nat) : dcel R * option nat := (dm (fst r), snd r).
  Lemma split_walk_m fuel : forall s st cu idx, inv s -> eqv dmo (fun r => inv (fst r)) (split_walk fuel (dm s) st cu idx) (split_walk fuel s st cu idx).
  Proof.
    induction fuel as [|fuel IH]; intros s st cu idx I; cbn [split_walk]; [apply eqv_fuel|]. bnd ltac:(apply half_m; exact I). cbn [moved_half h_next h_end].
    destruct (idx_find (h_end x) idx) as [e1|].
    - cbv zeta. bnd ltac:(apply half_m; exact I). cbn [moved_half h_next]. bnd ltac:(apply eqv_deref). bnd ltac:(apply eqv_deref).
      bnd ltac:(apply (hmod_m s e1 (set_next (Some x2)) (set_next (Some x2))); auto). bnd ltac:(apply (hmod_m _ x2 (set_prev (Some e1)) (set_prev (Some e1))); auto).
      change (wd_fpool (dm x4) (d_fpool (dm x4) ++ [x1])) with (dm (wd_fpool x4 (d_fpool x4 ++ [x1]))).
      assert (I9 : inv (wd_fpool x4 (d_fpool x4 ++ [x1]))) by (destruct I5 as [A B C]; constructor; auto).
      bnd ltac:(apply (hmod_m _ x1 (set_prev (Some cu)) (set_prev (Some cu))); auto). bnd ltac:(apply (hmod_m _ cu (set_next (Some x1)) (set_next (Some x1))); auto). now apply eqv_ok.
    - bnd ltac:(apply eqv_deref). destruct (Nat.eqb x0 st); [now apply eqv_ok|]. auto.
  Qed.
  Lemma split_m s f : inv s -> eqv dmo (fun r => inv (fst r)) (split_face (dm s) f) (split_face s f).
  Proof.
    intros I. unfold split_face. cbn [moved_dcel d_fpool d_halves]. rewrite map_length. destruct (at_ (d_fpool s) f); cbn [bind]; try (split; [reflexivity|exact Logic.I]). now apply split_walk_m.
  Qed.
  Lemma split_faces_m fuel : forall s old, inv s -> ev (split_faces fuel (dm s) old) (split_faces fuel s old).
  Proof.
    induction fuel as [|fuel IH]; intros s old I; cbn [split_faces]; [apply eqv_fuel|]. destruct old as [|f r]; [now apply eqv_ok|].
    bnd ltac:(apply split_m; exact I). destruct x as (s1 & [g|]); cbn [dmo fst snd] in *; auto.
    change (wd_faces (dm s1) (d_faces (dm s1) ++ [f])) with (dm (wd_faces s1 (d_faces s1 ++ [f]))). apply IH. destruct I0 as [A B C]. constructor; auto.
  Qed.
  Lemma build_face_m s : inv s -> ev (build_face en (dm s)) (build_face en s).
  Proof.
    intros I. unfold build_face. change (d_pset (dm s)) with (d_pset s). bnd ltac:(apply sort_points_m; exact I). change (d_edges (dm x)) with (d_edges x).
    bnd ltac:(apply link_m; exact I0). cbv zeta. cbn [moved_dcel d_halves d_faces]. rewrite map_length.
    change (wd_faces (dm x0) []) with (dm (wd_faces x0 [])). apply split_faces_m. destruct I1 as [A B C]. constructor; auto.
  Qed.
  Lemma dcel_process_m s : inv s -> ev (dcel_process en (dm s)) (dcel_process en s).
  Proof.
    intros I. unfold dcel_process. bnd ltac:(apply process_break_m; exact I). unfold build_twins. change (d_edges (dm x)) with (d_edges x). bnd ltac:(apply twins_m; exact I0). now apply build_face_m.
  Qed.
  Lemma life_m l : Forall use_fin l -> Forall use_fin (map (moved_use k b c) l) -> forall s, inv s -> ev (life en (dm s) (map (moved_use k b c) l)) (life en s l).
  Proof.
    induction l as [|u l IH]; intros F G s I; cbn [life map]; [now apply eqv_ok|]. inversion F as [|? ? F1 F2]; subst. inversion G as [|? ? G1 G2]; subst.
    eapply (eqv_bind dm inv); [|intros s1 I1; now apply IH]. destruct u as [[t|x1 y1 x2 y2]|]; cbn [moved_use use_run dcall_run use_fin] in *.
    - change (set_current_path_type (dm s) t) with (dm (set_current_path_type s t)). apply eqv_ok; auto. destruct I as [A B C]. constructor; auto.
    - destruct F1, G1. apply add_line_m; auto; split; auto.
    - now apply dcel_process_m.
  Qed.
End Move.
Lemma dcel_moved en k b c l : (forall i, Permutation (de_order en i) i) -> (0 < k)%R -> Forall use_fin l -> Forall use_fin (map (moved_use k b c) l) ->
  same_life k b c (life en dcel0 l) (life en dcel0 (map (moved_use k b c) l)).
Proof.
  intros PO K F G. destruct (life_m k b c K en PO l F G dcel0) as (E & _); [constructor; constructor|]. change (moved_dcel k b c dcel0) with (@dcel0 R) in E. rewrite E.
  destruct (life en dcel0 l); cbn; auto.
Qed.
