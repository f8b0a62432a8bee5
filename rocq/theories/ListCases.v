(** The drawings of the examples on the listing of contours. *)
From Coq Require Import ZArith Bool List Reals Lra Lia Permutation Floats.SpecFloat.
From Verif Require Import Outcome Num Rmath Order Segment Path PathSpec RTac VState VPath VBreak VAel VOut VMain VLemmas SortProofs RingSpec BreakSpec BreakDrawn LineSpec
  ClipSpec ClipCases RunCases BoxSpec BoxProofs BoxCases PieceCases LayoutSpec LayoutCases ListSpec.
Import ListNotations.
Local Open Scope out.

(** Polygons with integer corners *)
Definition zrings := list (path_type * list (Z * Z)).
Section Rings.
  Context {T : Type}.
  Variable f : Z -> T.
  Definition zpt (q : Z * Z) : vec2 T := V2 (f (fst q)) (f (snd q)).
  Definition ring (l : list (Z * Z)) : outline (T := T) :=
    match l with
    | [] => (zpt (0, 0)%Z, [])
    | p :: t => (zpt p, map (fun q => PLine (zpt q)) t)
    end.
  Definition rings (zs : zrings) : list (path_type * list (list (outline (T := T)))) := map (fun x => (fst x, [[ring (snd x)]])) zs.
  Definition zlist (zs : zrings) : list (path_type * list (vec2 T)) := map (fun x => (fst x, map zpt (snd x))) zs.
  Lemma rings_listed (zs : zrings) : Forall (fun x => snd x <> []) zs -> listing (rings zs) = zlist zs.
  Proof.
    induction 1 as [|[k l] zs H _ IH]; [reflexivity|]. unfold listing, rings, zlist in *. cbn [map flat_map fst snd concat app]. rewrite IH. cbn in H. destruct l as [|p l]; [congruence|].
    cbn [ring fst snd map app]. rewrite map_map. reflexivity.
  Qed.
End Rings.

(** ** Over the integers *)
Definition zsides (l : list (Z * Z)) : list ((Z * Z) * (Z * Z)) := match l with [] => [] | p :: r => combine l (r ++ [p]) end.
Definition zcross (a b c d : Z * Z) : Z := ((fst b - fst a) * (snd d - snd c) - (snd b - snd a) * (fst d - fst c))%Z.
Definition zclear (x y : (Z * Z) * (Z * Z)) : bool :=
  let '(a, b) := x in let '(c, d) := y in
  (Z.eqb (fst a) (fst c) && Z.eqb (snd a) (snd c)) || negb (Z.eqb (zcross a b c d) 0) || (negb (Z.eqb (zcross a b a c) 0)).
Definition zclears (zs : zrings) : bool := let e := flat_map (fun x => zsides (snd x)) zs in forallb (fun x => forallb (zclear x) e) e.
Fixpoint zdistinct (l : list (Z * Z)) : bool :=
  match l with
  | [] => true
  | p :: t => negb (existsb (fun q => Z.eqb (fst p) (fst q) && Z.eqb (snd p) (snd q)) t) && zdistinct t
  end.
Lemma zpt_inj (a b : Z * Z) : zpt IZR a = zpt IZR b -> a = b.
Proof. destruct a, b. unfold zpt. cbn. intros E. injection E as A B. apply eq_IZR in A, B. now subst. Qed.
Lemma zdistinct_ok l : zdistinct l = true -> NoDup l.
Proof.
  induction l as [|p l IH]; cbn; intros H; constructor; apply andb_true_iff in H as (H & K); auto.
  intros I. apply negb_true_iff in H. assert (E : existsb (fun q => Z.eqb (fst p) (fst q) && Z.eqb (snd p) (snd q)) l = true); [|congruence].
  apply existsb_exists. exists p. rewrite !Z.eqb_refl. auto.
Qed.
Lemma zlist_corners {T} (f : Z -> T) (zs : zrings) : flat_map snd (zlist f zs) = map (zpt f) (flat_map snd zs).
Proof. induction zs as [|x zs IH]; [reflexivity|]. cbn [zlist map flat_map snd]. rewrite map_app. f_equal. exact IH. Qed.
Lemma zdistinct_R zs : zdistinct (flat_map snd zs) = true -> distinct_corners (zlist IZR zs).
Proof.
  intros H. unfold distinct_corners. rewrite zlist_corners. apply FinFun.Injective_map_NoDup; [intros a b; apply zpt_inj|]. now apply zdistinct_ok.
Qed.
Lemma map_combine {A B} (f : A -> B) : forall l l', combine (map f l) (map f l') = map (fun x => (f (fst x), f (snd x))) (combine l l').
Proof. induction l as [|x l IH]; intros [|y l']; cbn; auto. now rewrite IH. Qed.
Lemma zsides_map {T} (f : Z -> T) l : sides (map (zpt f) l) = map (fun x => (zpt f (fst x), zpt f (snd x))) (zsides l).
Proof. destruct l as [|p l]; [reflexivity|]. cbn [sides zsides map]. rewrite <- map_combine. cbn [map]. rewrite map_app. reflexivity. Qed.
Lemma zsides_all {T} (f : Z -> T) zs : all_sides (zlist f zs) = map (fun x => (zpt f (fst x), zpt f (snd x))) (flat_map (fun x => zsides (snd x)) zs).
Proof. induction zs as [|x zs IH]; [reflexivity|]. unfold all_sides in *. cbn [zlist map flat_map snd]. rewrite map_app, zsides_map. f_equal. exact IH. Qed.
Lemma zclears_R zs : zclears zs = true -> no_overlap (zlist IZR zs).
Proof.
  intros Z a b c d t u A C NE PA _ _ E. exfalso. rewrite zsides_all in A, C. apply in_map_iff in A as ([a' b'] & EA & A). apply in_map_iff in C as ([c' d'] & EC & C).
  unfold zclears in Z. rewrite forallb_forall in Z. specialize (Z _ A). rewrite forallb_forall in Z. specialize (Z _ C). cbn [fst snd] in EA, EC.
  injection EA as <- <-. injection EC as <- <-. destruct a' as [ax ay], b' as [bx by_], c' as [cx cy], d' as [dx dy]. unfold zclear, zcross, zpt, parallel, pt in *. cbn [fst snd vx vy] in *.
  apply orb_true_iff in Z as [Z|Z]; [apply orb_true_iff in Z as [Z|Z]|].
  - apply andb_true_iff in Z as (X & Y). apply Z.eqb_eq in X, Y. subst. now apply NE.
  - apply negb_true_iff, Z.eqb_neq in Z. apply Z. apply eq_IZR. rewrite minus_IZR, !mult_IZR, !minus_IZR. lra.
  - apply negb_true_iff, Z.eqb_neq in Z. apply Z. apply eq_IZR. rewrite minus_IZR, !mult_IZR, !minus_IZR. injection E as EX EY.
    replace (IZR cx - IZR ax)%R with (t * (IZR bx - IZR ax) - u * (IZR dx - IZR cx))%R by lra.
    replace (IZR cy - IZR ay)%R with (t * (IZR by_ - IZR ay) - u * (IZR dy - IZR cy))%R by lra.
    replace ((IZR bx - IZR ax) * (t * (IZR by_ - IZR ay) - u * (IZR dy - IZR cy)) - (IZR by_ - IZR ay) * (t * (IZR bx - IZR ax) - u * (IZR dx - IZR cx)))%R
      with (- u * ((IZR bx - IZR ax) * (IZR dy - IZR cy) - (IZR by_ - IZR ay) * (IZR dx - IZR cx)))%R by lra. rewrite PA. lra.
Qed.

Lemma restarted_refl {T} (l : list (vec2 T)) : restarted l l.
Proof. exists l, []. rewrite app_nil_r. auto. Qed.
Lemma same_rev {T} (f : Z -> T) (zs : zrings) : same_contours (zlist f zs) (zlist f (rev zs)).
Proof.
  exists (zlist f (rev zs)). split; [apply Permutation_map, Permutation_rev|]. induction (zlist f (rev zs)); constructor; auto using restarted_refl.
Qed.
(** Every contour begins one corner later. *)
Definition later (zs : zrings) : zrings := map (fun x => (fst x, skipn 1 (snd x) ++ firstn 1 (snd x))) zs.
Lemma same_later {T} (f : Z -> T) (zs : zrings) : same_contours (zlist f zs) (zlist f (later zs)).
Proof.
  exists (zlist f zs). split; [reflexivity|]. induction zs as [|[k l] zs IH]; [constructor|]. cbn [later zlist map]. constructor; [|exact IH]. cbn [fst snd]. split; [reflexivity|].
  exists (map (zpt f) (firstn 1 l)), (map (zpt f) (skipn 1 l)). rewrite <- !map_app, firstn_skipn. auto.
Qed.

(** ** Two squares over the reals, listed in two ways *)
Definition ps_relisted := box_paths false 1 2 sqA sqB.
Definition z_squares : zrings := [(subject, [(0, 0); (10, 0); (10, 10); (0, 10)]%Z); (clip, [(5, 5); (15, 5); (15, 15); (5, 15)]%Z)].
Lemma squares_listed : listing ps_squares = zlist IZR z_squares.
Proof. reflexivity. Qed.
Lemma squares_relisted : same_contours (listing ps_squares) (listing ps_relisted).
Proof.
  exists (rev (listing ps_squares)). split; [apply Permutation_rev|]. cbn. constructor; [|constructor; [|constructor]]; (split; [reflexivity|]).
  - exists [zpt IZR (5, 5)%Z; zpt IZR (15, 5)%Z], [zpt IZR (15, 15)%Z; zpt IZR (5, 15)%Z]. split; reflexivity.
  - exists [zpt IZR (0, 0)%Z], [zpt IZR (10, 0)%Z; zpt IZR (10, 10)%Z; zpt IZR (0, 10)%Z]. split; reflexivity.
Qed.
Lemma relisted_case : Forall polygon (all_outlines ps_squares) /\ Forall polygon (all_outlines ps_relisted) /\
  same_contours (listing ps_squares) (listing ps_relisted) /\ listing ps_squares <> listing ps_relisted /\
  distinct_corners (listing ps_squares) /\ no_overlap (listing ps_squares) /\
  exists s s' t l, add_all clipper0 ps_squares = Ok s /\ add_all clipper0 ps_relisted = Ok s' /\ process env0 60 s op_union non_zero = Ok (t, l) /\
    (forall p, moderate (vx p) -> moderate (vy p) -> inside p l = in_box p sqA || in_box p sqB)%bool.
Proof.
  split; [apply box_polygons; apply general_squares|]. split; [apply box_polygons; apply general_squares|]. split; [exact squares_relisted|].
  split; [cbn; discriminate|]. rewrite squares_listed. split; [apply zdistinct_R; reflexivity|]. split; [apply zclears_R; reflexivity|].
  destruct squares_case as (_ & s & t & l & A & P & H).
  destruct (boxes_right env0 60 sqA sqB false 1 2 op_union non_zero) as (s' & _ & _ & _ & A' & _);
    try apply env0_lawful; [exact general_squares|lia|apply squares_right|].
  exists s, s', t, l. csplit; auto.
Qed.

(** ** Doubles *)
Section Doubles.
  Variable lm : libm.
  Let N := B64 lm.
  Existing Instance N.
  Definition loaded64 (zs : zrings) := get clipper0 (add_all clipper0 (rings SFofZ zs)).
  Definition run64 (zs : zrings) op := get (clipper0, []) (process env0 200 (loaded64 zs) op non_zero).

  (** Two polygons, one before the other or the other way round *)
  Definition z_order : zrings := [(subject, [(1, -4); (7, -10); (-6, -2); (-2, 4)]%Z); (clip, [(4, 1); (-6, 6); (-8, -4)]%Z)].
  Definition two_runs (zs zs' : zrings) op (n n' : nat) : Prop :=
    same_contours (listing (rings SFofZ zs)) (listing (rings SFofZ zs')) /\
    exists s s' t t' l l', add_all clipper0 (rings SFofZ zs) = Ok s /\ add_all clipper0 (rings SFofZ zs') = Ok s' /\
      process env0 200 s op non_zero = Ok (t, l) /\ process env0 200 s' op non_zero = Ok (t', l') /\ length l = n /\ length l' = n' /\ l <> l'.
  Ltac runs zs zs' op := split; [rewrite !rings_listed by (repeat constructor; discriminate); first [apply same_rev | apply same_later]|]; exists (loaded64 zs), (loaded64 zs'), (fst (run64 zs op)), (fst (run64 zs' op)), (snd (run64 zs op)), (snd (run64 zs' op));
    split; [vm_compute; reflexivity|]; split; [vm_compute; reflexivity|]; split; [vm_compute; reflexivity|]; split; [vm_compute; reflexivity|];
    split; [vm_compute; reflexivity|]; split; [vm_compute; reflexivity|]; vm_compute; discriminate.
  Lemma order_case : distinct_corners (listing (rings IZR z_order)) /\ no_overlap (listing (rings IZR z_order)) /\ two_runs z_order (rev z_order) op_xor 16 14.
  Proof.
    rewrite rings_listed by (repeat constructor; discriminate). split; [apply zdistinct_R; reflexivity|]. split; [apply zclears_R; reflexivity|].
    runs z_order (rev z_order) op_xor.
  Qed.

  (** Two polygons that begin one corner later *)
  Definition z_start : zrings := [(subject, [(-6, 7); (-4, -10); (-3, -10); (-6, 4)]%Z); (clip, [(2, 6); (0, -8); (7, 0); (-9, 9)]%Z)].
  Lemma start_case : distinct_corners (listing (rings IZR z_start)) /\ no_overlap (listing (rings IZR z_start)) /\ two_runs z_start (later z_start) op_difference 8 8.
  Proof.
    rewrite rings_listed by (repeat constructor; discriminate). split; [apply zdistinct_R; reflexivity|]. split; [apply zclears_R; reflexivity|].
    runs z_start (later z_start) op_difference.
  Qed.

  (** Two polygons with the same lowest corner *)
  Definition z_shared : zrings := [(subject, [(2, -2); (1, -1); (2, -1)]%Z); (clip, [(0, 2); (-2, 2); (0, -1); (2, -2)]%Z)].
  Lemma shared_case : no_overlap (listing (rings IZR z_shared)) /\ two_runs z_shared (rev z_shared) op_intersection 4 0.
  Proof.
    rewrite rings_listed by (repeat constructor; discriminate). split; [apply zclears_R; reflexivity|]. runs z_shared (rev z_shared) op_intersection.
  Qed.
  (** A triangle without area *)
  Definition z_flat : zrings := [(subject, [(0, 0); (-2, -1); (2, 1)]%Z); (clip, [(-2, 1); (1, 1); (-1, -1)]%Z)].
  Lemma flat_case : distinct_corners (listing (rings IZR z_flat)) /\ two_runs z_flat (rev z_flat) op_intersection 4 0.
  Proof.
    rewrite rings_listed by (repeat constructor; discriminate). split; [apply zdistinct_R; reflexivity|]. runs z_flat (rev z_flat) op_intersection.
  Qed.
End Doubles.
