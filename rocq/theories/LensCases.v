(** A polygon for the examples, and the statements about one contour. *)
From Coq Require Import ZArith Bool List Lia Reals Lra Sorted Permutation.
From Verif Require Import Outcome Num Rmath Segment Path PathSpec RTac VState VPath VBreak VAel VOut VMain RingSpec BreakSpec LineSpec BoxSpec ClipSpec ClipCases
  BoxCases LensSpec LensRun LensRegion.
Import ListNotations.

Lemma lines_connected l : forall p : vec2 R, connected p (lines_to p l).
Proof. induction l as [|q l IH]; intros p; cbn; auto. Qed.
Lemma lines_end l : forall (p q : vec2 R) d, call_to (last (lines_to p (l ++ [q])) d) = q.
Proof.
  induction l as [|a l IH]; intros p q d; [reflexivity|]. cbn [app lines_to]. specialize (IH a q d).
  destruct (lines_to a (l ++ [q])) as [|c cs] eqn:E; [destruct l; discriminate|]. exact IH.
Qed.
Lemma traced_contour p l : contour (traced (p :: l)) /\ closed (traced (p :: l)).
Proof.
  unfold traced, contour, closed. assert (NE : lines_to p (l ++ [p]) <> []) by (destruct l; discriminate).
  repeat split; auto using lines_connected, lines_end.
Qed.
Lemma kept_region op fill k : kept op fill k = bool_op op (inside_of fill k subject) (inside_of fill k clip).
Proof. now destruct op, fill, k. Qed.

Lemma monotone_run en bot top right left (o : outline (T := R)) k op fill fuel :
  (forall l, Permutation (en_order en l) l) -> lens bot top right left -> draws o (around bot top right left) -> length (around bot top right left) <= fuel ->
  exists s s' l cs, add_all clipper0 [(k, [[o]])] = Ok s /\ process en fuel s op fill = Ok (s', l) /\
    l = (if kept op fill k then traced (around bot top right left) else []) /\ contours l cs /\ Forall closed cs /\
    forall p, (between bot top right left p -> inside p l = bool_op op (inside_of fill k subject) (inside_of fill k clip)) /\
      (~ between bot top right left p -> inside p l = false).
Proof.
  intros PO LN DR FU. destruct (lens_run en _ _ _ _ o k op fill fuel LN DR PO FU) as (s & s' & A & P).
  exists s, s', (if kept op fill k then traced (around bot top right left) else []), (if kept op fill k then [traced (around bot top right left)] else []).
  split; [exact A|]. split; [exact P|]. split; [reflexivity|]. rewrite <- kept_region. destruct (traced_contour bot (right ++ top :: rev left)) as [C1 C2].
  change (bot :: right ++ top :: rev left) with (around bot top right left) in C1, C2.
  destruct (kept op fill k).
  - split; [split; [cbn; now rewrite app_nil_r|constructor; auto]|]. split; [constructor; auto|]. intros p. split; intros H; [now apply lens_inside|].
    apply not_true_is_false. intros K. apply H. now apply lens_inside in K.
  - split; [split; constructor|]. split; [constructor|]. intros p. split; reflexivity.
Qed.
Lemma monotone_ends en bot top right left (o : outline (T := R)) k op fill fuel :
  (forall l, Permutation (en_order en l) l) -> lens bot top right left -> draws o (around bot top right left) -> length (around bot top right left) <= fuel ->
  exists s r, add_all clipper0 [(k, [[o]])] = Ok s /\ process en fuel s op fill = Ok r.
Proof. intros PO LN DR FU. destruct (lens_run en _ _ _ _ o k op fill fuel LN DR PO FU) as (s & s' & A & P). eauto. Qed.

(** A hexagon that is not convex *)
Definition zbot := V2 (IZR 0) (IZR 0).
Definition ztop := V2 (IZR 1) (IZR 6).
Definition zright := [V2 (IZR 5) (IZR 1); V2 (IZR 2) (IZR 3); V2 (IZR 7) (IZR 5)].
Definition zleft := [V2 (IZR (-3)) (IZR 4)].
(** Drawn from its vertex (2, 3) *)
Definition zdrawn : outline (T := R) := (V2 (IZR 2) (IZR 3), map PLine [V2 (IZR 7) (IZR 5); ztop; V2 (IZR (-3)) (IZR 4); zbot; V2 (IZR 5) (IZR 1)]).
Lemma side_cases (l : list (vec2 R)) y x : crossed_at l y x ->
  exists a b t, In (a, b) (combine l (tl l)) /\ (0 <= t <= 1)%R /\ x = (vx a + t * (vx b - vx a))%R /\ y = (vy a + t * (vy b - vy a))%R.
Proof.
  intros (p & a & b & q & t & -> & T & P). exists a, b, t. injection P as P1 P2. repeat split; auto; try apply T.
  clear. induction p as [|c p IH]; [now left|]. cbn [app tl combine]. destruct p as [|d p]; [right; now left|]. right. exact IH.
Qed.
Lemma z_lens : lens zbot ztop zright zleft.
Proof.
  constructor.
  - unfold strictly_up. repeat (constructor; cbn; try lra).
  - unfold strictly_up. repeat (constructor; cbn; try lra).
  - intros y x x' H C1 C2. apply side_cases in C1 as (a & b & t & I1 & T1 & X1 & Y1). apply side_cases in C2 as (a' & b' & t' & I2 & T2 & X2 & Y2).
    cbn in I1, I2. cbn [zbot ztop vy] in H.
    destruct I1 as [I1|[I1|[]]]; injection I1 as <- <-; destruct I2 as [I2|[I2|[I2|[I2|[]]]]]; injection I2 as <- <-; cbn [vx vy zbot ztop] in *; lra.
  - repeat (constructor; [split; apply moderate_Z; vm_compute; discriminate|]). constructor.
Qed.
Lemma z_draws : draws zdrawn (around zbot ztop zright zleft).
Proof. exists [V2 (IZR 2) (IZR 3); V2 (IZR 7) (IZR 5); ztop; V2 (IZR (-3)) (IZR 4)], [zbot; V2 (IZR 5) (IZR 1)]. repeat split. Qed.
Lemma z_point : between zbot ztop zright zleft (V2 (IZR 1) (IZR 3)).
Proof.
  split; [cbn; lra|]. exists (- (9 / 4))%R, 2%R. split; [|split].
  - exists [], zbot, (V2 (IZR (-3)) (IZR 4)), [ztop], (3 / 4)%R. split; [reflexivity|]. split; [lra|]. unfold pt. cbn. f_equal; lra.
  - exists [zbot], (V2 (IZR 5) (IZR 1)), (V2 (IZR 2) (IZR 3)), [V2 (IZR 7) (IZR 5); ztop], 1%R. split; [reflexivity|]. split; [lra|]. unfold pt. cbn. f_equal; lra.
  - cbn. lra.
Qed.
