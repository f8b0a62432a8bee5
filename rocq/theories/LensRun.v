(** A single contour with one minimum and one maximum: what process returns. *)
From Coq Require Import ZArith Bool List Lia Reals Lra Sorted Permutation.
From Verif Require Import Outcome Num Order Rmath Segment Path PathSpec RTac VState VPath VBreak VLemmas AelSpec VAel VOut VMain VAelRun VPairs
  RingSpec MarkProofs MarkSpec BreakSpec VRing VBuild VAdd VBroken TraceR LineSpec LineR RingStatements BreakStatements BreakDrawn BreakLines
  ClimbRing ClimbPoly BoxSpec EquiMap LensSpec Lens LensBottom LensLoad LensR.
Import ListNotations.
Local Open Scope out.

Section Two.
  Variable vs : list (vertex R).
  Variables b t : nat.
  Variables rs ls : list nat.
  Variables bot top : vec2 R.
  Variables right left : list (vec2 R).
  Hypothesis LN : lens bot top right left.
  Hypothesis CR : climb vs true b (rs ++ [t]) bot (right ++ [top]).
  Hypothesis CL : climb vs false b (ls ++ [t]) bot (left ++ [top]).
  Notation Y := (height vs).
  Notation chain := (fun fwd : bool => b :: (if fwd then rs else ls) ++ [t]).
  Notation points := (fun fwd : bool => bot :: (if fwd then right else left) ++ [top]).
  Lemma chain_climb fwd : climb vs fwd b ((if fwd then rs else ls) ++ [t]) bot ((if fwd then right else left) ++ [top]).
  Proof. destruct fwd; [exact CR|exact CL]. Qed.
  Lemma chain_sorted fwd : StronglySorted (fun a c => Y a < Y c)%R (chain fwd).
  Proof. exact (climb_sorted _ _ _ _ _ _ (chain_climb fwd)). Qed.
  Lemma chain_beside fwd i j : next_in (chain fwd) i j -> exists p q, uplink vs fwd i j p q /\ beside (points fwd) p q.
  Proof. exact (climb_beside _ _ _ _ _ _ _ _ (chain_climb fwd)). Qed.
  Lemma chain_low fwd i : In i (chain fwd) -> (Y b <= Y i)%R.
  Proof. intros [<-|H]; [lra|]. pose proof (chain_sorted fwd) as S. inversion S as [|? ? _ F]; subst. rewrite Forall_forall in F. left. now apply F. Qed.
  Lemma chain_high fwd i : In i (chain fwd) -> i <> t -> (Y i < Y t)%R.
  Proof.
    intros H NE. apply (sorted_app (fun a c => Y a < Y c)%R (b :: (if fwd then rs else ls)) [t]); [exact (chain_sorted fwd)| |now left].
    destruct H as [<-|H]; [now left|]. apply in_app_or in H as [H|[->|[]]]; [now right|contradiction].
  Qed.
  Lemma next_in_in (l : list nat) i j : next_in l i j -> In i l /\ In j l.
  Proof. intros (p & q & ->). split; apply in_or_app; right; [now left|right; now left]. Qed.
  Lemma chain_top fwd i : In i (chain fwd) -> (Y i <= Y t)%R.
  Proof. intros H. destruct (Nat.eq_dec i t) as [->|NE]; [lra|]. left. now apply (chain_high fwd). Qed.
  Lemma head_next fwd : exists j, next_in (chain fwd) b j.
  Proof. cbv beta. destruct (if fwd then rs else ls) as [|j l]; [exists t, [], []|exists j, [], (l ++ [t])]; reflexivity. Qed.
  Lemma place_b : placed vs b bot.
  Proof. destruct (head_next true) as (j & J). pose proof CR as C. destruct (rs ++ [t]) eqn:E; [destruct rs; discriminate|]. destruct (right ++ [top]); [contradiction|]. apply C. Qed.
  Lemma next_after l c (i : nat) : In i (c :: l) -> exists j, next_in (c :: l ++ [t]) i j.
  Proof.
    revert c. induction l as [|d l IH]; intros c H.
    - destruct H as [<-|[]]. exists t, [], []. auto.
    - destruct H as [<-|H]; [exists d, [], (l ++ [t]); auto|]. destruct (IH d H) as (j & p & q & E). exists j, (c :: p), q. cbn [app]. cbn [app] in E. now rewrite E.
  Qed.
  Lemma next_before l c (i : nat) : In i l -> exists j, next_in (c :: l) j i.
  Proof.
    revert c. induction l as [|d l IH]; intros c H; [contradiction|]. destruct H as [<-|H]; [exists c, [], l; auto|].
    destruct (IH d H) as (j & p & q & E). exists j, (c :: p), q. now rewrite E.
  Qed.
  Lemma place_t : placed vs t top.
  Proof.
    pose proof CR as C. clear -C. revert C. generalize b bot right. induction rs as [|i l IH]; intros c p ps C.
    - destruct ps as [|x [|y ps]]; [destruct C as [C _]; apply C|destruct C as [_ []]|destruct C as [_ []]].
    - destruct ps as [|q ps]; [destruct C as [_ C]; destruct l; destruct C|]. destruct C as [_ C]. exact (IH _ _ _ C).
  Qed.
  Lemma Yb : Y b = vy bot.
  Proof. exact (placed_height _ _ _ place_b). Qed.
  Lemma Yt : Y t = vy top.
  Proof. exact (placed_height _ _ _ place_t). Qed.
  Lemma crossed fwd i j p q y : uplink vs fwd i j p q -> beside (points fwd) p q -> (vy p <= y <= vy q)%R -> crossed_at (points fwd) y (chord_x p q y).
  Proof.
    intros (_ & _ & _ & U) (u & v & E) B. destruct (proj1 (chord_on p q y U B)) as (s & S1 & S2). exists u, p, q, v, s. auto.
  Qed.
  Lemma sides i j i' j' p q p' q' y : uplink vs false i j p q -> beside (points false) p q -> uplink vs true i' j' p' q' -> beside (points true) p' q' ->
    (vy p <= y <= vy q)%R -> (vy p' <= y <= vy q')%R -> (vy bot < y < vy top)%R -> (chord_x p q y < chord_x p' q' y)%R.
  Proof.
    intros U1 B1 U2 B2 H1 H2 H. eapply (lens_sides _ _ _ _ LN); [exact H|exact (crossed false _ _ _ _ _ U1 B1 H1)|exact (crossed true _ _ _ _ _ U2 B2 H2)].
  Qed.
  Lemma point_small fwd p : In p (points fwd) -> moderate (vx p) /\ moderate (vy p).
  Proof.
    intros H. pose proof (lens_small _ _ _ _ LN) as F. rewrite Forall_forall in F. apply F. destruct H as [<-|H]; [now left|].
    apply in_app_or in H as [H|[<-|[]]]; [|right; now left]. right. right. apply in_or_app. destruct fwd; auto.
  Qed.
  Lemma beside_in {A} (l : list A) p q : beside l p q -> In p l /\ In q l.
  Proof. intros (u & v & ->). split; apply in_or_app; right; [now left|right; now left]. Qed.
  Lemma chord_small p q y : (vy p < vy q)%R -> (vy p <= y <= vy q)%R -> moderate (vx p) -> moderate (vx q) -> (- R_huge < chord_x p q y)%R.
  Proof.
    intros U B (M1 & _) (M2 & _). destruct (proj1 (chord_on p q y U B)) as (s & S1 & E). apply (f_equal vx) in E. cbn [vx pt] in E. rewrite <- E.
    unfold pt. cbn [vx]. destruct (Rle_dec (vx p) (vx q)) as [L|L].
    - assert (0 <= s * (vx q - vx p))%R by (apply Rmult_le_pos; lra). lra.
    - assert ((1 - s) * (vx p - vx q) >= 0)%R by (apply Rle_ge, Rmult_le_pos; lra). lra.
  Qed.
  Hypothesis TF : forall i, In i (b :: rs ++ ls) -> is_top vs i false.
  Hypothesis TT : is_top vs t true.
  Lemma not_top fwd i : In i (chain fwd) -> is_top vs i false -> (Y i < Y t)%R.
  Proof.
    intros H (v & V & F). apply (chain_high fwd); auto. intros ->. destruct TT as (w & W & F'). congruence.
  Qed.
  Lemma apart_chains : apart vs b (ls ++ [t]) (rs ++ [t]).
  Proof.
    intros i j i' j' y N1 N2 HY L1 L2 G1 G2 TP. rops. rbool. destruct (chain_beside false i j N1) as (p & q & U1 & B1). destruct (chain_beside true i' j' N2) as (p' & q' & U2 & B2).
    pose proof U1 as (P1 & P2 & _ & U1'). pose proof U2 as (P1' & P2' & _ & U2').
    rewrite (placed_height _ _ _ P1) in *. rewrite (placed_height _ _ _ P2) in *. rewrite (placed_height _ _ _ P1') in *. rewrite (placed_height _ _ _ P2') in *.
    assert (LOW : (vy bot < y)%R).
    { pose proof (chain_low false i (proj1 (next_in_in _ _ _ N1))) as K. rewrite (placed_height _ _ _ P1), Yb in K. lra. }
    assert (HIGH : (y < vy top)%R).
    { destruct TP as [TP|TP]; [pose proof (not_top false j (proj2 (next_in_in _ _ _ N1)) TP) as K; rewrite (placed_height _ _ _ P2), Yt in K; lra|
        pose proof (not_top true j' (proj2 (next_in_in _ _ _ N2)) TP) as K; rewrite (placed_height _ _ _ P2'), Yt in K; lra]. }
    exists (chord_x p q y), (chord_x p' q' y). csplit.
    - apply uplink_x; auto; lra.
    - apply uplink_x; auto; lra.
    - apply Reqb_false. pose proof (sides _ _ _ _ _ _ _ _ y U1 B1 U2 B2) as K. lra.
    - apply Reqb_false. destruct (beside_in _ _ _ B1) as [I1 I2].
      pose proof (chord_small p q y U1' ltac:(lra) (proj1 (point_small false p I1)) (proj1 (point_small false q I2))). lra.
  Qed.
  (** No edge is met in its inside. *)
  Lemma edge_at i v g : In i (b :: rs ++ t :: ls) -> nth_error vs i = Some v -> v_seg v = Some (SLine g) ->
    exists (fwd : bool) lo hi p q, next_in (chain fwd) lo hi /\ i = (if fwd then lo else hi) /\ uplink vs fwd lo hi p q /\ beside (points fwd) p q /\
      (v_pt v = p /\ g = q \/ v_pt v = q /\ g = p).
  Proof.
    intros H V G. assert (K : In i (b :: rs) \/ In i (ls ++ [t])).
    { destruct H as [<-|H]; [left; now left|]. apply in_app_or in H as [H|[<-|H]]; [left; now right|right; apply in_or_app; right; now left|right; apply in_or_app; now left]. }
    destruct K as [K|K].
    - destruct (next_after rs b i K) as (j & J). destruct (chain_beside true i j J) as (p & q & U & B). exists true, i, j, p, q. csplit; auto. left.
      destruct U as ((v' & V' & <-) & _ & (v2 & w & V2 & _ & _ & _ & G2 & _) & _). rewrite V in V', V2. injection V' as <-. injection V2 as <-. rewrite G in G2. injection G2 as ->. auto.
    - destruct (next_before (ls ++ [t]) b i K) as (j & J). destruct (chain_beside false j i J) as (p & q & U & B). exists false, j, i, p, q. csplit; auto. right.
      destruct U as (_ & (v' & V' & <-) & (v2 & w & V2 & _ & _ & _ & G2 & _) & _). rewrite V in V', V2. injection V' as <-. injection V2 as <-. rewrite G in G2. injection G2 as ->. auto.
  Qed.
  Lemma pt_rev (p q : vec2 R) s : pt q p s = pt p q (1 - s).
  Proof. unfold pt. f_equal; ring. Qed.
  Lemma edge_pt (p q a g : vec2 R) s : a = p /\ g = q \/ a = q /\ g = p -> exists u, pt a g s = pt p q u /\ ((0 <= s <= 1 -> 0 <= u <= 1) /\ (0 < s < 1 -> 0 < u < 1))%R.
  Proof. intros [[-> ->]|[-> ->]]; [exists s; auto|]. exists (1 - s)%R. rewrite pt_rev. split; auto. split; lra. Qed.
  Lemma pt_y (p q : vec2 R) s : (vy p < vy q)%R -> (0 <= s <= 1)%R -> (vy p <= vy (pt p q s) <= vy q)%R.
  Proof.
    intros U S. unfold pt. cbn [vy]. assert (0 <= s * (vy q - vy p))%R by (apply Rmult_le_pos; lra). assert (0 <= (1 - s) * (vy q - vy p))%R by (apply Rmult_le_pos; lra). lra.
  Qed.
  Lemma pt_y_in (p q : vec2 R) s : (vy p < vy q)%R -> (0 < s < 1)%R -> (vy p < vy (pt p q s) < vy q)%R.
  Proof.
    intros U S. unfold pt. cbn [vy]. assert (0 < s * (vy q - vy p))%R by (apply Rmult_lt_0_compat; lra). assert (0 < (1 - s) * (vy q - vy p))%R by (apply Rmult_lt_0_compat; lra). lra.
  Qed.
  Lemma pt_x (p q : vec2 R) s : (vy p < vy q)%R -> vx (pt p q s) = chord_x p q (vy (pt p q s)).
  Proof. intros U. unfold pt, chord_x. cbn [vx vy]. rops. field. lra. Qed.
  Lemma no_breaks ids : (forall i, In i ids -> In i (b :: rs ++ t :: ls)) -> unbroken vs ids.
  Proof.
    intros SUB i j v w q r s u Hi Hj NE V G W H S0 U0 E. apply SUB in Hi. apply SUB in Hj.
    destruct (edge_at i v q Hi V G) as (f1 & lo1 & hi1 & p1 & q1 & N1 & I1 & U1 & B1 & C1). destruct (edge_at j w r Hj W H) as (f2 & lo2 & hi2 & p2 & q2 & N2 & I2 & U2 & B2 & C2).
    destruct (edge_pt _ _ _ _ s C1) as (s' & E1 & _ & S1). destruct (edge_pt _ _ _ _ u C2) as (u' & E2 & S2 & _). specialize (S1 S0). specialize (S2 U0).
    rewrite E1, E2 in E. pose proof U1 as (P1 & Q1 & _ & L1). pose proof U2 as (P2 & Q2 & _ & L2).
    pose proof (pt_y_in p1 q1 s' L1 S1) as Y1. pose proof (pt_y p2 q2 u' L2 S2) as Y2.
    assert (X1 := pt_x p1 q1 s' L1). assert (X2 := pt_x p2 q2 u' L2). rewrite <- E in Y2, X2. set (z := vy (pt p1 q1 s')) in *.
    assert (RANGE : (vy bot < z < vy top)%R).
    { pose proof (chain_low f1 lo1 (proj1 (next_in_in _ _ _ N1))) as K1. pose proof (chain_top f1 hi1 (proj2 (next_in_in _ _ _ N1))) as K2.
      rewrite (placed_height _ _ _ P1), Yb in K1. rewrite (placed_height _ _ _ Q1), Yt in K2. lra. }
    destruct (bool_dec f1 f2) as [->|NF].
    - destruct (next_cmp vs _ _ _ _ _ (chain_sorted f2) N1 N2) as [[-> ->]|[K|K]].
      + apply NE. now rewrite I1, I2.
      + rewrite (placed_height _ _ _ Q1), (placed_height _ _ _ P2) in K. lra.
      + rewrite (placed_height _ _ _ Q2), (placed_height _ _ _ P1) in K. lra.
    - assert (K : chord_x p1 q1 z = chord_x p2 q2 z) by congruence. destruct f1, f2; try congruence.
      + pose proof (sides _ _ _ _ _ _ _ _ z U2 B2 U1 B1). lra.
      + pose proof (sides _ _ _ _ _ _ _ _ z U1 B1 U2 B2). lra.
  Qed.
  (** The bottom *)
  Lemma open_bottom l r vb vl vr : next_in (chain false) b l -> next_in (chain true) b r -> nth_error vs b = Some vb -> nth_error vs l = Some vl -> nth_error vs r = Some vr ->
    (exists x x' g g', v_seg vl = Some g /\ v_seg vb = Some g' /\ seg_curr_x g (v_pt vl) (mid vb vl vr) = Ok x /\ seg_curr_x g' (v_pt vb) (mid vb vl vr) = Ok x' /\
      n_ltb x x' = true /\ n_eqb x x' = false) /\ veqb (v_pt vl) (v_pt vr) = false.
  Proof.
    intros N1 N2 VB VL VR. destruct (chain_beside false b l N1) as (p & q & U1 & B1). destruct (chain_beside true b r N2) as (p' & q' & U2 & B2).
    pose proof U1 as ((v1 & V1 & P1) & (v2 & V2 & Q1) & LK1 & L1). pose proof U2 as ((v3 & V3 & P2) & (v4 & V4 & Q2) & LK2 & L2).
    rewrite VB in V1, V3. injection V1 as <-. injection V3 as <-. rewrite VL in V2. injection V2 as <-. rewrite VR in V4. injection V4 as <-.
    assert (EP : p' = p) by congruence. clear P2. subst p'.
    assert (PB : p = bot). { destruct place_b as (v' & V' & <-). rewrite VB in V'. injection V' as <-. now symmetry. }
    assert (MID : (vy p < mid vb vl vr < vy q /\ mid vb vl vr < vy q')%R).
    { unfold mid. rewrite P1, Q1, Q2. unfold n_min. rops. replace (if Rltb (vy p) (vy p) then vy p else vy p) with (vy p) by now destruct (Rltb _ _).
      destruct (Rltb (vy q') (vy q)) eqn:C; rbool; lra. }
    assert (H1 : (vy p <= mid vb vl vr <= vy q)%R) by lra. assert (H2 : (vy p <= mid vb vl vr <= vy q')%R) by lra.
    pose proof (sides _ _ _ _ _ _ _ _ (mid vb vl vr) U1 B1 U2 B2 H1 H2) as K.
    assert (RANGE : (vy bot < mid vb vl vr < vy top)%R).
    { pose proof (chain_top false l (proj2 (next_in_in _ _ _ N1))) as K2. unfold height in K2 at 1. rewrite VL, Yt, Q1 in K2. rewrite <- PB. lra. }
    specialize (K RANGE). split.
    - destruct LK1 as (w1 & w2 & W1 & _ & _ & _ & G1 & _). destruct LK2 as (w3 & w4 & W3 & _ & _ & _ & G2 & _). rewrite VL in W1. injection W1 as <-. rewrite VB in W3. injection W3 as <-.
      exists (chord_x p q (mid vb vl vr)), (chord_x p q' (mid vb vl vr)), (SLine p), (SLine q'). csplit; auto.
      + cbn [seg_curr_x]. rewrite Q1. f_equal. apply (chord_on p q); lra.
      + cbn [seg_curr_x]. now rewrite P1.
      + now apply Rltb_true.
      + apply Reqb_false. lra.
    - apply veqb_R_false. intros E. rewrite Q1, Q2 in E. rewrite E in K. lra.
  Qed.
  (** Both chains rise. *)
  Lemma climb_rises fwd l : forall i p ps, climb vs fwd i (l ++ [t]) p ps -> (forall j, In j (i :: l) -> is_top vs j false) ->
    rises vs fwd i (l ++ [t]) (if fwd then map SLine ps else map SLine (removelast (p :: ps))).
  Proof.
    induction l as [|j l IH]; intros i p [|q ps] C TP; try contradiction.
    - destruct C as [(P1 & P2 & LK & U) C]. destruct ps; [|contradiction].
      assert (UP : n_ltb (Y i) (Y t) = true) by (rewrite (placed_height _ _ _ P1), (placed_height _ _ _ P2); now apply Rltb_true).
      destruct fwd; cbn [map removelast rises app]; (csplit; [apply TP; now left|repeat split; auto|exact TT]).
    - destruct C as [(P1 & P2 & LK & U) C].
      assert (UP : n_ltb (Y i) (Y j) = true) by (rewrite (placed_height _ _ _ P1), (placed_height _ _ _ P2); now apply Rltb_true).
      pose proof (IH j q ps C (fun k Hk => TP k (or_intror Hk))) as R. destruct fwd.
      + cbn [map rises app]. csplit; [apply TP; now left|repeat split; auto|exact R].
      + change (removelast (p :: q :: ps)) with (p :: removelast (q :: ps)). cbn [map rises app]. csplit; [apply TP; now left|repeat split; auto|exact R].
  Qed.
  Lemma rises_right : rises vs true b (rs ++ [t]) (map SLine (right ++ [top])).
  Proof. apply (climb_rises true rs b bot _ CR). intros j [<-|H]; apply TF; [now left|]. right. apply in_or_app. auto. Qed.
  Lemma rises_left : rises vs false b (ls ++ [t]) (map SLine (bot :: left)).
  Proof.
    replace (bot :: left) with (removelast (bot :: left ++ [top])).
    - apply (climb_rises false ls b bot _ CL). intros j [<-|H]; apply TF; [now left|]. right. apply in_or_app. auto.
    - change (bot :: left ++ [top]) with ((bot :: left) ++ [top]). apply removelast_last.
  Qed.
End Two.

(** *** Drawn, loaded, swept *)
Lemma app_cut {A} (a a' c c' : list A) : a ++ c = a' ++ c' -> length a = length a' -> a = a' /\ c = c'.
Proof. revert a'. induction a as [|x a IH]; intros [|y a'] E L; cbn in *; try lia; auto. injection E as -> E. destruct (IH a' E) as [-> ->]; auto. Qed.
Lemma sorted_heights l : strictly_up l -> StronglySorted (fun a b => vy a < vy b)%R l.
Proof. apply Sorted_StronglySorted. intros a b c. apply Rlt_trans. Qed.
Lemma sorted_nodup l : StronglySorted (fun a b : vec2 R => vy a < vy b)%R l -> NoDup l.
Proof. induction 1 as [|a l S IH F]; constructor; auto. intros H. rewrite Forall_forall in F. specialize (F a H). lra. Qed.
Lemma in_crossed l : forall p q, In p l -> crossed_at (q :: l) (vy p) (vx p).
Proof.
  induction l as [|r l IH]; intros p q H; [contradiction|]. destruct H as [<-|H].
  - exists [], q, r, l, 1%R. csplit; auto; try lra. rewrite pt_1. now destruct r.
  - destruct (IH p r H) as (u & x & y & v & t & E & T & P). exists (q :: u), x, y, v, t. rewrite E. auto.
Qed.
Section Drawn.
  Variables bot top : vec2 R.
  Variables right left : list (vec2 R).
  Hypothesis LN : lens bot top right left.
  Lemma inner_right p : In p right -> (vy bot < vy p < vy top)%R.
  Proof.
    intros H. pose proof (sorted_heights _ (lens_right _ _ _ _ LN)) as S. split.
    - apply (sorted_app (fun a b : vec2 R => vy a < vy b)%R [bot] (right ++ [top]) S); [now left|apply in_or_app; auto].
    - apply (sorted_app (fun a b : vec2 R => vy a < vy b)%R (bot :: right) [top] S); [now right|now left].
  Qed.
  Lemma inner_left p : In p left -> (vy bot < vy p < vy top)%R.
  Proof.
    intros H. pose proof (sorted_heights _ (lens_left _ _ _ _ LN)) as S. split.
    - apply (sorted_app (fun a b : vec2 R => vy a < vy b)%R [bot] (left ++ [top]) S); [now left|apply in_or_app; auto].
    - apply (sorted_app (fun a b : vec2 R => vy a < vy b)%R (bot :: left) [top] S); [now right|now left].
  Qed.
  Lemma bot_top : (vy bot < vy top)%R.
  Proof. apply (sorted_app (fun a b : vec2 R => vy a < vy b)%R (bot :: right) [top] (sorted_heights _ (lens_right _ _ _ _ LN))); now left. Qed.
  Lemma around_nodup : NoDup (around bot top right left).
  Proof.
    pose proof (sorted_nodup _ (sorted_heights _ (lens_right _ _ _ _ LN))) as N1. pose proof (sorted_nodup _ (sorted_heights _ (lens_left _ _ _ _ LN))) as N2.
    unfold around. change (bot :: right ++ top :: rev left) with ((bot :: right) ++ top :: rev left).
    replace ((bot :: right) ++ top :: rev left) with ((bot :: right ++ [top]) ++ rev left) by (cbn; now rewrite <- app_assoc).
    assert (K : forall a c : list (vec2 R), NoDup a -> NoDup c -> (forall x, In x a -> ~ In x c) -> NoDup (a ++ c)).
    { intros a c A C D. induction A as [|x a NI A IH]; cbn; auto. constructor.
      - rewrite in_app_iff. intros [H|H]; [contradiction|]. apply (D x); auto. now left.
      - apply IH. intros y Hy. apply D. now right. }
    apply K; auto.
    - apply NoDup_rev. inversion N2 as [|? ? _ N2']; subst. apply NoDup_remove_1 in N2'. now rewrite app_nil_r in N2'.
    - intros x H H'. apply in_rev in H'. pose proof (inner_left x H') as I. pose proof bot_top as BT. destruct H as [<-|H]; [lra|].
      apply in_app_or in H as [H|[<-|[]]]; [|lra].
      assert (vx x < vx x)%R; [|lra]. apply (lens_sides _ _ _ _ LN (vy x)); auto; apply in_crossed; apply in_or_app; auto.
  Qed.
  Lemma around_small p : In p (around bot top right left) -> moderate (vx p) /\ moderate (vy p).
  Proof.
    intros H. pose proof (lens_small _ _ _ _ LN) as F. rewrite Forall_forall in F. apply F. unfold around in H. cbn in H. rewrite in_app_iff in H. cbn in H. rewrite <- in_rev in H.
    cbn. rewrite in_app_iff. tauto.
  Qed.
End Drawn.
Lemma draws_polygon o l : draws o l -> (forall p, In p l -> moderate (vx p) /\ moderate (vy p)) -> polygon o.
Proof.
  intros (a & c & E & -> & D) M. destruct o as [p cs]. cbn [fst snd] in *. rewrite D. clear D.
  assert (F : forall q, In q (p :: map endpoint cs) -> fin q).
  { intros q H. rewrite E in H. destruct (M q) as [(M1 & M2) (M3 & M4)]; [apply in_app_or in H; apply in_or_app; tauto|]. unfold fin. lra. }
  split; [apply F; now left|]. apply Forall_forall. intros x Hx. cbn [snd] in Hx. apply in_map_iff in Hx as (q & <- & Hq). apply F. now right.
Qed.
Lemma write_lines l : forall p : vec2 R, write_path p (map SLine l) = (lines_to p l, last l p).
Proof. induction l as [|q l IH]; intros p; [reflexivity|]. cbn [map write_path lines_to seg_target]. rewrite IH, MarkProofs.last_cons. reflexivity. Qed.
Lemma lines_app l1 : forall (p : vec2 R) l2, lines_to p (l1 ++ l2) = lines_to p l1 ++ lines_to (last l1 p) l2.
Proof. induction l1 as [|q l IH]; intros p l2; [reflexivity|]. cbn [app lines_to]. rewrite IH, MarkProofs.last_cons. reflexivity. Qed.
Lemma written bot top right left : write_poly (Poly bot (Some 1) (Some 0) (map SLine (right ++ [top])) (map SLine (bot :: left)) true) = traced (around bot top right left).
Proof.
  unfold write_poly. cbn [o_complete o_up o_down o_origin]. destruct (map SLine (right ++ [top])) as [|g gs] eqn:E; [destruct right; discriminate|]. rewrite <- E.
  rewrite write_lines, last_last, <- map_rev, write_lines. unfold traced, around. cbn [rev]. f_equal.
  replace ((right ++ top :: rev left) ++ [bot]) with ((right ++ [top]) ++ (rev left ++ [bot])) by now rewrite <- !app_assoc.
  rewrite (lines_app (right ++ [top])), last_last. reflexivity.
Qed.
Lemma kept_contributes op fill k : contributing op fill 1 0 k = kept op fill k.
Proof. now destruct op, fill, k. Qed.
Lemma only_one {A} (l : list A) x : NoDup l -> In x l -> (forall y, In y l -> y = x) -> l = [x].
Proof.
  intros ND I U. destruct l as [|a [|c l]]; [contradiction|f_equal; apply U; now left|]. exfalso. inversion ND as [|? ? NI _]; subst. apply NI.
  rewrite (U a), (U c) by (cbn; auto). now left.
Qed.
Lemma subseq_nodup {A} (a l : list A) : subseq a l -> NoDup l -> NoDup a.
Proof.
  induction 1 as [|x a l S IH|x a l S IH]; intros ND; auto; inversion ND as [|? ? NI ND']; subst; auto. constructor; auto.
  intros H. apply NI. eapply subseq_in; eauto.
Qed.
Lemma filter_nodup {A B} (f : A -> B) (g : A -> bool) l : NoDup (map f l) -> NoDup (map f (filter g l)).
Proof.
  induction l as [|x l IH]; intros ND; auto. cbn in *. inversion ND as [|? ? NI ND']; subst. destruct (g x); auto. cbn. constructor; auto.
  intros H. apply NI. apply in_map_iff in H as (y & E & Hy). apply filter_In in Hy as [Hy _]. apply in_map_iff. eauto.
Qed.

Theorem lens_run en bot top right left (o : outline (T := R)) k op fill fuel : lens bot top right left -> draws o (around bot top right left) ->
  (forall l, Permutation (en_order en l) l) -> length (around bot top right left) <= fuel ->
  exists s s', add_all clipper0 [(k, [[o]])] = Ok s /\ process en fuel s op fill = Ok (s', if kept op fill k then traced (around bot top right left) else []).
Proof.
  intros LN DR PO FU. pose proof (around_nodup _ _ _ _ LN) as ND. pose proof (bot_top _ _ _ _ LN) as BT.
  pose proof (draws_polygon o _ DR (around_small _ _ _ _ LN)) as PG. pose proof (polygon_drawing o PG) as DW.
  destruct DR as (a & c & E1 & E2 & E3). destruct o as [p cs]. cbn [fst snd] in *.
  set (r := map endpoint cs) in *. clearbody r. subst cs.
  assert (PM : Permutation (p :: r) (around bot top right left)) by (rewrite E1, E2; apply Permutation_app_comm).
  assert (ND' : NoDup (p :: r)) by (eapply Permutation_NoDup; [apply Permutation_sym; exact PM|exact ND]).
  destruct r as [|q r]. { apply Permutation_length in PM. unfold around in PM. cbn in PM. rewrite app_length in PM. cbn in PM. lia. }
  pose proof (lines_segs p q r ND') as SG.
  assert (AC : accepted (outline_segs (p, map PLine (q :: r))) = true).
  { rewrite SG. assert (P2 : Permutation ((q :: r) ++ [p]) (around bot top right left)) by (eapply Permutation_trans; [apply Permutation_app_comm|exact PM]).
    apply (lines_accepted _ bot top).
    - rewrite app_length. cbn. lia.
    - apply (Permutation_in _ (Permutation_sym P2)). now left.
    - apply (Permutation_in _ (Permutation_sym P2)). right. apply in_or_app. right. now left.
    - lra. }
  assert (YV : yvalid (outline_segs (p, map PLine (q :: r)))) by (apply Forall_forall; intros; exact I).
  destruct (one_loaded k (p, map PLine (q :: r)) DW AC YV) as (s & l & ex & EA & GR & RS & ST & RG & EX & LM & MN & FL).
  exists s. rewrite SG in RG. symmetry in E2.
  destruct (ring_turned _ _ _ _ _ _ _ _ RG E1 E2) as (b & ids & PI & NI & S).
  assert (LI : length ids = length right + (1 + length left)).
  { apply strand_len in S. rewrite map_length, !app_length in S. cbn in S. rewrite rev_length in S. cbn in S. lia. }
  assert (SP : exists rs t rls, ids = rs ++ t :: rls /\ length rs = length right).
  { exists (firstn (length right) ids). destruct (skipn (length right) ids) as [|t rls] eqn:SK.
    - apply (f_equal (@length nat)) in SK. rewrite skipn_length in SK. cbn in SK. lia.
    - exists t, rls. rewrite <- SK, firstn_skipn, firstn_length. split; auto. lia. }
  destruct SP as (rs & t & rls & -> & LR). rewrite <- (rev_involutive rls) in *. set (ls := rev rls) in *. clearbody ls. clear rls.
  assert (LL : length ls = length left). { rewrite app_length in LI. cbn in LI. rewrite rev_length in LI. lia. }
  replace ((rs ++ t :: rev ls) ++ [b]) with ((rs ++ [t]) ++ (rev ls ++ [b])) in S by now rewrite <- !app_assoc.
  replace ((right ++ top :: rev left) ++ [bot]) with ((right ++ [top]) ++ (rev left ++ [bot])) in S by now rewrite <- !app_assoc.
  apply strand_split in S as (g1 & g2 & EG & S1 & S2). rewrite last_last in S2. apply map_app_cut in EG as (l1 & l2 & EL & -> & ->).
  apply app_cut in EL as [<- <-]; [|apply strand_len in S1; rewrite map_length, !app_length in S1; rewrite !app_length; cbn in *; lia].
  assert (PT : placed (verts s) t top).
  { apply strand_placed in S1. apply Forall2_app_inv_l in S1 as (u & w & _ & F & EE). inversion F as [|? ? ? ? F1 F2]; subst. inversion F2; subst. apply app_inj_tail in EE as [_ ->]. exact F1. }
  assert (PB : placed (verts s) b bot).
  { apply strand_placed in S2. apply Forall2_app_inv_l in S2 as (u & w & _ & F & EE). inversion F as [|? ? ? ? F1 F2]; subst. inversion F2; subst. apply app_inj_tail in EE as [_ ->]. exact F1. }
  assert (CR : climb (verts s) true b (rs ++ [t]) bot (right ++ [top])) by (apply climb_right; auto; apply (lens_right _ _ _ _ LN)).
  assert (CL : climb (verts s) false b (ls ++ [t]) bot (left ++ [top])) by (apply climb_left; auto; apply (lens_left _ _ _ _ LN)).
  assert (IN : forall i, In i l <-> In i (b :: rs ++ t :: ls)).
  { intros i. split; intros H.
    - apply (Permutation_in _ (Permutation_sym PI)) in H. cbn in *. rewrite in_app_iff in *. cbn in *. rewrite <- in_rev in H. tauto.
    - apply (Permutation_in _ PI). cbn in *. rewrite in_app_iff in *. cbn in *. rewrite <- in_rev. tauto. }
  assert (LE : 2 <= length l). { apply Permutation_length in PI. rewrite <- PI. cbn. rewrite app_length. cbn. lia. }
  (* the extrema *)
  assert (UPP : forall fwd i j x y, In i l -> uplink (verts s) fwd i j x y -> ~ highest (height (verts s)) l i).
  { intros fwd i j x y Hi (P1 & P2 & LK & U) (n & w & TR & C & A). destruct (turned_links _ _ _ RG _ _ _ TR) as ((h1 & L1) & (h2 & L2)).
    assert (HU : (height (verts s) i < height (verts s) j)%R) by now rewrite (placed_height _ _ _ P1), (placed_height _ _ _ P2).
    destruct fwd.
    - rewrite <- (link_next _ _ _ _ _ _ LK L1) in C. rops. rbool. lra.
    - pose proof (link_prev _ _ _ _ _ _ LK L2) as EP. apply (arrives_last _ false) in A; rewrite <- EP in *; lra. }
  assert (DWN : forall fwd i j x y, In j l -> uplink (verts s) fwd i j x y -> ~ lowest (height (verts s)) l j).
  { intros fwd i j x y Hi (P1 & P2 & LK & U) (n & w & TR & C & A). destruct (turned_links _ _ _ RG _ _ _ TR) as ((h1 & L1) & (h2 & L2)).
    assert (HU : (height (verts s) i < height (verts s) j)%R) by now rewrite (placed_height _ _ _ P1), (placed_height _ _ _ P2).
    destruct fwd.
    - pose proof (link_prev _ _ _ _ _ _ LK L2) as EP. apply (arrives_last _ true) in A; rewrite <- EP in *; lra.
    - rewrite <- (link_next _ _ _ _ _ _ LK L1) in C. rops. rbool. lra. }
  assert (IB : In b l) by (apply IN; now left). assert (IT : In t l) by (apply IN; right; apply in_or_app; right; now left).
  assert (HT : highest (height (verts s)) l t).
  { destruct (next_before (rs ++ [t]) b t) as (i & Hi); [apply in_or_app; right; now left|]. destruct (next_before (ls ++ [t]) b t) as (j & Hj); [apply in_or_app; right; now left|].
    destruct (climb_beside _ _ _ _ _ _ _ _ CR Hi) as (x & y & (P1 & P2 & LK & U) & _). destruct (climb_beside _ _ _ _ _ _ _ _ CL Hj) as (x' & y' & (P1' & P2' & LK' & U') & _).
    apply (highest_at _ _ _ RG _ _ _ _ _ IT LE LK LK'); rewrite ?(placed_height _ _ _ P1), ?(placed_height _ _ _ P2); [lra|]. split; [lra|].
    rewrite (placed_height _ _ _ P1'). rewrite <- (placed_height _ _ _ P2), (placed_height _ _ _ P2'). exact U'. }
  assert (LB : lowest (height (verts s)) l b).
  { destruct (next_after t rs b b) as (i & Hi); [now left|]. destruct (next_after t ls b b) as (j & Hj); [now left|].
    destruct (climb_beside _ _ _ _ _ _ _ _ CR Hi) as (x & y & (P1 & P2 & LK & U) & _). destruct (climb_beside _ _ _ _ _ _ _ _ CL Hj) as (x' & y' & (P1' & P2' & LK' & U') & _).
    assert (HU : (height (verts s) b < height (verts s) j)%R) by now rewrite (placed_height _ _ _ P1'), (placed_height _ _ _ P2').
    assert (HU' : (height (verts s) b < height (verts s) i)%R) by now rewrite (placed_height _ _ _ P1), (placed_height _ _ _ P2).
    apply (lowest_at _ _ _ RG _ _ _ _ _ IB LE LK' LK); [lra|]. auto. }
  assert (TT : is_top (verts s) t true).
  { destruct PT as (v & V & _). exists v. split; auto. now apply (FL t v IT V). }
  assert (NOT : forall i, In i (b :: rs ++ ls) -> is_top (verts s) i false).
  { intros i Hi. assert (Hl : In i l). { apply IN. cbn in *. rewrite in_app_iff in *. cbn. tauto. }
    assert (NH : ~ highest (height (verts s)) l i).
    { assert (K : In i (b :: rs) \/ In i (b :: ls)) by (cbn in *; rewrite in_app_iff in Hi; tauto). destruct K as [K|K].
      - destruct (next_after t rs b i K) as (j & J). destruct (climb_beside _ _ _ _ _ _ _ _ CR J) as (x & y & U & _). exact (UPP _ _ _ _ _ Hl U).
      - destruct (next_after t ls b i K) as (j & J). destruct (climb_beside _ _ _ _ _ _ _ _ CL J) as (x & y & U & _). exact (UPP _ _ _ _ _ Hl U). }
    destruct (ring_some _ _ _ i RG Hl) as (v & V). exists v. split; auto. destruct (v_max v) eqn:M; auto. exfalso. apply NH. now apply (FL i v Hl V). }
  assert (MINS : map fst (filter snd ex) = [b]).
  { destruct EX as (SU & X1 & _ & _). apply only_one.
    - apply filter_nodup. eapply subseq_nodup; [exact SU|]. destruct l; [contradiction|]. apply RG.
    - apply in_map_iff. exists (b, true). split; auto. apply filter_In. split; auto. now apply X1.
    - intros i Hi. apply in_map_iff in Hi as ((i' & m) & <- & Hi). apply filter_In in Hi as [Hi Em]. cbn [fst snd] in *. subst m. apply X1 in Hi.
      destruct (Nat.eq_dec i' b) as [|NE]; auto. exfalso.
      assert (Hl : In i' l) by (destruct Hi as (n & w & (u & u' & -> & _) & _); apply in_or_app; right; now left).
      assert (K : In i' (rs ++ [t]) \/ In i' (ls ++ [t])).
      { apply IN in Hl. rewrite !in_app_iff. cbn in *. rewrite in_app_iff in Hl. cbn in Hl. destruct Hl as [Hl|[Hl|[Hl|Hl]]]; auto; congruence. }
      destruct K as [K|K].
      + destruct (next_before _ b i' K) as (j & J). destruct (climb_beside _ _ _ _ _ _ _ _ CR J) as (x & y & U & _). exact (DWN _ _ _ _ _ Hl U Hi).
      + destruct (next_before _ b i' K) as (j & J). destruct (climb_beside _ _ _ _ _ _ _ _ CL J) as (x & y & U & _). exact (DWN _ _ _ _ _ Hl U Hi). }
  assert (STR : straight (verts s) [l]).
  { apply (drawn_straight [(k, [[(p, map PLine (q :: r))]])] s [l]); auto.
    - intros l' [<-|[]]. exists (p, map PLine (q :: r)). csplit; [now left|exact AC|now rewrite SG].
    - constructor; auto. }
  assert (UN : unbroken (verts s) (concat [l])).
  { cbn [concat]. rewrite app_nil_r. apply (no_breaks _ b t rs ls bot top right left LN CR CL). intros i Hi. now apply IN. }
  assert (PI' : process_intersect en (w_op s op fill) = Ok (w_breaks (w_op s op fill) [])) by (apply (intersect_none en (w_op s op fill) [l]); auto).
  destruct PB as (vb & VB & EB).
  assert (HL : exists jl l', ls ++ [t] = jl :: l' /\ length l' = length ls /\ next_in (b :: ls ++ [t]) b jl /\ last l' jl = t).
  { destruct ls as [|jl l']; [exists t, []|exists jl, (l' ++ [t])]; csplit; auto; try (exists []; eexists; reflexivity); try (now rewrite last_last); rewrite app_length; cbn; lia. }
  assert (HR : exists jr r', rs ++ [t] = jr :: r' /\ length r' = length rs /\ next_in (b :: rs ++ [t]) b jr /\ last r' jr = t).
  { destruct rs as [|jr r']; [exists t, []|exists jr, (r' ++ [t])]; csplit; auto; try (exists []; eexists; reflexivity); try (now rewrite last_last); rewrite app_length; cbn; lia. }
  destruct HL as (jl & l' & EL & LL' & NL & TL). destruct HR as (jr & r' & ER & LR' & NR & TR).
  assert (exists vl, nth_error (verts s) jl = Some vl) as (vl & VL) by (destruct (climb_beside _ _ _ _ _ _ _ _ CL NL) as (x & y & (_ & (v & V & _) & _) & _); eauto).
  assert (exists vr, nth_error (verts s) jr = Some vr) as (vr & VR) by (destruct (climb_beside _ _ _ _ _ _ _ _ CR NR) as (x & y & (_ & (v & V & _) & _) & _); eauto).
  destruct (open_bottom _ b t rs ls bot top right left LN CR CL jl jr vb vl vr NL NR VB VL VR) as [OP TOPS].
  pose proof (rises_right _ b t rs ls bot top right CR NOT TT) as R1. pose proof (rises_left _ b t rs ls bot top left CL NOT TT) as R2.
  pose proof (apart_chains _ b t rs ls bot top right left LN CR CL TT) as AP. rewrite EL, ER in *.
  set (s1 := w_breaks (w_op s op fill) []) in *.
  assert (LD : loaded (verts s) s1 b k).
  { destruct GR as (GR & _). unfold s1, loaded. rewrite GR. cbn. rewrite LM, MN, MINS. csplit; auto. rewrite <- (map_length fst), MINS. reflexivity. }
  assert (VY : forall v, In v (verts s) -> nvalid (vy (v_pt v))) by (intros; exact I).
  assert (VX : forall v, In v (verts s) -> nvalid (vx (v_pt v))) by (intros; exact I).
  destruct (lens_finish (verts s) VY VX s1 b k l' r' jl jr _ _ vb vl vr fuel LD R2 R1) as (s' & F & PL); auto.
  - congruence.
  - rewrite EB. apply Reqb_false. rops. destruct (around_small _ _ _ _ LN bot (or_introl eq_refl)) as [_ (M1 & _)]. lra.
  - unfold around in FU. cbn [length] in FU. rewrite app_length in FU. cbn [length] in FU. rewrite rev_length in FU. lia.
  - exists s'. split; auto. unfold process. rewrite PI'. cbn [bind]. change (finish fuel s1 = Ok (s', if kept op fill k then traced (around bot top right left) else [])).
    rewrite F. f_equal. f_equal. unfold build_output. rewrite PL. change (cop s1) with op. change (cfill s1) with fill. rewrite kept_contributes. unfold the_poly.
    destruct (kept op fill k); [|reflexivity]. cbn [flat_map]. rewrite app_nil_r, EB. apply written.
Qed.
