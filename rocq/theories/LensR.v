(** One polygon that every level line cuts at most twice, over the reals. *)
From Coq Require Import ZArith Bool List Lia Reals Lra Sorted Permutation.
From Verif Require Import Outcome Num Order Rmath Segment Path PathSpec RTac VState VPath VBreak VLemmas AelSpec VAel VOut VMain
  RingSpec MarkProofs MarkSpec BreakSpec VRing VBuild VAdd VBroken TraceR LineSpec LineR RingStatements BreakStatements BreakDrawn BreakLines
  ClimbRing ClimbPoly BoxSpec EquiMap LensSpec Lens LensBottom LensLoad.
Import ListNotations.
Local Open Scope out.

(** *** Rings *)
Section Rings.
  Variable vs : list (vertex R).
  Variable l : list nat.
  Variable gs : list (seg R).
  Hypothesis RG : ring vs l gs.
  Notation Y := (height vs).
  Lemma turned_links v n r : turned l v (n :: r) -> (exists g, link vs v n g) /\ exists g, link vs (last r n) v g.
  Proof.
    intros TR. destruct (ring_from _ _ _ _ _ RG TR) as (g & S). destruct (strand_split _ (n :: r) _ _ _ S) as (g1 & g2 & -> & S1 & S2).
    destruct g1 as [|h g1]; [contradiction|]. destruct S1 as [S1 _]. rewrite MarkProofs.last_cons in S2.
    destruct g2 as [|h2 g2]; [contradiction|]. destruct S2 as [S2 _]. eauto.
  Qed.
  Lemma link_next a b c g h : link vs a b g -> link vs a c h -> b = c.
  Proof. intros (v & w & A & _ & N & _) (v' & w' & A' & _ & N' & _). congruence. Qed.
  Lemma link_prev a b c g h : link vs a c g -> link vs b c h -> a = b.
  Proof. intros (v & w & _ & A & _ & N & _) (v' & w' & _ & A' & _ & N' & _). congruence. Qed.
  Lemma arrives_last b v n r : arrives Y b v (rev (n :: r)) -> Y (last r n) <> Y v -> (if b then Y v < Y (last r n) else Y (last r n) < Y v)%R.
  Proof.
    assert (E : exists q, rev (n :: r) = last r n :: q).
    { destruct r as [|x r] using rev_ind; [exists []; auto|]. rewrite last_last. change (n :: r ++ [x]) with ((n :: r) ++ [x]). rewrite rev_app_distr. cbn. eauto. }
    destruct E as (q & ->). intros (e & p & q' & E & F & C) NE. destruct e as [|x e].
    - injection E as <- _. destruct b; now apply Rltb_true.
    - injection E as <- _. inversion F as [|? ? F1 _]; subst. apply Reqb_true in F1. contradiction.
  Qed.
  Lemma arrives_first (b : bool) v n r : (if b then Y v < Y (last r n) else Y (last r n) < Y v)%R -> arrives Y b v (rev (n :: r)).
  Proof.
    assert (E : exists q, rev (n :: r) = last r n :: q).
    { destruct r as [|x r] using rev_ind; [exists []; auto|]. rewrite last_last. change (n :: r ++ [x]) with ((n :: r) ++ [x]). rewrite rev_app_distr. cbn. eauto. }
    destruct E as (q & ->). intros H. exists (@nil nat), (last r n), q. csplit; auto. destruct b; now apply Rltb_true.
  Qed.
  (** An extremum, seen from its neighbours *)
  Lemma highest_at p i n g h : In i l -> (2 <= length l)%nat -> link vs p i g -> link vs i n h -> Y p <> Y i ->
    (highest Y l i <-> (Y p < Y i /\ Y n < Y i)%R).
  Proof.
    intros Hi LE LP LN NE. split.
    - intros (n' & r & TR & C & A). destruct (turned_links _ _ _ TR) as ((g1 & L1) & (g2 & L2)).
      rewrite <- (link_next _ _ _ _ _ LN L1) in C. pose proof (link_prev _ _ _ _ _ LP L2) as EP.
      split; [|now apply Rltb_true]. rewrite EP in *. now apply (arrives_last false) in A.
    - intros [C1 C2]. destruct (turned_of l i Hi LE) as (n' & r & TR). destruct (turned_links _ _ _ TR) as ((g1 & L1) & (g2 & L2)).
      exists n', r. csplit; auto.
      + rewrite <- (link_next _ _ _ _ _ LN L1). now apply Rltb_true.
      + apply arrives_first. now rewrite <- (link_prev _ _ _ _ _ LP L2).
  Qed.
  Lemma lowest_at p i n g h : In i l -> (2 <= length l)%nat -> link vs p i g -> link vs i n h -> Y p <> Y i ->
    (lowest Y l i <-> (Y i < Y p /\ Y i < Y n)%R).
  Proof.
    intros Hi LE LP LN NE. split.
    - intros (n' & r & TR & C & A). destruct (turned_links _ _ _ TR) as ((g1 & L1) & (g2 & L2)).
      rewrite <- (link_next _ _ _ _ _ LN L1) in C. pose proof (link_prev _ _ _ _ _ LP L2) as EP.
      split; [|now apply Rltb_true]. rewrite EP in *. now apply (arrives_last true) in A.
    - intros [C1 C2]. destruct (turned_of l i Hi LE) as (n' & r & TR). destruct (turned_links _ _ _ TR) as ((g1 & L1) & (g2 & L2)).
      exists n', r. csplit; auto.
      + rewrite <- (link_next _ _ _ _ _ LN L1). now apply Rltb_true.
      + apply arrives_first. now rewrite <- (link_prev _ _ _ _ _ LP L2).
  Qed.
End Rings.
(** The ring from another of its vertices *)
Lemma ring_rot (vs : list (vertex R)) x y gs : ring vs (x ++ y) gs -> y <> [] ->
  exists g1 g2, gs = g1 ++ g2 /\ length g1 = length x /\ ring vs (y ++ x) (g2 ++ g1).
Proof.
  intros RG NE. destruct x as [|f x]; [exists [], gs; rewrite !app_nil_r; auto|]. destruct y as [|m y]; [congruence|].
  destruct RG as [ND S]. replace ((x ++ m :: y) ++ [f]) with ((x ++ [m]) ++ (y ++ [f])) in S by now rewrite <- !app_assoc.
  apply strand_split in S as (g1 & g2 & -> & S1 & S2). rewrite last_last in S2. exists g1, g2. csplit; auto.
  - apply strand_len in S1. rewrite app_length in S1. cbn in *. lia.
  - cbn [app ring]. split.
    + change (NoDup ((m :: y) ++ (f :: x))). eapply Permutation_NoDup; [apply Permutation_app_comm|exact ND].
    + replace ((y ++ f :: x) ++ [m]) with ((y ++ [f]) ++ (x ++ [m])) by now rewrite <- !app_assoc. apply strand_join; auto. now rewrite last_last.
Qed.

(** *** Drawn polygons with distinct vertices *)
Lemma lines_pieces r : forall p : vec2 R, NoDup (p :: r) -> all_pieces p (map PLine r) = map SLine r.
Proof.
  induction r as [|q r IH]; intros p ND; [reflexivity|]. inversion ND as [|? ? NI ND']; subst. cbn [map all_pieces pieces endpoint]. unfold line_piece.
  replace (vneqb p q) with true; [cbn [app]; f_equal; auto|]. symmetry. unfold vneqb. apply negb_true_iff. apply veqb_R_false. intros ->. apply NI. now left.
Qed.
Lemma last_in {A} (l : list A) d : In (last l d) (d :: l).
Proof. revert d. induction l as [|x l IH]; intros d; [now left|]. rewrite MarkProofs.last_cons. right. apply IH. Qed.
Lemma lines_segs p q r : NoDup (p :: q :: r) -> outline_segs (p, map PLine (q :: r)) = map SLine ((q :: r) ++ [p] : list (vec2 R)).
Proof.
  intros ND. unfold outline_segs. cbn [fst snd]. rewrite lines_pieces by auto. cbn [map]. unfold closing.
  replace (vneqb p _) with true; [rewrite map_app; reflexivity|]. symmetry. unfold vneqb. apply negb_true_iff. apply veqb_R_false. unfold end_of. intros E.
  inversion ND as [|? ? NI _]; subst. apply NI. replace (map seg_target (SLine q :: map SLine r)) with (q :: r) in E.
  - rewrite MarkProofs.last_cons in E. rewrite E. apply last_in.
  - cbn. f_equal. rewrite map_map. cbn. now rewrite map_id.
Qed.
Lemma levels_same l : forall p : vec2 R, levels p l = true -> forall q, In q l -> vy q = vy p.
Proof.
  induction l as [|a l IH]; intros p H q Hq; [contradiction|]. cbn [levels] in H. apply andb_prop in H as [H1 H2]. apply Reqb_true in H1.
  destruct Hq as [<-|Hq]; auto. now rewrite (IH _ H2 q Hq).
Qed.
Lemma lines_accepted (l : list (vec2 R)) a b : (2 <= length l)%nat -> In a l -> In b l -> vy a <> vy b -> accepted (map SLine l) = true.
Proof.
  intros L A B NE. unfold accepted. rewrite map_length. apply andb_true_intro. split; [now apply Nat.leb_le|]. apply negb_true_iff. unfold level.
  rewrite map_map. cbn [seg_target]. rewrite map_id. destruct l as [|q r]; [contradiction|]. destruct (levels _ _) eqn:E; auto. exfalso. apply NE.
  pose proof (levels_same _ _ E) as H. now rewrite (H a), (H b).
Qed.
(** The vertices of a strand of lines *)
Definition placed (vs : list (vertex R)) (i : nat) (p : vec2 R) : Prop := exists v, nth_error vs i = Some v /\ v_pt v = p.
Lemma strand_placed vs l : forall i ps, strand vs i l (map SLine ps) -> Forall2 (placed vs) l ps.
Proof.
  induction l as [|j l IH]; intros i [|p ps] S; cbn in S; try contradiction; constructor.
  - destruct S as [(v & w & _ & W & _ & _ & _ & Tg) _]. exists w. auto.
  - eapply IH. apply S.
Qed.
Lemma map_app_cut {A B} (f : A -> B) l g1 g2 : map f l = g1 ++ g2 -> exists l1 l2, l = l1 ++ l2 /\ g1 = map f l1 /\ g2 = map f l2.
Proof.
  revert l. induction g1 as [|g g1 IH]; intros l E; [exists [], l; auto|]. destruct l as [|a l]; [discriminate|]. cbn in E. injection E as <- E.
  destruct (IH _ E) as (l1 & l2 & -> & -> & ->). exists (a :: l1), l2. auto.
Qed.
(** The ring of a drawn polygon, seen from its first listed vertex *)
Lemma ring_turned vs l p r (a c : list (vec2 R)) m q : ring vs l (map SLine (r ++ [p])) -> p :: r = a ++ c -> c ++ a = m :: q ->
  exists b ids, Permutation (b :: ids) l /\ NoDup (b :: ids) /\ strand vs b (ids ++ [b]) (map SLine (q ++ [m])).
Proof.
  intros RG E1 E2. assert (W : forall l p r, ring vs l (map SLine (r ++ [p])) -> exists b ids, Permutation (b :: ids) l /\ NoDup (b :: ids) /\ strand vs b (ids ++ [b]) (map SLine (r ++ [p]))).
  { intros l' p' r' RG'. destruct l' as [|b ids]; [contradiction|]. destruct RG' as [ND S]. exists b, ids. auto. }
  destruct c as [|c0 c]; [cbn in E2; rewrite app_nil_r in E1; rewrite <- E1 in E2; injection E2 as <- <-; eauto|].
  destruct a as [|a0 a]; [rewrite app_nil_r in E2; cbn in E1; rewrite <- E1 in E2; injection E2 as <- <-; eauto|].
  injection E1 as -> ->. injection E2 as -> <-.
  assert (LL : length l = length ((a ++ m :: c) ++ [a0])).
  { destruct l as [|f l]; [contradiction|]. destruct RG as [_ S]. apply strand_len in S. rewrite map_length, !app_length in S. rewrite !app_length. cbn in *. lia. }
  rewrite <- (firstn_skipn (S (length a)) l) in RG. destruct (ring_rot _ _ _ _ RG) as (g1 & g2 & EG & LG & RG').
  { intros K. apply (f_equal (@length nat)) in K. rewrite skipn_length, LL, !app_length in K. cbn in K. lia. }
  apply map_app_cut in EG as (l1 & l2 & EL & -> & ->). rewrite map_length, firstn_length in LG. rewrite <- map_app in RG'.
  assert (X : l1 = a ++ [m] /\ l2 = c ++ [a0]).
  { apply app_inj_tail_iff || idtac. replace ((a ++ m :: c) ++ [a0]) with ((a ++ [m]) ++ (c ++ [a0])) in * by now rewrite <- !app_assoc.
    assert (LE : length l1 = length (a ++ [m])). { rewrite LL, !app_length in LG. rewrite app_length. cbn [length] in *. lia. }
    clear -EL LE. revert EL LE. generalize (a ++ [m]) (c ++ [a0]). intros u v. revert u. induction l1 as [|x l1 IH]; intros [|y u] E L; cbn in *; try lia; auto.
    injection E as -> E. destruct (IH u E) as [-> ->]; auto. }
  destruct X as [-> ->]. replace ((c ++ [a0]) ++ a ++ [m]) with ((c ++ a0 :: a) ++ [m]) in RG' by now rewrite <- !app_assoc.
  destruct (W _ _ _ RG') as (b & ids & P & ND & S). exists b, ids. csplit; auto.
  eapply Permutation_trans; [exact P|]. eapply Permutation_trans; [apply Permutation_app_comm|]. now rewrite firstn_skipn.
Qed.

(** *** Chains *)
Definition uplink (vs : list (vertex R)) (fwd : bool) (i j : nat) (p q : vec2 R) : Prop :=
  placed vs i p /\ placed vs j q /\ (if fwd then link vs i j (SLine q) else link vs j i (SLine p)) /\ (vy p < vy q)%R.
Fixpoint climb (vs : list (vertex R)) (fwd : bool) (i : nat) (l : list nat) (p : vec2 R) (ps : list (vec2 R)) : Prop :=
  match l, ps with
  | [], [] => True
  | j :: l, q :: ps => uplink vs fwd i j p q /\ climb vs fwd j l q ps
  | _, _ => False
  end.
Lemma placed_height vs i p : placed vs i p -> height vs i = vy p.
Proof. intros (v & V & <-). unfold height. now rewrite V. Qed.
Lemma climb_right vs l : forall i p ps, placed vs i p -> strand vs i l (map SLine ps) -> strictly_up (p :: ps) -> climb vs true i l p ps.
Proof.
  induction l as [|j l IH]; intros i p [|q ps] P S U; cbn in S; try contradiction; [exact I|]. destruct S as [LK S]. inversion U as [|? ? U' H]; subst.
  inversion H; subst. assert (PJ : placed vs j q) by (destruct LK as (v & w & _ & W & _ & _ & _ & Tg); exists w; auto).
  cbn [climb]. split; [repeat split; auto|]. apply IH; auto.
Qed.
Lemma climb_left vs t top l : forall i p ps, placed vs t top -> length l = length ps -> strand vs t (rev l ++ [i]) (map SLine (rev ps ++ [p])) -> strictly_up (p :: ps ++ [top]) ->
  climb vs false i (l ++ [t]) p (ps ++ [top]).
Proof.
  induction l as [|j l IH]; intros i p [|q ps] PT L S U; try discriminate.
  - cbn in S. destruct S as [LK _]. inversion U as [|? ? U' H]; subst. inversion H; subst. cbn [app climb]. split; [|exact I]. repeat split; auto.
    destruct LK as (v & w & _ & W & _ & _ & _ & Tg). exists w. auto.
  - cbn [rev] in S. rewrite map_app in S. apply strand_split in S as (g1 & g2 & EG & S1 & S2). rewrite last_last in S2.
    destruct g2 as [|g g2]; [contradiction|]. destruct S2 as [LK S2]. destruct g2; [|contradiction]. cbn [map] in EG. apply app_inj_tail in EG as [<- <-].
    inversion U as [|? ? U' H]; subst. inversion H; subst.
    cbn [app climb]. assert (PJ : placed vs j q).
    { apply strand_placed in S1. clear -S1. apply Forall2_app_inv_l in S1 as (a & c & _ & F & E). inversion F as [|? ? ? ? F1 F2]; subst. inversion F2; subst. apply app_inj_tail in E as [_ ->]. exact F1. }
    split; [|apply IH; auto]. repeat split; auto. destruct LK as (v & w & _ & W & _ & _ & _ & Tg). exists w. auto.
Qed.
Definition beside {A} (l : list A) (i j : A) : Prop := exists p q, l = p ++ i :: j :: q.
Lemma climb_beside vs fwd l : forall i p ps a b, climb vs fwd i l p ps -> next_in (i :: l) a b -> exists x y, uplink vs fwd a b x y /\ beside (p :: ps) x y.
Proof.
  induction l as [|j l IH]; intros i p [|q ps] a b C (u & v & E); try contradiction.
  - destruct u as [|? [|]]; discriminate.
  - destruct C as [C1 C2]. destruct u as [|? u].
    + injection E as <- <- _. exists p, q. split; auto. exists [], ps. auto.
    + injection E as _ E. destruct (IH j q ps a b C2) as (x & y & K & (u' & v' & E')); [exists u, v; auto|].
      exists x, y. split; auto. exists (p :: u'), v'. rewrite E'. auto.
Qed.
Lemma climb_sorted vs fwd l : forall i p ps, climb vs fwd i l p ps -> StronglySorted (fun a b => height vs a < height vs b)%R (i :: l).
Proof.
  intros i p ps C. apply Sorted_StronglySorted; [intros a b c; apply Rlt_trans|]. revert i p ps C.
  induction l as [|j l IH]; intros i p [|q ps] C; try contradiction; constructor; auto.
  - eapply IH. apply C.
  - constructor. destruct C as [(P1 & P2 & _ & U) _]. now rewrite (placed_height _ _ _ P1), (placed_height _ _ _ P2).
Qed.
Lemma sorted_app {A} (lt : A -> A -> Prop) (a c : list A) : StronglySorted lt (a ++ c) -> forall x y, In x a -> In y c -> lt x y.
Proof.
  induction a as [|z a IH]; intros S x y Hx Hy; [contradiction|]. inversion S as [|? ? S' F]; subst. destruct Hx as [<-|Hx]; [|now apply IH].
  rewrite Forall_forall in F. apply F. apply in_or_app. auto.
Qed.
Lemma next_cmp vs (l : list nat) i j i' j' : StronglySorted (fun a b => height vs a < height vs b)%R l -> next_in l i j -> next_in l i' j' ->
  (i = i' /\ j = j') \/ (height vs j <= height vs i')%R \/ (height vs j' <= height vs i)%R.
Proof.
  intros S (p & q & E) (p' & q' & E'). rewrite E in E'. symmetry in E'. apply eq_sym in E'. apply app_split in E' as [(b2 & -> & EP)|(a1 & -> & EA)].
  - right. right. destruct b2 as [|x b2]; injection EP as -> EP; [lra|]. left.
    apply (sorted_app (fun a b => height vs a < height vs b)%R (p' ++ i' :: x :: b2) (i :: j :: q)); [now rewrite <- E| |now left]. apply in_or_app. right. right. now left.
  - destruct a1 as [|x [|y a1]].
    + injection EA as -> -> ->. auto.
    + injection EA as -> -> ->. right. left. lra.
    + injection EA as -> -> ->. right. left. left. rewrite E in S. 
      apply (sorted_app (fun a b => height vs a < height vs b)%R (p ++ [x; y]) (a1 ++ i' :: j' :: q')); [rewrite <- app_assoc; exact S|apply in_or_app; right; right; now left|apply in_or_app; right; now left].
Qed.
(** The x of an edge at a height *)
Lemma chord_on (p q : vec2 R) y : (vy p < vy q)%R -> (vy p <= y <= vy q)%R ->
  (exists t, (0 <= t <= 1)%R /\ pt p q t = V2 (chord_x p q y) y) /\ chord_x q p y = chord_x p q y.
Proof.
  intros U B. split.
  - exists ((y - vy p) / (vy q - vy p))%R. split.
    + split; [apply Rmult_le_reg_r with (vy q - vy p)%R|apply Rmult_le_reg_r with (vy q - vy p)%R]; try lra; unfold Rdiv; rewrite Rmult_assoc, Rinv_l by lra; lra.
    + unfold pt, chord_x. rops. f_equal; field; lra.
  - unfold chord_x. rops. field. lra.
Qed.
Lemma chord_end (p q : vec2 R) : (vy p < vy q)%R -> chord_x p q (vy q) = vx q.
Proof. intros U. unfold chord_x. rops. field. lra. Qed.
Lemma uplink_x vs fwd i j p q y : uplink vs fwd i j p q -> (vy p < y <= vy q)%R -> x_on vs fwd i j y (chord_x p q y).
Proof.
  intros (P1 & P2 & LK & U) B. unfold x_on. rewrite (placed_height _ _ _ P2). rops. destruct (Reqb (vy q) y) eqn:E.
  - apply Reqb_true in E. subst y. destruct P2 as (v & V & <-). exists v. split; auto. now apply chord_end.
  - apply Reqb_false in E. destruct fwd.
    + destruct LK as (v & w & V & _ & _ & _ & G & _). destruct P1 as (v' & V' & <-). rewrite V in V'. injection V' as <-. exists v, (SLine q). csplit; auto.
    + destruct LK as (v & w & V & _ & _ & _ & G & _). destruct P2 as (v' & V' & <-). rewrite V in V'. injection V' as <-. exists v, (SLine p). csplit; auto.
      cbn [seg_curr_x]. f_equal. apply (chord_on p (v_pt v) y); lra.
Qed.
