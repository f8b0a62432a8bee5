(** The sides of listed contours and the rings they become. *)
From Coq Require Import ZArith Bool List Lia Reals Lra Sorted Permutation.
From Verif Require Import Outcome Num Order Rmath Segment Path PathSpec PathProofs RTac VState VPath VBreak VLemmas AelSpec VAel VOut VMain SortProofs
  RingSpec MarkProofs MarkSpec BreakSpec VRing VBuild VAdd VBroken TraceR LineSpec LineR BreakStatements BreakDrawn BreakLines LensR ListSpec Listing ListCount ListBreak.
Import ListNotations.
Local Open Scope out.

Notation listed := (path_type * list (vec2 R))%type.
Definition segs_of (l : list (vec2 R)) : list (seg R) := match l with p :: q :: r => map SLine ((q :: r) ++ [p]) | _ => [] end.
Definition item (c : listed) : path_type * list (seg R) := (fst c, segs_of (snd c)).
Definition kept (c : listed) : bool := accepted (segs_of (snd c)).

Lemma polygon_lines (o : outline (T := R)) : polygon o -> snd o = map PLine (map endpoint (snd o)).
Proof.
  intros (_ & F). induction F as [|c l H F IH]; [reflexivity|]. cbn [map]. rewrite <- IH. destruct c; try contradiction. reflexivity.
Qed.
Lemma corner_segs (o : outline (T := R)) : polygon o -> NoDup (fst o :: map endpoint (snd o)) -> outline_segs o = segs_of (fst o :: map endpoint (snd o)).
Proof.
  intros P ND. rewrite (surjective_pairing o) at 1. rewrite (polygon_lines o P) at 1. destruct (map endpoint (snd o)) as [|q r]; [reflexivity|]. now apply lines_segs.
Qed.
Lemma nodup_part {A B} (f : A -> list B) l x : NoDup (flat_map f l) -> In x l -> NoDup (f x).
Proof.
  induction l as [|y l IH]; [contradiction|]. cbn. intros ND H. assert (K : NoDup (f y) /\ NoDup (flat_map f l)).
  { clear IH H. induction (f y) as [|b m IHm]; cbn in ND; [split; [constructor|exact ND]|]. inversion ND as [|? ? NI ND']; subst. destruct (IHm ND') as (A1 & A2).
    split; auto. constructor; auto. intros K. apply NI. apply in_or_app. auto. }
  destruct H as [<-|H]; [apply K|]. apply IH; tauto.
Qed.
Lemma contour_in ps (c : listed) : In c (listing ps) <-> exists x o, In x ps /\ In o (concat (snd x)) /\ c = (fst x, fst o :: map endpoint (snd o)).
Proof.
  unfold listing. rewrite in_flat_map. split.
  - intros (x & X & H). apply in_map_iff in H as (o & <- & O). eauto.
  - intros (x & o & X & O & ->). exists x. split; auto. now apply (in_map (fun o => (fst x, fst o :: map endpoint (snd o)))).
Qed.
Lemma contour_items ps : Forall polygon (all_outlines ps) -> distinct_corners (listing ps) ->
  flat_map (fun x => items (fst x) (concat (snd x))) ps = map item (listing ps).
Proof.
  intros P ND. assert (H : forall x o, In x ps -> In o (concat (snd x)) -> outline_segs o = segs_of (fst o :: map endpoint (snd o))).
  { intros x o X O. apply corner_segs.
    - rewrite Forall_forall in P. apply P. unfold all_outlines. apply in_flat_map. eauto.
    - apply (nodup_part snd (listing ps) (fst x, fst o :: map endpoint (snd o)) ND). apply contour_in. eauto. }
  unfold listing. clear P ND. induction ps as [|x ps IH]; [reflexivity|]. cbn [flat_map]. rewrite map_app, IH by (intros; eapply H; eauto; now right). f_equal.
  unfold items, item. rewrite map_map. apply map_ext_in. intros o O. cbn [fst snd]. f_equal. apply (H x o); auto. now left.
Qed.

(** *** Another corner first *)
Lemma segs_turn a b : a <> [] -> b <> [] -> exists x y, segs_of (a ++ b) = map SLine (x ++ y) /\ segs_of (b ++ a) = map SLine (y ++ x) /\ length x = length a.
Proof.
  destruct a as [|p a], b as [|q b]; try congruence. intros _ _. exists (a ++ [q]), (b ++ [p]).
  assert (K : forall p a q b, segs_of ((p :: a) ++ q :: b) = map SLine ((a ++ [q]) ++ b ++ [p])).
  { intros p' [|a0 a'] q' b'; cbn; rewrite ?map_app; cbn; rewrite ?map_app, <- ?app_assoc; reflexivity. }
  rewrite !K. csplit; auto. rewrite app_length. cbn. lia.
Qed.
Lemma all_level (l : list (vec2 R)) h : forall p, vy p = h -> Forall (fun q => vy q = h) l -> levels p l = true.
Proof.
  intros p P F. revert p P. induction F as [|q l Q F IH]; intros p P; [reflexivity|]. cbn. rewrite (IH q Q), andb_true_r. apply Reqb_true. congruence.
Qed.
Lemma lines_accepted_iff (l : list (vec2 R)) : accepted (map SLine l) = true <-> (2 <= length l)%nat /\ exists a b, In a l /\ In b l /\ vy a <> vy b.
Proof.
  split.
  - intros H. unfold accepted in H. rewrite map_length in H. apply andb_prop in H as (L & LV). apply Nat.leb_le in L. split; auto. apply negb_true_iff in LV.
    destruct l as [|p l]; [discriminate|]. destruct (Forall_Exists_dec (fun q => vy q = vy p) (fun q => Req_EM_T (vy q) (vy p)) (p :: l)) as [F|E].
    + exfalso. unfold level in LV. rewrite map_map in LV. cbn [seg_target] in LV. rewrite map_id in LV. rewrite (all_level _ (vy p)) in LV; auto; [discriminate|].
      rewrite Forall_forall in F. apply F. apply LensR.last_in.
    + apply Exists_exists in E as (q & Q & NE). exists q, p. csplit; auto. now left.
  - intros (L & a & b & A & B & NE). exact (lines_accepted l a b L A B NE).
Qed.
Lemma accepted_turn a b : accepted (segs_of (b ++ a)) = accepted (segs_of (a ++ b)).
Proof.
  destruct a as [|p a]; [now rewrite app_nil_r|]. destruct b as [|q b]; [now rewrite app_nil_r|].
  destruct (segs_turn (p :: a) (q :: b)) as (x & y & E1 & E2 & _); try discriminate. rewrite E1, E2. apply eq_true_iff_eq. rewrite !lines_accepted_iff, !app_length.
  split; intros (L & u & v & U & V & NE); (split; [lia|]); exists u, v; rewrite !in_app_iff in *; tauto.
Qed.
Lemma kept_turn c c' : restarted (snd c) (snd c') -> kept c' = kept c.
Proof. intros (a & b & E & E'). unfold kept. rewrite E, E'. apply accepted_turn. Qed.
Definition alike (c c' : listed) : Prop := fst c = fst c' /\ restarted (snd c) (snd c').
Lemma kept_alike m cs : Forall2 alike m cs -> Forall2 alike (filter kept m) (filter kept cs).
Proof.
  induction 1 as [|c c' m cs H F IH]; [constructor|]. cbn [filter]. rewrite (kept_turn c c') by apply H. destruct (kept c); auto.
Qed.
Lemma alike_perm m cs : Forall2 alike m cs -> Permutation (flat_map snd m) (flat_map snd cs).
Proof.
  induction 1 as [|c c' m cs (_ & a & b & E & E') F IH]; [constructor|]. cbn [flat_map]. apply Permutation_app; auto. rewrite E, E'. apply Permutation_app_comm.
Qed.
Lemma same_corners (cs cs' : list listed) : same_contours cs cs' -> Permutation (flat_map snd cs) (flat_map snd cs').
Proof. intros (m & P & F). etransitivity; [apply Permutation_flat_map; exact P|]. now apply alike_perm. Qed.

(** *** Rings *)
Section Rings.
  Variable vs : list (vertex R).
  Lemma kept_long c : kept c = true -> exists p q r, snd c = p :: q :: r.
  Proof. unfold kept, segs_of. destruct (snd c) as [|p [|q r]]; try discriminate. eauto. Qed.
  Lemma ring_corners l p q r : ring vs l (segs_of (p :: q :: r)) -> Forall2 (placed vs) l (p :: q :: r).
  Proof.
    destruct l as [|f ids]; [contradiction|]. intros (_ & S). change (segs_of (p :: q :: r)) with (map SLine ((q :: r) ++ [p])) in S.
    apply strand_placed in S. apply Forall2_app_inv_l in S as (u & v & F1 & F2 & E). inversion F2 as [|? w ? v' P F3]; subst. inversion F3; subst.
    apply app_inj_tail in E as (<- & <-). constructor; auto.
  Qed.
  Lemma strand_sides l : forall i p ps, strand vs i l (map SLine ps) -> placed vs i p -> forall j, In j (removelast (i :: l)) ->
    exists v b, nth_error vs j = Some v /\ v_seg v = Some (SLine b) /\ In (v_pt v, b) (combine (p :: ps) ps).
  Proof.
    induction l as [|k l IH]; intros i p [|b ps] S P j Hj; cbn in S; try contradiction. destruct S as ((v & w & V & W & _ & _ & G & Tg) & S).
    change (removelast (i :: k :: l)) with (i :: removelast (k :: l)) in Hj. destruct P as (v1 & V1 & P). rewrite V in V1. injection V1 as <-. destruct Hj as [<-|Hj].
    - exists v, b. csplit; auto. left. now rewrite P.
    - destruct (IH k b ps S) with (j := j) as (v2 & c & K1 & K2 & K3); auto; [exists w; auto|]. exists v2, c. csplit; auto. now right.
  Qed.
  Lemma combine_extra {A B} (l : list A) : forall (m : list B) x, length l = length m -> combine (l ++ x) m = combine l m.
  Proof. induction l as [|a l IH]; intros [|b m] x E; cbn in *; try discriminate; [now destruct x|]. f_equal. apply IH. lia. Qed.
  Lemma ring_sides l p q r j : ring vs l (segs_of (p :: q :: r)) -> In j l ->
    exists v b, nth_error vs j = Some v /\ v_seg v = Some (SLine b) /\ In (v_pt v, b) (sides (p :: q :: r)).
  Proof.
    intros RG Hj. pose proof (ring_corners _ _ _ _ RG) as F. destruct l as [|f ids]; [contradiction|]. inversion F as [|? ? ? ? P _]; subst. destruct RG as (_ & S).
    change (segs_of (p :: q :: r)) with (map SLine ((q :: r) ++ [p])) in S. destruct (strand_sides _ _ _ _ S P j) as (v & b & V & G & H).
    - change (f :: ids ++ [f]) with ((f :: ids) ++ [f]). now rewrite removelast_last.
    - exists v, b. csplit; auto. change (p :: (q :: r) ++ [p]) with ((p :: q :: r) ++ [p]) in H. rewrite combine_extra in H; [exact H|]. cbn. rewrite app_length. cbn. lia.
  Qed.
  Variable cs : list (@contour R).
  Variable ks : list listed.
  Hypothesis KS : Forall (fun k => kept k = true) ks.
  Hypothesis OK : Forall (contour_ok vs) cs.
  Hypothesis EQ : map (fun c => (c_type c, c_segs c)) cs = map item ks.
  Lemma all_corners : Forall2 (placed vs) (all_verts cs) (flat_map snd ks).
  Proof.
    revert ks KS EQ OK. induction cs as [|c cs' IH]; intros [|k ks'] KS' EQ' OK'; try discriminate; [constructor|]. cbn in EQ'. injection EQ' as E1 E2 E3.
    inversion KS' as [|? ? K1 K2]; inversion OK' as [|? ? O1 O2]; subst. unfold all_verts. cbn [flat_map]. apply Forall2_app; [|apply IH; auto].
    destruct (ok_ring c vs O1) as (RG & _). rewrite E2 in RG. destruct (kept_long k K1) as (p & q & r & E). rewrite E in *. now apply ring_corners.
  Qed.
  Lemma all_their_sides i : In i (all_verts cs) -> exists v b, nth_error vs i = Some v /\ v_seg v = Some (SLine b) /\ In (v_pt v, b) (all_sides ks).
  Proof.
    revert ks KS EQ OK. induction cs as [|c cs' IH]; intros [|k ks'] KS' EQ' OK' Hi; try discriminate; [contradiction|]. cbn in EQ'. injection EQ' as E1 E2 E3.
    inversion KS' as [|? ? K1 K2]; inversion OK' as [|? ? O1 O2]; subst. unfold all_verts in Hi. cbn [flat_map] in Hi. unfold all_sides. cbn [flat_map]. apply in_app_or in Hi as [Hi|Hi].
    - destruct (ok_ring c vs O1) as (RG & _). rewrite E2 in RG. destruct (kept_long k K1) as (p & q & r & E). rewrite E in *.
      destruct (ring_sides _ _ _ _ i RG Hi) as (v & b & V & G & H). exists v, b. csplit; auto. apply in_or_app. auto.
    - destruct (IH ks' K2 E3 O2 Hi) as (v & b & V & G & H). exists v, b. csplit; auto. apply in_or_app. auto.
  Qed.
  Hypothesis ND : NoDup (flat_map snd ks).
  Lemma one_place i j v w : In i (all_verts cs) -> In j (all_verts cs) -> nth_error vs i = Some v -> nth_error vs j = Some w -> v_pt v = v_pt w -> i = j.
  Proof.
    pose proof all_corners as F. revert F ND. generalize (all_verts cs) (flat_map snd ks). intros l ps F. induction F as [|a p l ps P F IH]; intros ND' Hi Hj V W E; [contradiction|].
    inversion ND' as [|? ? NI ND2]; subst. assert (Z : forall k x, In k l -> nth_error vs k = Some x -> In (v_pt x) ps).
    { intros k x Hk X. revert Hk. clear -F X. induction F as [|b q l ps (y & Y & <-) F IH]; [contradiction|]. intros [<-|H]; [left; congruence|right; auto]. }
    destruct P as (x & X & <-). destruct Hi as [<-|Hi], Hj as [<-|Hj]; auto.
    - exfalso. apply NI. replace (v_pt x) with (v_pt w) by congruence. eauto.
    - exfalso. apply NI. replace (v_pt x) with (v_pt v) by congruence. eauto.
  Qed.
  Lemma rings_apart : no_overlap ks -> apart vs (all_verts cs).
  Proof.
    intros NO i j v w q r t u Hi Hj NE V G W H PL T U E. destruct (all_their_sides i Hi) as (v1 & b & V1 & G1 & S1). destruct (all_their_sides j Hj) as (v2 & c & V2 & G2 & S2).
    rewrite V in V1. injection V1 as <-. rewrite W in V2. injection V2 as <-. rewrite G in G1. injection G1 as <-. rewrite H in G2. injection G2 as <-.
    apply (NO _ _ _ _ t u S1 S2); auto. intros K. apply NE. eapply one_place; eauto.
  Qed.
End Rings.

(** *** Matching the rings *)
Lemma match_rings (s s' : clipper R) ks ks' : Forall2 alike ks ks' -> Forall (fun k => kept k = true) ks -> forall cs cs',
  map (fun c => (c_type c, c_segs c)) cs = map item ks -> map (fun c => (c_type c, c_segs c)) cs' = map item ks' ->
  Forall (contour_ok (verts s)) cs -> Forall (contour_ok (verts s')) cs' ->
  exists ts, side1 ts = cs /\ side2 ts = cs' /\ Forall (matched s s') ts.
Proof.
  induction 1 as [|k k' ks ks' A F IH]; intros KP [|c cs] [|c' cs'] E E' OK OK'; try discriminate; [exists []; csplit; auto|].
  cbn in E, E'. injection E as E1 E2 E3. injection E' as E1' E2' E3'. inversion KP as [|? ? K1 K2]; inversion OK as [|? ? O1 O2]; inversion OK' as [|? ? O1' O2']; subst.
  destruct (IH K2 cs cs' E3 E3' O2 O2') as (ts & S1 & S2 & M). destruct A as (TY & a & b & EA & EB).
  destruct (ok_ring c _ O1) as (RG & L & _).
  assert (X : exists x y, c_verts c = x ++ y /\ ring (verts s) (y ++ x) (c_segs c')).
  { rewrite E2' in *. rewrite E2 in RG. rewrite EA in RG. rewrite EB. destruct a as [|p a]; [|destruct b as [|q b]].
    - exists [], (c_verts c). rewrite !app_nil_r. auto.
    - exists [], (c_verts c). rewrite !app_nil_r in *. auto.
    - destruct (segs_turn (p :: a) (q :: b)) as (x & y & X1 & X2 & XL); try discriminate. rewrite X1 in RG. rewrite X2.
      pose proof (ring_len _ _ _ RG) as LL. rewrite map_length, app_length in LL. rewrite <- (firstn_skipn (length x) (c_verts c)) in RG.
      assert (LY : length y = length (q :: b)).
      { apply (f_equal (@length _)) in X1. rewrite map_length, app_length, XL in X1. cbn [segs_of app] in X1. destruct a; cbn in X1; rewrite ?map_length, ?app_length in X1; cbn in *; lia. }
      destruct (ring_rot _ _ _ _ RG) as (g1 & g2 & EG & LG & RG').
      { intros K. apply (f_equal (@length nat)) in K. rewrite skipn_length in K. cbn in *. lia. }
      exists (firstn (length x) (c_verts c)), (skipn (length x) (c_verts c)). split; [now rewrite firstn_skipn|].
      rewrite map_app in EG. rewrite firstn_length_le in LG by lia.
      assert (Q : map SLine x = g1 /\ map SLine y = g2).
      { rewrite <- (map_length SLine x) in LG. revert EG LG. generalize (map SLine x) (map SLine y). clear. intros u v. revert g1. induction u as [|h u IH]; intros [|h' g1] E L; cbn in *; try discriminate; auto.
        injection E as -> E. destruct (IH g1 E) as (-> & ->); auto. }
      destruct Q as (<- & <-). rewrite map_app. exact RG'. }
  destruct X as (x & y & EV & RG'). exists ((c, y ++ x, c') :: ts). unfold side1, side2 in *. cbn [map fst snd]. rewrite S1, S2. csplit; auto. constructor; auto.
  split; [congruence|]. split; [eauto|]. auto.
Qed.

(** *** How many vertices *)
Lemma polygon_steps (o : outline (T := R)) : polygon o -> NoDup (fst o :: map endpoint (snd o)) -> distinct_steps o.
Proof.
  intros P ND. unfold distinct_steps. rewrite (polygon_lines o P). revert ND. generalize (fst o) as p. generalize (map endpoint (snd o)) as l.
  induction l as [|q l IH]; intros p ND; [split; constructor|]. inversion ND as [|? ? NI ND']; subst. destruct (IH q ND') as (F & O). cbn [map events_of]. split; constructor; auto; [exact I|].
  cbn [takes]. replace (vneqb p q) with true; [reflexivity|]. symmetry. unfold vneqb. apply negb_true_iff, veqb_R_false. intros ->. apply NI. now left.
Qed.
Lemma corners_length (k : path_type) (os : list (outline (T := R))) : total (map corners os) = length (flat_map snd (map (fun o => (k, fst o :: map endpoint (snd o))) os)).
Proof.
  induction os as [|o os IH]; [reflexivity|]. cbn [map flat_map fst snd]. rewrite app_length. cbn [length total fold_right]. rewrite map_length. unfold total in IH. rewrite IH. reflexivity.
Qed.
Lemma contours_length (ps : list (path_type * list (list (outline (T := R))))) : total (map corners (all_outlines ps)) = length (flat_map snd (listing ps)).
Proof.
  induction ps as [|x ps IH]; [reflexivity|]. unfold all_outlines, listing in *. cbn [flat_map]. rewrite map_app, total_app, flat_map_app, app_length, IH. f_equal. apply corners_length.
Qed.
Lemma drawn_length ps (s : clipper R) : Forall polygon (all_outlines ps) -> distinct_corners (listing ps) -> add_all clipper0 ps = Ok s ->
  length (verts s) = length (flat_map snd (listing ps)).
Proof.
  intros P ND E. apply add_all_length in E; [rewrite E, contours_length; reflexivity|]. rewrite Forall_forall in *. intros o O. apply polygon_steps; auto.
  unfold all_outlines in O. apply in_flat_map in O as (x & X & O). apply (nodup_part snd (listing ps) (fst x, fst o :: map endpoint (snd o)) ND). apply contour_in. eauto.
Qed.
