(** The breaks of axis-parallel polygons depend on the order of the coordinates only. *)
From Coq Require Import ZArith Bool List Reals Lra Lia Sorted Permutation.
From Verif Require Import Outcome Num Order Rmath Segment Path PathSpec RTac RectSpec RectProofs ScanLine ScanProofs VState VPath VBreak VLemmas AelSpec
  SortProofs RingSpec BezierSpec BreakSpec VRing VBuild VAdd VCut VBroken TraceR LineSpec LineR BreakStatements BreakLines EquiSpec EquiMap EquiLoad.
Import ListNotations.
Local Open Scope out.

(** *** Lists without repetition in a given order *)
Lemma sorted_unique {A} (P : A -> A -> Prop) : (forall a, ~ P a a) -> (forall a b, P a b -> P b a -> False) -> forall l m, StronglySorted P l -> StronglySorted P m ->
  (forall x, In x l <-> In x m) -> l = m.
Proof.
  intros IR AS. induction l as [|a l IH]; intros [|b m] SL SM H; auto.
  - destruct (proj2 (H b) (or_introl eq_refl)).
  - destruct (proj1 (H a) (or_introl eq_refl)).
  - inversion SL as [|? ? S1 F1]; inversion SM as [|? ? S2 F2]; subst. rewrite Forall_forall in F1, F2.
    assert (E : a = b).
    { destruct (proj1 (H a) (or_introl eq_refl)) as [|K]; auto. destruct (proj2 (H b) (or_introl eq_refl)) as [|K']; auto. exfalso. eauto. }
    subst b. f_equal. apply IH; auto. intros x. split; intros X.
    + destruct (proj1 (H x) (or_intror X)) as [<-|]; auto. exfalso. eapply IR; eauto.
    + destruct (proj2 (H x) (or_intror X)) as [<-|]; auto. exfalso. eapply IR; eauto.
Qed.

Lemma edge_at_fun {T} (vs : list (vertex T)) i p q p' q' : edge_at vs i p q -> edge_at vs i p' q' -> p = p' /\ q = q'.
Proof. intros (v & V & <- & S) (v' & V' & <- & S'). rewrite V in V'. injection V' as <-. rewrite S in S'. injection S' as <-. auto. Qed.

(** *** Images *)
Section Image.
  Context {T1 T2 : Type} {N1 : Num T1} {N2 : Num T2}.
  Variables fx fy : T1 -> T2.
  Hypothesis F : maps (N1 := N1) (N2 := N2) fx fy.
  Notation fp := (fp fx fy).
  Notation fvert := (fvert fx fy).

  Lemma sbetween_fx c a b : sbetween (fx c) (fx a) (fx b) = sbetween c a b.
  Proof. unfold sbetween. now rewrite !(fx_lt fx fy F). Qed.
  Lemma sbetween_fy c a b : sbetween (fy c) (fy a) (fy b) = sbetween c a b.
  Proof. unfold sbetween. now rewrite !(fy_lt fx fy F). Qed.
  Lemma wbetween_fx c a b : wbetween (fx c) (fx a) (fx b) = wbetween c a b.
  Proof. unfold wbetween. now rewrite !(fx_lt fx fy F). Qed.
  Lemma wbetween_fy c a b : wbetween (fy c) (fy a) (fy b) = wbetween c a b.
  Proof. unfold wbetween. now rewrite !(fy_lt fx fy F). Qed.
  Lemma meet_image p q u r P : meet (fp p) (fp q) (fp u) (fp r) P <-> exists P', P = fp P' /\ meet p q u r P'.
  Proof.
    unfold meet. cbn [EquiMap.fp vx vy]. rewrite !(fx_eq fx fy F), !(fy_eq fx fy F), sbetween_fx, sbetween_fy, wbetween_fx, wbetween_fy. split.
    - intros [(A & B & -> & C & D)|(A & B & -> & C & D)]; [exists (V2 (vx p) (vy u))|exists (V2 (vx u) (vy p))]; split; auto; tauto.
    - intros (P' & -> & [(A & B & -> & C & D)|(A & B & -> & C & D)]); tauto.
  Qed.
  Lemma along_image p q P Q : along (fp p) (fp q) (fp P) (fp Q) = along p q P Q.
  Proof. unfold along. cbn. now rewrite !(fx_eq fx fy F), !(fx_lt fx fy F), !(fy_lt fx fy F). Qed.
  Lemma edge_at_image vs i p q : edge_at (map fvert vs) i p q <-> exists p' q', p = fp p' /\ q = fp q' /\ edge_at vs i p' q'.
  Proof.
    unfold edge_at. rewrite nth_error_map. split.
    - intros (v & V & <- & S). destruct (nth_error vs i) as [w|]; [|discriminate]. cbn in V. injection V as <-. cbn in S.
      destruct (v_seg w) as [[t|t|t ? ?|? ? t]|] eqn:E; try discriminate. cbn in S. injection S as <-. exists (v_pt w), t. eauto 6.
    - intros (p' & q' & -> & -> & v & -> & <- & S). exists (fvert v). cbn. rewrite S. auto.
  Qed.
  Definition fplace (b : nat * vec2 T1) : nat * vec2 T2 := (fst b, fp (snd b)).
  Lemma listing_image addr vs ids l : listing addr vs ids l -> listing addr (map fvert vs) ids (map fplace l).
  Proof.
    intros (S & H). split.
    - clear H. induction S as [|a l S IH FA]; cbn; constructor; auto. rewrite Forall_forall in *. intros y Y. apply in_map_iff in Y as (b & <- & Y).
      destruct (FA b Y) as [K|(K & p & q & E & L)]; [left; auto|right]. split; auto. exists (fp p), (fp q). cbn. rewrite along_image. split; auto.
      apply edge_at_image. eauto 6.
    - intros i P. rewrite in_map_iff. split.
      + intros ((i' & P') & E & I). injection E as <- <-. apply H in I as (p & q & j & u & r & A & B & C & D & E & M). cbn in *.
        exists (fp p), (fp q), j, (fp u), (fp r). repeat split; auto; try (apply edge_at_image; eauto 6). apply meet_image. eauto.
      + intros (p & q & j & u & r & A & B & C & D & E & M). apply edge_at_image in D as (p' & q' & -> & -> & D). apply edge_at_image in E as (u' & r' & -> & -> & E).
        apply meet_image in M as (P' & -> & M). exists (i, P'). split; auto. apply H. exists p', q', j, u', r'. auto 8.
  Qed.
End Image.

(** *** Over the reals *)
Lemma sbetween_R c a b : sbetween (N := R_num) c a b = true <-> (a < c < b \/ b < c < a)%R.
Proof. unfold sbetween. rops. rewrite orb_true_iff, !andb_true_iff, !Rltb_true. tauto. Qed.
Lemma wbetween_R c a b : wbetween (N := R_num) c a b = true <-> (a <= c <= b \/ b <= c <= a)%R.
Proof. unfold wbetween. rops. rewrite orb_true_iff, !andb_true_iff, !negb_true_iff, !Rltb_false. lra. Qed.
Lemma pt_inside t a b : (0 < t < 1)%R -> a <> b -> (a < a + t * (b - a) < b \/ b < a + t * (b - a) < a)%R.
Proof. intros H N. destruct (Rlt_dec a b); [left|right]; nra. Qed.
Lemma pt_between t a b : (0 <= t <= 1)%R -> (a <= a + t * (b - a) <= b \/ b <= a + t * (b - a) <= a)%R.
Proof. intros H. destruct (Rle_dec a b); [left|right]; nra. Qed.
Lemma meets_meet (p q u r P : vec2 R) t t' : p <> q -> u <> r -> (vx p = vx q \/ vy p = vy q) -> (vx u = vx r \/ vy u = vy r) ->
  ~ (vx p = vx q /\ vx u = vx r /\ vx p = vx u) -> ~ (vy p = vy q /\ vy u = vy r /\ vy p = vy u) ->
  P = pt p q t -> P = pt u r t' -> (0 < t < 1)%R -> (0 <= t' <= 1)%R -> meet p q u r P.
Proof.
  intros NE NE' AX AX' G1 G2 E1 E2 H H'. destruct p as [px py], q as [qx qy], u as [ux uy], r as [rx ry]. unfold pt in *. cbn [vx vy] in *.
  rewrite E1 in E2. injection E2 as Ex Ey. subst P. unfold meet. cbn [vx vy]. rops. rewrite !Reqb_true, !sbetween_R, !wbetween_R.
  destruct (Req_dec px qx) as [V|V].
  - assert (py <> qy) by congruence. assert (W : uy = ry).
    { destruct AX' as [W|]; auto. exfalso. apply G1. subst. split; auto. split; auto. lra. }
    left. subst qx ry. replace uy with (py + t * (qy - py))%R by lra. repeat split; auto.
    + f_equal; lra.
    + apply pt_inside; auto.
    + replace px with (ux + t' * (rx - ux))%R by lra. apply pt_between; auto.
  - destruct AX as [|W]; [contradiction|]. assert (W' : ux = rx).
    { destruct AX' as [|W']; auto. exfalso. apply G2. subst. split; auto. split; auto. lra. }
    right. subst qy rx. replace ux with (px + t * (qx - px))%R by lra. repeat split; auto.
    + f_equal; lra.
    + apply pt_inside; auto.
    + replace py with (uy + t' * (ry - uy))%R by lra. apply pt_between; auto.
Qed.
Lemma sb_param c a b : (a < c < b \/ b < c < a)%R -> exists t, (0 < t < 1)%R /\ c = (a + t * (b - a))%R.
Proof.
  intros H. exists ((c - a) / (b - a))%R. split; [|field; lra]. destruct H.
  - split; [apply Rdiv_lt_0_compat; lra|apply (Rmult_lt_reg_r (b - a)); [lra|]; unfold Rdiv; rewrite Rmult_assoc, Rinv_l; lra].
  - replace ((c - a) / (b - a))%R with ((a - c) / (a - b))%R by (field; lra).
    split; [apply Rdiv_lt_0_compat; lra|apply (Rmult_lt_reg_r (a - b)); [lra|]; unfold Rdiv; rewrite Rmult_assoc, Rinv_l; lra].
Qed.
Lemma wb_param c a b : (a <= c <= b \/ b <= c <= a)%R -> exists t, (0 <= t <= 1)%R /\ c = (a + t * (b - a))%R.
Proof.
  intros H. destruct (Req_dec c a) as [->|N]; [exists 0%R; lra|]. destruct (Req_dec c b) as [->|N']; [exists 1%R; lra|].
  destruct (sb_param c a b) as (t & K & E); [lra|]. exists t. lra.
Qed.
Lemma meet_meets (p q u r P : vec2 R) : p <> q -> u <> r -> meet p q u r P ->
  exists t t', (0 < t < 1)%R /\ (0 <= t' <= 1)%R /\ P = pt p q t /\ P = pt u r t' /\ ~ parallel p q u r.
Proof.
  intros NE NE' M. destruct p as [px py], q as [qx qy], u as [ux uy], r as [rx ry]. unfold pt, meet, parallel in *. cbn [vx vy] in *.
  rops. rewrite !Reqb_true, !sbetween_R, !wbetween_R in M. destruct M as [(A & B & -> & S & W)|(A & B & -> & S & W)].
  - subst qx ry. apply sb_param in S as (t & Ht & E). apply wb_param in W as (t' & Ht' & E'). exists t, t'. repeat split; try lra.
    + f_equal; lra.
    + f_equal; lra.
    + assert (py <> qy) by congruence. assert (ux <> rx) by congruence. intros K. assert (K' : ((qy - py) * (rx - ux) = 0)%R) by lra.
      apply Rmult_integral in K' as []; lra.
  - subst qy rx. apply sb_param in S as (t & Ht & E). apply wb_param in W as (t' & Ht' & E'). exists t, t'. repeat split; try lra.
    + f_equal; lra.
    + f_equal; lra.
    + assert (px <> qx) by congruence. assert (uy <> ry) by congruence. intros K. assert (K' : ((qx - px) * (ry - uy) = 0)%R) by lra.
      apply Rmult_integral in K' as []; lra.
Qed.

Lemma run_pairs_from en (vs : list (vertex R)) vids l : forall bs, run_pairs en vs vids l = Ok bs -> forall b, In b bs ->
  exists a c i j x, In (a, c) l /\ nth_error vids a = Some i /\ nth_error vids c = Some j /\ seg_intersect en vs i j = Ok x /\ In b x.
Proof.
  induction l as [|(a & c) l IH]; intros bs E b Hb; cbn [run_pairs] in E.
  - injection E as <-. destruct Hb.
  - apply bind_ok in E as (i & A & E). apply bind_ok in E as (j & C & E). apply bind_ok in E as (x & X & E). apply bind_ok in E as (y & Y & E).
    injection E as <-. apply at_ok in A. apply at_ok in C. apply in_app_or in Hb as [Hb|Hb].
    + exists a, c, i, j, x. cbn. auto 6.
    + destruct (IH y Y b Hb) as (a' & c' & i' & j' & x' & K & K'). exists a', c', i', j', x'. cbn. auto.
Qed.

Lemma find_breaks_axis en (s : clipper R) ls : (forall l, Permutation (en_order en l) l) ->
  rings (verts s) ls -> starts s = map (hd 0) ls -> straight (verts s) ls ->
  axial (verts s) (concat ls) -> unaligned (verts s) (concat ls) -> spread (verts s) (concat ls) ->
  exists bs, find_breaks en (verts s) (starts s) = Ok bs /\ Forall (exact_break (verts s)) bs /\
    forall i P, In (i, P) (map place bs) <-> broken (verts s) (concat ls) i P.
Proof.
  intros PO RG SS ST AX UN SP. destruct (find_breaks_lines en s ls PO RG SS ST) as (bs & E & EX & CR). exists bs. csplit; auto. intros i P. split.
  - intros Hb. apply in_map_iff in Hb as (b & EB & Hb). injection EB as <- <-. revert E. unfold find_breaks.
    rewrite SS, all_rings_ok by (destruct RG as [R _]; eapply Forall_impl; [|exact R]; intros l (gs & H & _); eauto).
    cbn [bind]. destruct (vert_boxes_ok (verts s) (concat ls) ST) as (boxes & E & L & W & _). rewrite E. cbn [bind]. intros RP.
    pose proof (C20_lemma (en_order en) boxes PO W) as H. cbv zeta in H. destruct H as (_ & _ & C20).
    destruct (run_pairs_from _ _ _ _ _ RP b Hb) as (a & c & k & m & x & Hac & A & C & X & Bx).
    destruct (proj1 (C20 a c) (or_introl Hac)) as (NE & _).
    assert (NKM : k <> m). { intros <-. apply NE. destruct RG as (_ & ND). apply (proj1 (NoDup_nth_error _) ND); [eapply nth_lt; eauto|congruence]. }
    assert (Hk : In k (concat ls)) by (eapply nth_error_In; eauto). assert (Hm : In m (concat ls)) by (eapply nth_error_In; eauto).
    destruct (ST k Hk) as (v & q & V & G & N1 & F1 & F2). destruct (ST m Hm) as (w & r & Vw & H & N2 & F3 & F4).
    assert (OK : ends_ok (v_pt v) q (v_pt w) r) by (repeat split; auto; apply F1 || apply F2 || apply F3 || apply F4).
    assert (Ek : edge_at (verts s) k (v_pt v) q) by (exists v; auto). assert (Em : edge_at (verts s) m (v_pt w) r) by (exists w; auto).
    unfold seg_intersect in X. rewrite (proj2 (at_ok _ _ _) V), (proj2 (at_ok _ _ _) Vw) in X. cbn [bind] in X.
    rewrite G, H in X. cbn [bind of_opt] in X. apply bind_ok in X as (res & Er & X). injection X as <-.
    apply pair_in in Bx as (z & Hz & Bx). destruct (C16_sound_lemma _ _ _ _ _ OK Er z Hz) as (M1 & M2 & P1 & P2).
    destruct (UN k m _ _ _ _ Hk Hm NKM Ek Em) as (U1 & U2). pose proof (AX _ _ _ Hk Ek). pose proof (AX _ _ _ Hm Em).
    destruct Bx as [[T ->]|[T ->]]; cbn [br_vert br_pt]; apply inside_01 in T.
    + exists (v_pt v), q, m, (v_pt w), r. csplit; auto. eapply meets_meet; eauto.
    + exists (v_pt w), r, k, (v_pt v), q. csplit; auto. eapply meets_meet; eauto; intuition congruence.
  - intros BR. pose proof BR as (p & q & j & u & r & Hi & Hj & NE & Ei & Ej & M).
    destruct (ST i Hi) as (v & q' & V & G & N1 & _). destruct (edge_at_fun _ _ _ _ _ _ Ei (ex_intro _ v (conj V (conj eq_refl G)))) as (-> & ->).
    destruct (ST j Hj) as (w & r' & W & H & N2 & _). destruct (edge_at_fun _ _ _ _ _ _ Ej (ex_intro _ w (conj W (conj eq_refl H)))) as (-> & ->).
    destruct (meet_meets _ _ _ _ _ N1 N2 M) as (t & t' & Ht & Ht' & P1 & P2 & NP).
    pose proof (SP i P _ _ t BR Ei P1) as WI.
    destruct (CR i j t Hi Hj NE) as (b & Hb & Bv & Bt); auto.
    { exists v, q', w, r', t'. csplit; auto; try lra. congruence. }
    apply in_map_iff. exists b. split; auto. unfold place. rewrite Bv. f_equal.
    rewrite Forall_forall in EX. destruct (EX b Hb) as (_ & v2 & g2 & V2 & G2 & PB). rewrite Bv, V in V2. injection V2 as <-. rewrite G in G2. injection G2 as <-.
    rewrite PB, Bt, P1, pt_seg_at. reflexivity.
Qed.

Lemma before_irrefl en (vs : list (vertex R)) b : ~ before (en_addr en) vs b b.
Proof.
  intros [K|(_ & p & q & _ & K)]; [lia|]. unfold along in K. rops. destruct (Reqb _ _), (Rltb _ _); apply Rltb_true in K; lra.
Qed.
Lemma before_asym en (vs : list (vertex R)) b c : before (en_addr en) vs b c -> before (en_addr en) vs c b -> False.
Proof.
  intros [K|(Q & p & q & E & K)] [K'|(Q' & p' & q' & E' & K')]; try lia; try (rewrite Q in *; lia); try (rewrite Q' in *; lia).
  rewrite Q in E. destruct (edge_at_fun _ _ _ _ _ _ E E') as (<- & <-). unfold along in *. rops.
  destruct (Reqb _ _), (Rltb _ _); apply Rltb_true in K, K'; lra.
Qed.

(** The list of breaks made by the code is the listing. *)
Lemma tidy_listing en (s : clipper R) ls bs : (forall i j, en_addr en i = en_addr en j -> i = j) -> straight (verts s) ls -> axial (verts s) (concat ls) ->
  Forall (exact_break (verts s)) bs -> (forall i P, In (i, P) (map place bs) <-> broken (verts s) (concat ls) i P) ->
  listing (en_addr en) (verts s) (concat ls) (map place (tidy_breaks en bs)).
Proof.
  intros AI ST AX EX H. pose proof (tidy_sorted en AI (verts s) bs EX) as S.
  assert (IN : forall b, In b (tidy_breaks en bs) -> In b bs) by (intros b; apply tidy_in).
  split.
  - assert (BR : forall b, In b (tidy_breaks en bs) -> broken (verts s) (concat ls) (br_vert b) (br_pt b)).
    { intros b Hb. apply H. apply in_map_iff. exists b. auto. }
    rewrite Forall_forall in EX. revert S IN BR. generalize (tidy_breaks en bs) as m. induction 1 as [|b m S IH FB]; intros IN BR; cbn; constructor.
    + apply IH; intros; [apply IN|apply BR]; cbn; auto.
    + rewrite Forall_forall in *. intros y Y. apply in_map_iff in Y as (c & <- & Y). destruct (FB c Y) as [K|(K & L)]; [left; auto|]. right. split; auto.
      destruct (BR b) as (p & q & _ & _ & _ & Hi & _ & _ & Ei & _); [cbn; auto|]. exists p, q. split; auto. cbn [place snd].
      destruct (EX b) as (_ & v & g & V & G & PB); [apply IN; cbn; auto|]. destruct (EX c) as (_ & v' & g' & V' & G' & PC); [apply IN; cbn; auto|].
      rewrite <- K, V in V'. injection V' as <-. rewrite G in G'. injection G' as <-.
      pose proof Ei as (v' & V' & PP & G'). rewrite V in V'. injection V' as <-. rewrite G in G'. injection G' as ->. 
      destruct (ST _ Hi) as (v' & q' & V' & G' & NE & _). rewrite V in V'. injection V' as <-. rewrite G in G'. injection G' as <-.
      rewrite <- pt_seg_at, PP in *. rewrite PB, PC. unfold along, pt. cbn [vx vy]. rops. pose proof (AX _ _ _ Hi Ei) as A.
      destruct (Reqb (vx p) (vx q)) eqn:E1; rbool.
      * assert (vy p <> vy q) by (intros K2; apply NE; now apply vec_eq). destruct (Rltb (vy p) (vy q)) eqn:E2; rbool; apply Rltb_true; nra.
      * destruct A as [|A]; [contradiction|]. destruct (Rltb (vx p) (vx q)) eqn:E2; rbool; apply Rltb_true; nra.
  - intros i P. rewrite <- H, !in_map_iff. split; intros (b & E & Hb).
    + exists b. split; auto.
    + assert (IS : In b (sort_by (break_ltb en) bs)) by (apply (Permutation_in _ (sort_by_perm _ bs)); auto).
      destruct (fun X => unique_by_rep break_eqb (fun x => place x = (i, P)) (sort_by (break_ltb en) bs) b X IS E) as (z & Hz & E1).
      * intros x y Q Q1. unfold break_eqb in Q. apply andb_true_iff in Q as [Q _]. apply andb_true_iff in Q as [Q4 Q5].
        apply Nat.eqb_eq in Q4. apply veqb_R in Q5. unfold place in *. congruence.
      * exists z. split; auto.
Qed.
