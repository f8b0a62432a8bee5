(** The lines given and the pieces they are broken into. *)
From Coq Require Import ZArith Bool List Reals Lra Lia Permutation Sorted.
From Verif Require Import Outcome Num Order Rmath RTac RectSpec ScanLine VState VLemmas SortProofs LineSpec LineR.
From Verif Require Import Dcel DcelSpec DcelBase DcelBreak DcelFace DcelLink DcelSplit DcelUnique DcelProcess DcelR DcelLaySpec DcelKept.
Import ListNotations.
Local Open Scope out.

Implicit Types d : dcel R.
(** *** Calls *)
Definition unbroken d : Prop := forall e h, live d e h -> h_breaks h = [].
Lemma add_line_segs d x1 y1 x2 y2 d' : wf d -> d_edges d = seq 0 (length (d_halves d)) -> unbroken d -> add_line d x1 y1 x2 y2 = Ok d' ->
  wf d' /\ d_edges d' = seq 0 (length (d_halves d')) /\ unbroken d' /\ d_type d' = d_type d /\
  segs d' = segs d ++ lines_given (d_type d) [DLine x1 y1 x2 y2] /\
  (forall p, In p (map p_at (d_points d')) <-> In p (map p_at (d_points d)) \/ exists t a b, In (t, (a, b)) (lines_given (d_type d) [DLine x1 y1 x2 y2]) /\ (p = a \/ p = b)).
Proof.
  intros W SE UB. unfold add_line. cbn [lines_given]. unfold veqb. cbn [vx vy]. destruct (n_eqb x1 x2 && n_eqb y1 y2) eqn:EQ.
  { intros E; injection E as <-. rewrite app_nil_r. csplit; auto. intros p. split; auto. intros [K|(t & a & b & [] & _)]; auto. }
  destruct (find_or_add_point d x1 y1) as [d3 a] eqn:E1. destruct (find_or_add_point d3 x2 y2) as [d4 b] eqn:E2.
  destruct (find_or_add_wf _ _ _ _ _ W E1) as (W3 & A1 & A2 & A3 & A4 & A5 & A6 & _).
  destruct (find_or_add_wf _ _ _ _ _ W3 E2) as (W4 & B1 & B2 & B3 & B4 & B5 & B6 & _).
  pose proof (find_grow _ _ _ _ _ E1) as G1. pose proof (find_grow _ _ _ _ _ E2) as G2. pose proof (points_grow_len _ _ G2) as GL2.
  pose proof (find_coord _ _ _ _ _ E1) as C1. pose proof (find_coord _ _ _ _ _ E2) as C2. pose proof (points_grow_trans _ _ _ G1 G2) as G.
  intros Q. apply bind_ok in Q as ((d5 & e) & Q & X). injection X as <-.
  destruct (new_line_run d4 a b W4) as (x & R' & W5 & H1 & H2 & _ & _ & H0 & H3 & H4); [lia|auto|]. rewrite R' in Q. injection Q as <- _.
  assert (HL : d_halves d4 = d_halves d) by congruence. assert (TY : d_type d4 = d_type d) by congruence.
  csplit; auto.
  - rewrite H2, H1, HL, B3, A3, SE, app_length. cbn. now rewrite Nat.add_1_r, seq_S.
  - intros i h L. apply (live_snoc d4 x _ H1) in L as [L|(-> & ->)]; auto. unfold live in L. rewrite HL in L. exact (UB i h L).
  - congruence.
  - unfold segs. rewrite H2, B3, A3, map_app. cbn [map]. f_equal.
    + apply map_ext_in. intros i Hi. pose proof W as ((R1 & R2 & R3) & _). apply R2 in Hi as (h & L).
      assert (L4 : live d4 i h) by (unfold live; now rewrite HL). assert (Lx : live x i h) by (apply (live_snoc d4 x _ H1); auto).
      rewrite (seg_at_live _ _ _ L), (seg_at_live _ _ _ Lx). rewrite <- (grow_tseg d d4 i h W G L). unfold tseg. now rewrite !(coord_map d4 x H4).
    + f_equal. assert (Lx : live x (length (d_halves d4)) (Half a b None None None None (d_type d4) [])) by (apply (live_snoc d4 x _ H1); auto).
      rewrite (seg_at_live _ _ _ Lx). unfold tseg. cbn. rewrite !(coord_map d4 x H4), C2, TY. rewrite (grow_coord d3 d4) by auto. now rewrite C1.
  - intros p. rewrite H4.
    assert (F : forall (y y' : dcel R) u v i, find_or_add_point y u v = (y', i) -> wf y -> In p (map p_at (d_points y')) <-> In p (map p_at (d_points y)) \/ p = V2 u v).
    { intros y y' u v i E WY. unfold find_or_add_point in E. destruct (pset_find y (V2 u v) (d_pset y)) as [j|] eqn:PF; injection E as <- <-.
      - split; auto. intros [K| ->]; auto. pose proof (pset_find_at _ _ _ _ PF) as CJ. apply pset_find_in in PF. pose proof (all_bounded y (proj2 (proj2 WY))) as AB. rewrite Forall_forall in AB.
        destruct (nth_some _ _ (AB j PF)) as (z & Z). unfold coord in CJ. rewrite Z in CJ. rewrite <- CJ. apply in_map. eapply nth_error_In; eauto.
      - cbn. rewrite map_app, in_app_iff. cbn. split; [intros [K|[K|[]]]; auto|intros [K|K]; auto]. }
    rewrite (F d3 d4 x2 y2 b E2 W3), (F d d3 x1 y1 a E1 W). split.
    + intros [[K|K]|K]; auto; right; eexists; eexists; eexists; (split; [left; reflexivity|]); auto.
    + intros [K|(t & u & v & [K|[]] & D)]; auto. injection K as <- <- <-. destruct D; auto.
Qed.
Lemma calls_segs l : forall d d', wf d -> d_edges d = seq 0 (length (d_halves d)) -> unbroken d -> dcalls_run d l = Ok d' ->
  wf d' /\ d_edges d' = seq 0 (length (d_halves d')) /\ unbroken d' /\ d_type d' = type_after (d_type d) l /\
  segs d' = segs d ++ lines_given (d_type d) l /\
  (forall p, In p (map p_at (d_points d')) <-> In p (map p_at (d_points d)) \/ exists t a b, In (t, (a, b)) (lines_given (d_type d) l) /\ (p = a \/ p = b)).
Proof.
  induction l as [|c r IH]; intros d d' W SE UB H; cbn [dcalls_run] in H.
  - injection H as <-. cbn. rewrite app_nil_r. csplit; auto. intros p. split; auto. intros [K|(t & a & b & [] & _)]; auto.
  - apply bind_ok in H as (d1 & H1 & H). destruct c as [t|x1 y1 x2 y2]; cbn [dcall_run] in H1.
    + injection H1 as <-. exact (IH (set_current_path_type d t) d' W SE UB H).
    + destruct (add_line_segs d x1 y1 x2 y2 d1 W SE UB H1) as (W1 & S1 & U1 & T1 & G1 & P1).
      destruct (IH d1 d' W1 S1 U1 H) as (W2 & S2 & U2 & T2 & G2 & P2). rewrite T1 in T2, G2, P2. cbn [type_after]. csplit; auto.
      * rewrite G2, G1, <- app_assoc. f_equal. cbn [lines_given]. destruct (veqb (V2 x1 y1) (V2 x2 y2)); reflexivity.
      * intros p. rewrite P2, P1. cbn [lines_given]. destruct (veqb (V2 x1 y1) (V2 x2 y2)); split.
        -- intros [[K|(t & a & b & [] & _)]|K]; auto.
        -- intros [K|K]; auto.
        -- intros [[K|(t & a & b & [K|[]] & D)]|(t & a & b & K & D)]; auto; right; exists t, a, b; split; auto; [left|right]; auto.
        -- intros [K|(t & a & b & [K|K] & D)]; auto; [left; right; exists t, a, b; split; auto; now left|]. right. eauto 6.
Qed.

(** *** Pieces *)
Lemma flat_map_ext_in {A B} (f g : A -> list B) l : (forall x, In x l -> f x = g x) -> flat_map f l = flat_map g l.
Proof. induction l as [|a l IH]; cbn; intros H; auto. rewrite H by auto. now rewrite IH by auto. Qed.
Lemma filter_all {A} (f : A -> bool) l : (forall x, In x l -> f x = true) -> filter f l = l.
Proof. induction l as [|a l IH]; cbn; intros H; auto. rewrite H by auto. rewrite IH; auto. Qed.
Lemma filter_out (e : nat) l : NoDup l -> In e l -> Permutation l (e :: filter (fun i => negb (Nat.eqb i e)) l).
Proof.
  induction l as [|a l IH]; intros ND H; [destruct H|]. inversion ND; subst. cbn. destruct (Nat.eqb_spec a e) as [->|NE]; cbn.
  - constructor. rewrite filter_all; auto. intros x Hx. apply negb_true_iff, Nat.eqb_neq. intros ->. contradiction.
  - destruct H as [->|H]; [congruence|]. rewrite (IH H3 H) at 1. apply perm_swap.
Qed.
Lemma filter_filter {A} (f g : A -> bool) l : filter f (filter g l) = filter (fun x => g x && f x) l.
Proof. induction l as [|a l IH]; cbn; auto. destruct (g a); cbn; auto. destruct (f a); cbn; now rewrite ?IH. Qed.
Fixpoint steps {A} (a : A) (l : list A) : list (A * A) :=
  match l with [] => [] | b :: r => (a, b) :: steps b r end.
Lemma new_line_old d a b d' e : wf d -> a < length (d_points d) -> b < length (d_points d) -> new_line_edge d a b = Ok (d', e) ->
  e = length (d_halves d) /\ wf d' /\ d_halves d' = d_halves d ++ [Some (Half a b None None None None (d_type d) [])] /\ d_edges d' = d_edges d ++ [e] /\ d_type d' = d_type d /\
  map p_at (d_points d') = map p_at (d_points d).
Proof. intros W A B H. destruct (new_line_run d a b W A B) as (x & K & W1 & H1 & H2 & _ & _ & H0 & _ & H4). rewrite K in H. injection H as <- <-. csplit; auto. Qed.
Definition new_segs d d' (n : nat) := map (seg_at d') (seq (length (d_halves d)) n).
Lemma add_pieces_segs bp : forall d c fin d', wf d -> c < length (d_points d) -> fin < length (d_points d) -> add_pieces d c bp fin = Ok d' ->
  wf d' /\ points_grow d d' /\ d_type d' = d_type d /\
  (exists new, d_halves d' = d_halves d ++ map Some new /\ map (tseg d') new = map (pair (d_type d)) (steps (coord d c) (bp ++ [coord d fin]))) /\
  d_edges d' = d_edges d ++ seq (length (d_halves d)) (S (length bp)) /\
  (forall p, In p (map p_at (d_points d')) <-> In p (map p_at (d_points d)) \/ In p bp).
Proof.
  induction bp as [|p r IH]; intros d c fn d' W Hc Hf H; cbn [add_pieces] in H.
  - apply bind_ok in H as ((x & e) & H & K). injection K as <-. destruct (new_line_old d c fn x e W Hc Hf H) as (-> & W1 & H1 & H2 & H3 & H4). csplit; auto.
    + exists []. now rewrite app_nil_r.
    + exists [Half c fn None None None None (d_type d) []]. split; auto. cbn. unfold tseg. cbn. now rewrite !(coord_map d x H4).
    + intros q. rewrite H4. cbn. tauto.
  - destruct (find_or_add_point d (vx p) (vy p)) as [d1 k] eqn:E. apply bind_ok in H as ((d2 & e) & H1 & H).
    destruct (find_or_add_wf _ _ _ _ _ W E) as (W1 & A1 & A2 & A3 & A4 & A5 & A6 & _). pose proof (find_grow _ _ _ _ _ E) as G1. pose proof (points_grow_len _ _ G1) as GL.
    pose proof (find_coord _ _ _ _ _ E) as CK. assert (EP : V2 (vx p) (vy p) = p) by (destruct p; reflexivity). rewrite EP in CK.
    destruct (new_line_old d1 c k d2 e W1 ltac:(lia) A1 H1) as (-> & W2 & B1 & B2 & B3 & B4).
    assert (G2 : points_grow d1 d2) by (exists []; now rewrite app_nil_r). pose proof (points_grow_len _ _ G2) as GL2.
    destruct (IH d2 k fn d' W2 ltac:(lia) ltac:(lia) H) as (W' & G' & T' & (new & N1 & N2) & E' & P').
    assert (C12 : forall i, coord d2 i = coord d1 i) by (intros; now apply coord_map).
    csplit; auto.
    + eauto using points_grow_trans.
    + congruence.
    + exists (Half c k None None None None (d_type d1) [] :: new). split.
      * rewrite N1, B1, A2. cbn. now rewrite <- app_assoc.
      * cbn [map app steps]. rewrite N2, B3, A6, !C12, CK. rewrite (grow_coord d d1 fn G1 Hf). f_equal. unfold tseg. cbn.
        assert (K1 : coord d' c = coord d c) by (apply grow_coord; eauto using points_grow_trans). assert (K2 : coord d' k = coord d2 k) by (apply grow_coord; auto; lia).
        now rewrite K1, K2, C12, CK.
    + rewrite E', B2, A3, B1, A2, app_length. cbn. rewrite <- app_assoc. cbn. now rewrite Nat.add_1_r.
    + intros q. rewrite P', B4. unfold find_or_add_point in E. rewrite EP in E. destruct (pset_find d p (d_pset d)) as [j|] eqn:PF; injection E as <- <-.
      * cbn. split; [tauto|]. intros [K|[<-|K]]; auto. left. destruct (nth_some _ _ A1) as (z & Z). unfold coord in CK. rewrite Z in CK. rewrite <- CK. apply in_map. eapply nth_error_In; eauto.
      * cbn. rewrite map_app, in_app_iff. cbn. tauto.
Qed.

Definition pieces d (h : half R) : list (path_type * (vec2 R * vec2 R)) :=
  match h_breaks h with
  | [] => [tseg d h]
  | bs => map (pair (d_type d)) (steps (coord d (h_start h)) (sort_by (along_ltb (coord d (h_start h)) (coord d (h_end h))) bs ++ [coord d (h_end h)]))
  end.
Definition pieces_at d (e : nat) := match nth_error (d_halves d) e with Some (Some h) => pieces d h | _ => [] end.
Lemma break_half_segs d e h d' : wf d -> live d e h -> break_half d e = Ok d' ->
  wf d' /\ points_grow d d' /\ d_type d' = d_type d /\ (forall i x, i <> e -> live d i x -> live d' i x) /\
  (h_breaks h = [] /\ d' = d \/ h_breaks h <> [] /\ exists n, d_edges d' = filter (fun i => negb (Nat.eqb i e)) (d_edges d) ++ seq (length (d_halves d)) n /\
    map (seg_at d') (seq (length (d_halves d)) n) = pieces d h) /\
  (forall p, In p (map p_at (d_points d')) <-> In p (map p_at (d_points d)) \/ In p (h_breaks h)).
Proof.
  intros W L H. pose proof W as ((R1 & R2 & R3) & _). destruct (R3 e h L) as (Ls & Le).
  destruct (break_half_run d e h W L) as (x & K & W' & _ & G & LV & _). rewrite K in H. injection H as ->. split; auto. split; auto.
  unfold break_half in K. rewrite (proj2 (half_at_ok d e h) L) in K. cbn [bind] in K. unfold pieces.
  destruct (h_breaks h) as [|b0 bs] eqn:EB; [injection K as <-; csplit; auto; intros p; cbn; tauto|].
  destruct (coord_run d _ Ls) as (p & Ep & Cp). destruct (coord_run d _ Le) as (q & Eq & Cq). rewrite Ep, Eq in K. cbn [bind] in K. rewrite Cp, Cq in K.
  set (sb := sort_by _ _) in *. apply bind_ok in K as (d1 & K1 & K). apply bind_ok in K as (d2 & K2 & K). apply bind_ok in K as (d3 & K3 & K). injection K as <-.
  destruct (add_pieces_segs sb d _ _ d1 W Ls Le K1) as (W1 & G1 & T1 & (new & N1 & N2) & E1 & P1).
  apply dpmod_inv in K2 as (_ & ->). apply dpmod_inv in K3 as (_ & ->). cbn [wd_edges wd_points wd_halves d_points d_edges d_halves d_type] in *.
  assert (PT : map p_at (upd (upd (d_points d1) (h_start h) (remove_edge e)) (h_end h) (remove_edge e)) = map p_at (d_points d1)) by (now rewrite !map_upd_keep).
  pose proof (nth_lt _ _ _ L) as LT.
  csplit; auto.
  - right. split; [discriminate|]. exists (S (length sb)). split.
    + cbn [d_edges wd_edges wd_points wd_halves]. rewrite E1, filter_app. f_equal. apply filter_all. intros i Hi. apply in_seq in Hi. apply negb_true_iff, Nat.eqb_neq. lia.
    + rewrite <- N2. assert (LN : length new = S (length sb)) by (apply (f_equal (@length _)) in N2; rewrite !map_length in N2; rewrite N2; clear; generalize (coord d (h_start h)); induction sb; intros v; cbn; auto).
      rewrite <- LN. clear -N1 LT PT. apply nth_ext with (d := (subject, (V2 0%R 0%R, V2 0%R 0%R))) (d' := (subject, (V2 0%R 0%R, V2 0%R 0%R))); [now rewrite !map_length, seq_length|].
      intros k Hk. rewrite map_length, seq_length in Hk. destruct (nth_some _ _ Hk) as (z & Z).
      erewrite !(nth_error_nth _ k); [reflexivity|rewrite nth_error_map, Z; reflexivity|]. rewrite nth_error_map. 
      assert (SQ : nth_error (seq (length (d_halves d)) (length new)) k = Some (length (d_halves d) + k)) by (erewrite nth_error_nth' with (d := 0); [now rewrite seq_nth|now rewrite seq_length]).
      rewrite SQ. cbn [option_map]. f_equal. unfold seg_at. cbn [d_halves wd_halves wd_points wd_edges]. rewrite nth_upd. rewrite (proj2 (Nat.eqb_neq e (length (d_halves d) + k))) by lia.
      rewrite N1, nth_error_app2 by lia. replace (length (d_halves d) + k - length (d_halves d)) with k by lia. rewrite nth_error_map, Z. cbn [option_map]. unfold tseg. f_equal. f_equal; now apply coord_map.
  - intros z. rewrite PT, P1. split; (intros [X|X]; [auto|right]); [apply (Permutation_in _ (Permutation_sym (sort_by_perm _ _))) in X|apply (Permutation_in _ (sort_by_perm (along_ltb (coord d (h_start h)) (coord d (h_end h))) _)) in X]; exact X.
Qed.

Definition out_of (l : list nat) (i : nat) : bool := negb (existsb (Nat.eqb i) l).
Lemma out_of_in l i : out_of l i = false <-> In i l.
Proof.
  unfold out_of. rewrite negb_false_iff, existsb_exists. split.
  - intros (x & Hx & E). apply Nat.eqb_eq in E as ->. auto.
  - intros H. exists i. split; auto. apply Nat.eqb_refl.
Qed.
Lemma break_halves_segs l : forall d d', wf d -> NoDup l -> (forall e, In e l -> exists h, live d e h) -> break_halves d l = Ok d' ->
  wf d' /\ d_type d' = d_type d /\
  Permutation (segs d') (flat_map (pieces_at d) l ++ map (seg_at d) (filter (out_of l) (d_edges d))) /\
  (forall p, In p (map p_at (d_points d')) <-> In p (map p_at (d_points d)) \/ exists e h, In e l /\ live d e h /\ In p (h_breaks h)).
Proof.
  induction l as [|e r IH]; intros d d' W ND HL H; cbn [break_halves] in H.
  - injection H as <-. csplit; auto.
    + cbn [flat_map app]. rewrite filter_all; [reflexivity|auto].
    + intros p. split; auto. intros [K|(e & h & [] & _)]; auto.
  - apply bind_ok in H as (d1 & H1 & H). destruct (HL e) as (h & L); [now left|]. inversion ND as [|x y NI ND']; subst.
    destruct (break_half_segs d e h d1 W L H1) as (W1 & G1 & T1 & LV & D & P1).
    assert (HL1 : forall i, In i r -> exists x, live d1 i x) by (intros i Hi; destruct (HL i) as (x & Lx); [now right|]; exists x; apply LV; auto; intros ->; contradiction).
    destruct (IH d1 d' W1 ND' HL1 H) as (W' & T' & S' & P'). pose proof W as ((R1 & R2 & R3) & _).
    assert (KP : forall i x, i <> e -> live d i x -> seg_at d1 i = seg_at d i /\ pieces_at d1 i = pieces_at d i).
    { intros i x NE Lx. pose proof (LV i x NE Lx) as L1. rewrite (seg_at_live _ _ _ L1), (seg_at_live _ _ _ Lx). unfold pieces_at. unfold live in L1, Lx. rewrite L1, Lx.
      pose proof (grow_tseg d d1 i x W G1 Lx) as TS. split; auto. unfold pieces. rewrite TS, T1. destruct (R3 i x Lx) as (K1 & K2). now rewrite !(grow_coord d d1 _ G1) by auto. }
    csplit; auto; [congruence| |].
    + cbn [flat_map]. rewrite S'.
      rewrite (flat_map_ext_in (pieces_at d1) (pieces_at d) r).
      2:{ intros i Hi. destruct (HL i) as (x & Lx); [now right|]. eapply KP; eauto. intros ->; contradiction. }
      assert (PE : pieces_at d e = pieces d h) by (unfold pieces_at; unfold live in L; now rewrite L). rewrite PE.
      destruct D as [(EB & ->)|(EB & n & E1 & N1)].
      * assert (PH : pieces d h = [seg_at d e]) by (unfold pieces; rewrite EB, (seg_at_live _ _ _ L); reflexivity). rewrite PH. cbn [app].
        assert (Q : Permutation (filter (out_of r) (d_edges d)) (e :: filter (out_of (e :: r)) (d_edges d))).
        { rewrite (filter_out e (filter (out_of r) (d_edges d))).
          - constructor. rewrite filter_filter. erewrite filter_ext; [reflexivity|]. intros i. unfold out_of. cbn. rewrite negb_orb. apply andb_comm.
          - now apply NoDup_filter.
          - apply filter_In. split; [apply R2; eauto|]. destruct (out_of r e) eqn:OE; auto. apply out_of_in in OE. contradiction. }
        rewrite (Permutation_map (seg_at d) Q). cbn [map]. now rewrite <- Permutation_middle.
      * rewrite <- N1. rewrite E1, filter_app, map_app.
        assert (F1 : filter (out_of r) (seq (length (d_halves d)) n) = seq (length (d_halves d)) n).
        { apply filter_all. intros i Hi. apply in_seq in Hi. destruct (out_of r i) eqn:OE; auto. apply out_of_in in OE. destruct (HL i) as (x & Lx); [now right|]. apply nth_lt in Lx. lia. }
        rewrite F1. rewrite filter_filter.
        assert (F2 : map (seg_at d1) (filter (fun x => negb (x =? e) && out_of r x)%nat (d_edges d)) = map (seg_at d) (filter (out_of (e :: r)) (d_edges d))).
        { erewrite filter_ext with (g := out_of (e :: r)) by (intros i; unfold out_of; cbn; now rewrite negb_orb). apply map_ext_in. intros i Hi. apply filter_In in Hi as (Hi & O).
          apply R2 in Hi as (x & Lx). eapply KP; eauto. intros ->. unfold out_of in O. cbn in O. rewrite Nat.eqb_refl in O. discriminate. }
        rewrite F2. rewrite <- app_assoc, Permutation_app_comm, <- app_assoc. rewrite (Permutation_app_comm (map (seg_at d) _)). rewrite <- app_assoc. reflexivity.
    + intros p. rewrite P', P1. split.
      * intros [[K|K]|(i & x & Hi & Lx & K)]; auto.
        -- right. exists e, h. csplit; auto. now left.
        -- destruct (HL i) as (y & Ly); [now right|]. assert (NE : i <> e) by (intros ->; contradiction). pose proof (LV i y NE Ly) as L1. rewrite (live_inj _ _ _ _ L1 Lx) in Ly. right. exists i, x. csplit; auto. now right.
      * intros [K|(i & x & [<-|Hi] & Lx & K)]; auto.
        -- rewrite (live_inj _ _ _ _ Lx L) in K. auto.
        -- assert (NE : i <> e) by (intros ->; contradiction). right. exists i, x. csplit; auto.
Qed.
