(** C62, any arithmetic with an order: how many half edges there can be. *)
From Coq Require Import ZArith Bool List Lia Permutation.
From Verif Require Import Outcome Num Order Rmath RectSpec RectProofs ScanLine ScanProofs SortProofs VState VLemmas.
From Verif Require Import Dcel DcelSpec DcelBase DcelBreak DcelStatements DcelInv DcelLaySpec DcelKept DcelSizeSpec.
Import ListNotations.
Local Open Scope out.

(** *** Pairs *)
Lemma nodup_app {A} (l l' : list A) : NoDup l -> NoDup l' -> (forall x, In x l -> ~ In x l') -> NoDup (l ++ l').
Proof.
  induction l as [|x l IH]; cbn; intros N N' D; auto. inversion N as [|? ? N1 N2]; subst. constructor.
  - intros I. apply in_app_or in I as [I|I]; [auto|]. apply (D x); auto.
  - apply IH; auto.
Qed.
Lemma pairs_few n (l : list (nat * nat)) : NoDup l -> (forall i j, In (i, j) l -> ~ In (j, i) l) -> (forall i j, In (i, j) l -> i < n /\ j < n) -> 2 * length l + n <= n * n.
Proof.
  intros N A B. assert (IR : forall i, ~ In (i, i) l) by (intros i I; exact (A i i I I)).
  set (sw := fun x : nat * nat => (snd x, fst x)). set (m := l ++ map sw l ++ map (fun i => (i, i)) (seq 0 n)).
  assert (NM : NoDup m).
  { apply nodup_app; auto; [apply nodup_app|].
    - apply FinFun.Injective_map_NoDup; auto. intros [a b] [c e] E. unfold sw in E. cbn in E. now injection E as -> ->.
    - apply FinFun.Injective_map_NoDup; [intros a b E; congruence|apply seq_NoDup].
    - intros x I J. apply in_map_iff in I as ([a b] & <- & I). apply in_map_iff in J as (i & E & _). unfold sw in E. cbn in E. injection E as -> ->. exact (IR _ I).
    - intros [a b] I J. apply in_app_or in J as [J|J].
      + apply in_map_iff in J as ([c e] & E & J). unfold sw in E. cbn in E. injection E as <- <-. exact (A _ _ I J).
      + apply in_map_iff in J as (i & E & _). injection E as <- <-. exact (IR i I). }
  assert (IM : incl m (list_prod (seq 0 n) (seq 0 n))).
  { intros [a b] I. apply in_prod_iff. rewrite !in_seq. apply in_app_or in I as [I|I]; [destruct (B _ _ I); lia|]. apply in_app_or in I as [I|I].
    - apply in_map_iff in I as ([c e] & E & I). unfold sw in E. cbn in E. injection E as <- <-. destruct (B _ _ I); lia.
    - apply in_map_iff in I as (i & E & I). injection E as <- <-. apply in_seq in I. lia. }
  pose proof (NoDup_incl_length NM IM) as L. unfold m in L. rewrite prod_length, !app_length, !map_length, !seq_length in L. lia.
Qed.

Section Count.
  Context {T : Type} {N : Num T}.
  Implicit Types d : dcel T.
  (** Break points of one half edge, of a list of them *)
  Definition breaks_at d (e : nat) : nat := match nth_error (d_halves d) e with Some (Some h) => length (h_breaks h) | _ => 0 end.
  Definition breaks_of d (l : list nat) : nat := list_sum (map (breaks_at d) l).
  Lemma oset_length {A} (lt : A -> A -> bool) x l : length (oset_insert lt x l) <= S (length l).
  Proof. induction l as [|y l IH]; cbn; auto. destruct (lt x y); cbn; auto. destruct (lt y x); cbn; lia. Qed.
  Lemma add_break_at d e p d' : add_break_point d e p = Ok d' -> forall i, breaks_at d' i <= breaks_at d i + (if Nat.eqb e i then 1 else 0).
  Proof.
    unfold add_break_point. intros H. apply hmod_inv in H as (_ & ->). intros i. unfold breaks_at. cbn. rewrite nth_upd. destruct (Nat.eqb e i); [|lia].
    destruct (nth_error (d_halves d) i) as [[h|]|]; cbn; try lia. pose proof (oset_length vec_ltb p (h_breaks h)). lia.
  Qed.
  Lemma add_break_of d e p d' l : NoDup l -> add_break_point d e p = Ok d' -> breaks_of d' l <= breaks_of d l + 1.
  Proof.
    intros ND H. pose proof (add_break_at d e p d' H) as K. unfold breaks_of.
    assert (Z : (~ In e l -> list_sum (map (breaks_at d') l) <= list_sum (map (breaks_at d) l)) /\ list_sum (map (breaks_at d') l) <= list_sum (map (breaks_at d) l) + 1).
    { unfold list_sum. induction ND as [|x l NI ND IH]; cbn; [lia|]. pose proof (K x) as Kx. revert Kx. destruct (Nat.eqb_spec e x) as [->|NE]; intros Kx.
      - split; [intros C; elim C; auto|]. pose proof (proj1 IH NI). lia.
      - destruct IH as (I1 & I2). split; [intros C; assert (~ In e l) by tauto; pose proof (I1 H0)|]; lia. }
    apply Z.
  Qed.
  Lemma add_break_if_of c d e p d' l : NoDup l -> add_break_if c d e p = Ok d' -> breaks_of d' l <= breaks_of d l + 1.
  Proof. intros ND. destruct c; cbn; [now apply add_break_of|]. intros E; injection E as <-. lia. Qed.
  Lemma half_intersect_of d a b d' l : NoDup l -> half_intersect d a b = Ok d' -> breaks_of d' l <= breaks_of d l + 4.
  Proof.
    intros ND. unfold half_intersect. intros H. do 7 (apply bind_ok in H as (? & _ & H)).
    match type of H with match ?r with _ => _ end = _ => destruct r as [|i [|j [|k r]]] end; try (injection H as <-; lia).
    - apply bind_ok in H as (d1 & H1 & H). apply (add_break_of _ _ _ _ l ND) in H1, H. lia.
    - apply bind_ok in H as (d1 & H1 & H). apply bind_ok in H as (d2 & H2 & H). apply bind_ok in H as (d3 & H3 & H). apply (add_break_if_of _ _ _ _ _ l ND) in H1, H2, H3, H. lia.
  Qed.
  Lemma intersect_all_of ids prs l : NoDup l -> forall d d', intersect_all d ids prs = Ok d' -> breaks_of d' l <= breaks_of d l + 4 * length prs.
  Proof.
    intros ND. induction prs as [|[i j] r IH]; cbn; intros d d' H; [injection H as <-; lia|]. apply bind_ok in H as (a & _ & H). apply bind_ok in H as (b & _ & H). apply bind_ok in H as (d1 & H1 & H).
    apply (half_intersect_of _ _ _ _ l ND) in H1. apply IH in H. lia.
  Qed.
  Lemma filter_le {A} (f : A -> bool) l : length (filter f l) <= length l.
  Proof. induction l as [|x l IH]; cbn; auto. destruct (f x); cbn; lia. Qed.
  Lemma filter_out (e : nat) l : In e l -> length (filter (fun i => negb (Nat.eqb i e)) l) < length l.
  Proof.
    induction l as [|x l IH]; cbn; intros I; [destruct I|]. pose proof (filter_le (fun i => negb (Nat.eqb i e)) l). destruct (Nat.eqb_spec x e) as [->|NE]; cbn; [lia|].
    destruct I as [->|I]; [congruence|]. specialize (IH I). lia.
  Qed.
  Lemma find_points d x y d' i : find_or_add_point d x y = (d', i) -> length (d_points d') <= S (length (d_points d)).
  Proof. unfold find_or_add_point. destruct (pset_find d (V2 x y) (d_pset d)); intros E; injection E as <- <-; cbn; rewrite ?app_length; cbn; lia. Qed.
  Lemma new_line_points d a b d' e : new_line_edge d a b = Ok (d', e) -> length (d_points d') = length (d_points d).
  Proof.
    unfold new_line_edge. intros H. apply bind_ok in H as (d1 & H1 & H). apply bind_ok in H as (d2 & H2 & H). injection H as <- _.
    apply dpmod_inv in H1 as (_ & ->), H2 as (_ & ->). cbn. now rewrite !length_upd.
  Qed.
  Lemma add_pieces_points bp : forall d c fin d', add_pieces d c bp fin = Ok d' -> length (d_points d') <= length (d_points d) + length bp.
  Proof.
    induction bp as [|p r IH]; cbn; intros d c fin d' H.
    - apply bind_ok in H as ((d1 & e) & H1 & H). injection H as <-. apply new_line_points in H1. lia.
    - destruct (find_or_add_point d (vx p) (vy p)) as [d1 k] eqn:E. apply bind_ok in H as ((d2 & e) & H2 & H). apply find_points in E. apply new_line_points in H2. apply IH in H. lia.
  Qed.
  Lemma break_half_points d e h d' : live d e h -> break_half d e = Ok d' -> length (d_points d') <= length (d_points d) + length (h_breaks h).
  Proof.
    intros L H. unfold break_half in H. rewrite (proj2 (half_at_ok d e h) L) in H. cbn [bind] in H. destruct (h_breaks h) as [|b0 bs] eqn:EB; [injection H as <-; lia|].
    apply bind_ok in H as (p & _ & H). apply bind_ok in H as (q & _ & H). apply bind_ok in H as (d1 & H1 & H). cbv zeta in H. apply bind_ok in H as (d2 & H2 & H). apply bind_ok in H as (d3 & H3 & H). injection H as <-.
    apply dpmod_inv in H2 as (_ & ->), H3 as (_ & ->). apply add_pieces_points in H1. rewrite <- (Permutation_length (sort_by_perm _ (b0 :: bs))) in H1. cbn. rewrite !length_upd. exact H1.
  Qed.
  Lemma break_half_count d e h d' : wf d -> live d e h -> break_half d e = Ok d' -> length (d_edges d') <= length (d_edges d) + length (h_breaks h).
  Proof.
    intros W L H. unfold break_half in H. rewrite (proj2 (half_at_ok d e h) L) in H. cbn [bind] in H. destruct (h_breaks h) as [|b0 bs] eqn:EB; [injection H as <-; lia|].
    pose proof W as ((R1 & R2 & R3) & _). destruct (R3 e h L) as (Ls & Le). apply bind_ok in H as (p & _ & H). apply bind_ok in H as (q & _ & H). apply bind_ok in H as (d1 & H1 & H).
    match type of H1 with add_pieces d _ ?l _ = _ => destruct (add_pieces_run l d (h_start h) (h_end h) W Ls Le) as (x & new & R & W1 & D1 & D2 & D3 & D4 & D5 & D6 & D7) end.
    rewrite R in H1. injection H1 as <-. cbv zeta in H. apply bind_ok in H as (d2 & H2 & H). apply bind_ok in H as (d3 & H3 & H). injection H as <-.
    apply dpmod_inv in H2 as (_ & ->), H3 as (_ & ->). cbn. pose proof (filter_out e (d_edges x)) as F. rewrite D2 in *. rewrite app_length, seq_length in *.
    assert (I : In e (d_edges d ++ seq (length (d_halves d)) (length new))) by (apply in_or_app; left; apply R2; eauto). specialize (F I).
    rewrite D5, <- (Permutation_length (sort_by_perm _ (b0 :: bs))) in F. cbn [length] in *. rewrite D5, <- (Permutation_length (sort_by_perm _ (b0 :: bs))). cbn [length]. lia.
  Qed.
  Lemma breaks_at_live d e h : live d e h -> breaks_at d e = length (h_breaks h).
  Proof. unfold live, breaks_at. now intros ->. Qed.
  Lemma break_halves_count l : forall d d', wf d -> NoDup l -> (forall e, In e l -> exists h, live d e h) -> break_halves d l = Ok d' ->
    length (d_edges d') <= length (d_edges d) + breaks_of d l /\ length (d_points d') <= length (d_points d) + breaks_of d l.
  Proof.
    induction l as [|e l IH]; cbn; intros d d' W ND HL H; [injection H as <-; lia|]. inversion ND as [|? ? NI ND']; subst. destruct (HL e (or_introl eq_refl)) as (h & L).
    apply bind_ok in H as (d1 & H1 & H). pose proof (break_half_count d e h d1 W L H1) as C. pose proof (break_half_points d e h d1 L H1) as CP. destruct (break_half_run d e h W L) as (x & R & W1 & _ & _ & K1 & _). rewrite R in H1. injection H1 as <-.
    assert (KL : forall i, In i l -> breaks_at x i = breaks_at d i /\ exists y, live x i y).
    { intros i I. destruct (HL i (or_intror I)) as (y & Ly). assert (Lx : live x i y) by (apply K1; auto; intros ->; auto). rewrite (breaks_at_live _ _ _ Ly), (breaks_at_live _ _ _ Lx). eauto. }
    specialize (IH x d' W1 ND' (fun i I => proj2 (KL i I)) H). unfold breaks_of, list_sum in *. cbn. rewrite (breaks_at_live _ _ _ L).
    rewrite (map_ext_in _ (breaks_at d) l) in IH by (intros i I; apply KL; auto). lia.
  Qed.
  Lemma build_twins_count l : forall d d', wf d -> build_twins_of d l = Ok d' -> length (d_edges d') = length (d_edges d) + length l /\ length (d_points d') = length (d_points d).
  Proof.
    induction l as [|e l IH]; cbn; intros d d' W H; [injection H as <-; lia|]. apply bind_ok in H as (d1 & H1 & H). unfold build_twin in H1. apply bind_ok in H1 as (h & Hh & H1). apply half_at_ok in Hh.
    pose proof W as ((R1 & R2 & R3) & _). destruct (R3 e h Hh) as (Ls & Le). destruct (new_line_run d (h_end h) (h_start h) W Le Ls) as (x & R & W1 & C1 & C2 & _). pose proof (new_line_points _ _ _ _ _ R) as CP. rewrite R in H1. cbn [bind] in H1.
    apply bind_ok in H1 as (d2 & H2 & H1). apply hmod_inv in H2 as (_ & ->), H1 as (_ & ->).
    match type of H with build_twins_of ?y l = _ => assert (W2 : wf y) end.
    { apply wf_upd; [auto|]. apply wf_upd; [auto|]. exact W1. }
    destruct (IH _ _ W2 H) as (I1 & I2). rewrite I1, I2. cbn. rewrite C2, app_length. cbn. lia.
  Qed.
End Count.

Section Ord.
  Context {T : Type} {N : Num T} {O : OrdNum T}.
  Implicit Types d : dcel T.
  Notation fin d := (Forall (fun p => finite_point (p_at p)) (d_points d)).
  Definition bare d : Prop := forall e h, live d e h -> h_breaks h = [].
  Lemma find_finite d d' x y i : finite_point (V2 x y) -> fin d -> find_or_add_point d x y = (d', i) -> fin d'.
  Proof.
    intros F H. unfold find_or_add_point. destruct (pset_find d (V2 x y) (d_pset d)); intros E; injection E as <- <-; auto. cbn. apply Forall_app; split; auto.
  Qed.
  Lemma add_line_count d d' x1 y1 x2 y2 : wf d -> fin d -> bare d -> finite_point (V2 x1 y1) -> finite_point (V2 x2 y2) -> add_line d x1 y1 x2 y2 = Ok d' ->
    wf d' /\ fin d' /\ bare d' /\ length (d_edges d') = length (d_edges d) + (if n_eqb x1 x2 && n_eqb y1 y2 then 0 else 1) /\
    length (d_points d') <= length (d_points d) + (if n_eqb x1 x2 && n_eqb y1 y2 then 0 else 2).
  Proof.
    intros W P1 BA F1 F2. unfold add_line. destruct (n_eqb x1 x2 && n_eqb y1 y2) eqn:EQ; [intros E; injection E as <-; csplit; auto; lia|].
    destruct (find_or_add_point d x1 y1) as [d3 a] eqn:E1. destruct (find_or_add_point d3 x2 y2) as [d4 b] eqn:E2.
    destruct (find_or_add_wf _ _ _ _ _ W E1) as (W3 & A1 & A2 & A3 & _). destruct (find_or_add_wf _ _ _ _ _ W3 E2) as (W4 & B1 & B2 & B3 & _).
    pose proof (find_grow _ _ _ _ _ E2) as G2. pose proof (points_grow_len _ _ G2) as GL2.
    assert (P3 := find_finite _ _ _ _ _ F1 P1 E1). assert (P4 := find_finite _ _ _ _ _ F2 P3 E2).
    intros R. apply bind_ok in R as ((d5 & e) & R & Q). injection Q as <-.
    destruct (new_line_run d4 a b W4) as (x & R' & W5 & H1 & H2 & _ & _ & _ & H3 & H4); [lia|auto|]. pose proof (new_line_points _ _ _ _ _ R') as NP. pose proof (find_points _ _ _ _ _ E1) as N1. pose proof (find_points _ _ _ _ _ E2) as N2. rewrite R' in R. injection R as <- _. split; [auto|]. split; [|split; [|split; [|lia]]].
    - rewrite <- Forall_map with (f := p_at) (P := finite_point). rewrite H4. now rewrite Forall_map.
    - intros i h L. apply (live_snoc d4 x _ H1) in L as [L|(-> & ->)]; [|reflexivity]. unfold live in L. rewrite B2, A2 in L. exact (BA i h L).
    - rewrite H2, app_length, B3, A3. reflexivity.
  Qed.
  Lemma calls_count l : forall t d d', wf d -> fin d -> bare d -> Forall dcall_finite l -> dcalls_run d l = Ok d' ->
    wf d' /\ fin d' /\ bare d' /\ length (d_edges d') = length (d_edges d) + length (lines_given t l) /\
    length (d_points d') <= length (d_points d) + 2 * length (lines_given t l).
  Proof.
    induction l as [|c r IH]; intros t d d' W P B F H; cbn [dcalls_run] in H; [injection H as <-; cbn; csplit; auto; lia|]. apply bind_ok in H as (d1 & H1 & H). inversion F as [|? ? F1 F2]; subst.
    destruct c as [u|x1 y1 x2 y2]; cbn [dcall_run] in H1.
    - injection H1 as <-. exact (IH u (set_current_path_type d u) d' W P B F2 H).
    - destruct F1 as (X & Y). destruct (add_line_count d d1 x1 y1 x2 y2 W P B X Y H1) as (W1 & P1 & B1 & C1 & D1). destruct (IH t d1 d' W1 P1 B1 F2 H) as (W2 & P2 & B2 & C2 & D2). split; [auto|]. split; [auto|]. split; [auto|].
      rewrite C2, C1. cbn [lines_given]. unfold veqb. cbn [vx vy]. destruct (n_eqb x1 x2 && n_eqb y1 y2); cbn [length]; lia.
  Qed.
  Lemma boxes_wf d l : wf d -> fin d -> (forall e, In e l -> exists h, live d e h) -> exists bs, half_boxes d l = Ok bs /\ length bs = length l /\ Forall rect_wf bs.
  Proof.
    intros ((R1 & R2 & R3) & _) P. induction l as [|e r IH]; intros HL; cbn [half_boxes]; [exists []; auto|].
    destruct (HL e (or_introl eq_refl)) as (h & L). unfold half_box. rewrite (proj2 (half_at_ok d e h) L). cbn [bind]. destruct (R3 e h L) as (Ls & Le).
    destruct (point_run d _ Ls) as (p & Hp & ->). destruct (point_run d _ Le) as (q & Hq & ->). cbn [bind]. destruct IH as (bs & -> & LN & WB); [intros; apply HL; now right|]. cbn [bind].
    eexists. split; [reflexivity|]. split; [cbn; lia|]. constructor; auto. apply C06_lemma; [discriminate|]. rewrite Forall_forall in P. intros z [<-|[<-|[]]]; apply P; eapply nth_error_In; eauto.
  Qed.
  Lemma C62_any_lemma (en : denv) (l : list (dcall T)) d d' : (forall l, Permutation (de_order en l) l) -> Forall dcall_finite l -> dcalls_run dcel0 l = Ok d -> dcel_process en d = Ok d' ->
    length (d_edges d') <= 2 * (length (lines_given subject l) * (2 * length (lines_given subject l) - 1)) /\
    length (d_points d') <= 2 * (length (lines_given subject l) * length (lines_given subject l)).
  Proof.
    intros PO F HC HP. destruct (calls_count l subject dcel0 d wf0 (Forall_nil _)) as (W & P & B & C & D); auto.
    { intros e h L. unfold live in L. cbn in L. destruct e; discriminate. }
    cbn [d_edges d_points dcel0 length] in C, D. rewrite Nat.add_0_l in C, D. unfold dcel_process in HP. apply bind_ok in HP as (da & HA & HP). apply bind_ok in HP as (db & HB & HP).
    rewrite <- C in *. set (n := length (d_edges d)) in *.
    assert (KA : wf da /\ length (d_edges da) <= n + (2 * (n * n) - 2 * n) /\ length (d_points da) <= 2 * n + (2 * (n * n) - 2 * n) /\ n <= n * n).
    { unfold process_break in HA. destruct (by_addr_live en d W) as (B1 & B2). destruct (boxes_wf d (by_addr en (d_edges d)) W P B2) as (bs & E & LN & WB). rewrite E in HA. cbn [bind] in HA.
      pose proof (C20_lemma (de_order en) bs PO WB) as K. cbv zeta in K. set (prs := scan_process _ _) in *. destruct K as (K1 & K2 & K3).
      pose proof (Permutation_length (by_addr_perm en (d_edges d))) as PL. fold n in PL.
      pose proof (pairs_few n prs K1 K2) as FEW. assert (FE : 2 * length prs + n <= n * n).
      { apply FEW. intros i j I. destruct (proj1 (K3 i j) (or_introl I)) as (_ & a & b & p & I1 & I2 & _). apply nth_lt in I1, I2. lia. }
      apply bind_ok in HA as (d1 & H1 & HA). pose proof (intersect_all_sbb _ _ _ _ H1) as S1. pose proof (sbb_wf _ _ S1 W) as W1. pose proof S1 as (_ & _ & E3 & _). destruct (by_addr_live en d1 W1) as (D1 & D2).
      pose proof (intersect_all_of _ _ (by_addr en (d_edges d1)) D1 _ _ H1) as BR.
      assert (Z : breaks_of d (by_addr en (d_edges d1)) = 0).
      { rewrite E3. clear -B B2. unfold breaks_of, list_sum. induction (by_addr en (d_edges d)) as [|e r IH]; cbn; auto. rewrite IH by (intros; apply B2; now right).
        destruct (B2 e (or_introl eq_refl)) as (h & L). rewrite (breaks_at_live _ _ _ L), (B e h L). reflexivity. }
      pose proof (break_halves_count _ _ _ W1 D1 D2 HA) as BC. destruct (break_halves_run _ d1 W1 D1 D2) as (x & R & Wx & _). rewrite R in HA. injection HA as <-. destruct BC as (BC & BP). pose proof S1 as (E1 & _).
      rewrite E3 in BC, BP, BR, Z. rewrite E1 in BP. fold n in BC. csplit; auto; lia. }
    destruct KA as (Wa & KA & KP & KN). unfold build_twins in HB. destruct (build_twins_count _ _ _ Wa HB) as (CB & CP). rewrite <- (Permutation_length (by_addr_perm en (d_edges da))) in CB.
    pose proof (build_face_kept en db d' HP) as (KM & _ & KE & _). pose proof (f_equal (@length _) KM) as KL. rewrite !map_length in KL. rewrite KE, CB, KL, CP. clearbody n. clear -KA KP KN. split; [|lia]. destruct n as [|n]; [cbn in *; lia|].
    replace (2 * S n - 1) with (S n + n) by lia. nia.
  Qed.
End Ord.
