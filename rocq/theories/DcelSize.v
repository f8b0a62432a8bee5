(** C62, exact arithmetic: how many half edges there can be if lines do not overlap. *)
From Coq Require Import ZArith Bool List Reals Lra Lia Permutation Sorted Classical_Prop.
From Verif Require Import Outcome Num Order Rmath RTac RectSpec SortProofs VState VLemmas LineSpec LineR.
From Verif Require Import Dcel DcelSpec DcelBase DcelBreak DcelStatements DcelInv DcelR DcelLaySpec DcelKept DcelPieces DcelCut DcelLay DcelLayMain.
Import ListNotations.

(** *** Counting *)
Lemma split_list {A} (Q : A -> Prop) l : exists l1 l2, Permutation l (l1 ++ l2) /\ Forall Q l1 /\ Forall (fun x => ~ Q x) l2.
Proof.
  induction l as [|x l (l1 & l2 & P & F1 & F2)]; [exists [], []; auto|]. destruct (classic (Q x)) as [K|K].
  - exists (x :: l1), l2. cbn. auto.
  - exists l1, (x :: l2). split; [rewrite P; apply Permutation_middle|auto].
Qed.
Lemma nodup_parts {A} (l1 l2 : list A) : NoDup (l1 ++ l2) -> NoDup l1 /\ NoDup l2.
Proof.
  induction l1 as [|x l1 IH]; cbn; intros N; [split; [constructor|auto]|]. inversion N as [|? ? N1 N2]; subst. destruct (IH N2). split; auto. constructor; auto. intros I. apply N1. apply in_or_app. auto.
Qed.
Lemma pigeon {A} (P : nat -> A -> Prop) k js : forall bs, NoDup bs -> (forall p, In p bs -> exists j, In j js /\ P j p) ->
  (forall j l, In j js -> NoDup l -> Forall (P j) l -> length l <= k) -> length bs <= k * length js.
Proof.
  induction js as [|j js IH]; intros bs N C B.
  - destruct bs as [|p bs]; cbn; [lia|]. destruct (C p (or_introl eq_refl)) as (j & [] & _).
  - destruct (split_list (P j) bs) as (l1 & l2 & PE & F1 & F2). pose proof (Permutation_NoDup PE N) as N'. apply nodup_parts in N' as (N1 & N2).
    rewrite (Permutation_length PE), app_length. pose proof (B j l1 (or_introl eq_refl) N1 F1). assert (length l2 <= k * length js).
    { apply IH; auto; [|intros; eapply B; eauto; now right]. intros p Ip. destruct (C p) as (x & [<-|Ix] & K); [apply (Permutation_in _ (Permutation_sym PE)), in_or_app; auto| |eauto].
      rewrite Forall_forall in F2. elim (F2 p Ip K). }
    cbn [length]. lia.
Qed.
Lemma steps_length {A} (l : list A) : forall a, length (steps a l) = length l.
Proof. induction l; intros; cbn; auto. Qed.
Lemma pieces_length d h : length (pieces d h) = S (length (h_breaks h)).
Proof.
  unfold pieces. destruct (h_breaks h) as [|b bs]; [reflexivity|]. rewrite map_length, steps_length, app_length. rewrite <- (Permutation_length (sort_by_perm _ (b :: bs))). cbn. lia.
Qed.

(** *** Two segments *)
Lemma cut_single a b a' b' p p' : ~ parallel a b a' b' -> on_segment p a b -> on_segment p a' b' -> on_segment p' a b -> on_segment p' a' b' -> p = p'.
Proof.
  intros NP (t & _ & E) (u & _ & E') (t' & _ & F) (u' & _ & F'). destruct (Req_dec t t') as [<-|NE]; [congruence|]. exfalso. apply NP.
  rewrite E in E'. rewrite F in F'. destruct a as [ax ay], b as [bx by_], a' as [cx cy], b' as [ex ey]. unfold pt, parallel in *. cbn in *. injection E' as X Y. injection F' as X' Y'.
  assert (K1 : ((t - t') * (bx - ax) = (u - u') * (ex - cx))%R) by lra. assert (K2 : ((t - t') * (by_ - ay) = (u - u') * (ey - cy))%R) by lra.
  apply (Rmult_eq_reg_l (t - t')); [|lra]. rewrite <- !Rmult_assoc, K1, K2. ring.
Qed.
Lemma between_not_end a b x z t : a <> b -> on_segment x a b -> on_segment z a b -> x <> z -> (0 < t < 1)%R -> pt x z t <> a /\ pt x z t <> b.
Proof.
  intros NE (u & U & ->) (w & W & ->) D T. rewrite pt_pt. assert (u <> w) by congruence. split; intros E.
  - assert (u + t * (w - u) = 0)%R by (apply (pt_inj a b); auto; now rewrite pt_0). nra.
  - assert (u + t * (w - u) = 1)%R by (apply (pt_inj a b); auto; now rewrite pt_1). nra.
Qed.
Lemma between_on a b x z t : on_segment x a b -> on_segment z a b -> (0 < t < 1)%R -> on_segment (pt x z t) a b.
Proof. intros (u & U & ->) (w & W & ->) T. rewrite pt_pt. eexists. split; [|reflexivity]. nra. Qed.

Section Size.
  Context (l : list (dcall R)) (d d1 d' : dcel R).
  Hypothesis H : drawn l d d1 d'.
  Notation ls := (lines_given subject l).

  Lemma lines_length : length ls = length (d_edges d).
  Proof. destruct H as (_ & _ & _ & _ & SG & _). rewrite <- SG. unfold segs. apply map_length. Qed.
  Lemma edge_ends i : In i (d_edges d) -> sa d i <> sb d i.
  Proof. intros I. destruct (per_line l d d1 d' H i I) as (bs & ps & _ & NE & _). exact NE. Qed.
  Lemma cut_one i j bs : no_lap ls -> i <> j -> In i (d_edges d) -> In j (d_edges d) -> NoDup bs -> Forall (cut (sa d i) (sb d i) (sa d j) (sb d j)) bs -> length bs <= 1.
  Proof.
    intros NL NE I J N F. destruct bs as [|p [|q bs]]; cbn; try lia. exfalso. rewrite Forall_forall in F.
    destruct (F p ltac:(cbn; auto)) as (P1 & P2 & _). destruct (F q ltac:(cbn; auto)) as (Q1 & Q2 & _).
    assert (D : p <> q) by (inversion N as [|? ? N1 _]; subst; cbn in N1; intros ->; tauto).
    destruct (parallel_dec (sa d i) (sb d i) (sa d j) (sb d j)) as [P|P]; [|apply D; eapply cut_single; eauto].
    destruct (edge_line l d d1 d' H i I) as (ti & LI). destruct (edge_line l d d1 d' H j J) as (tj & LJ). assert (T : (0 < 1 / 2 < 1)%R) by lra.
    destruct (NL i j _ _ _ _ _ _ (pt p q (1 / 2)) NE LI LJ P (between_on _ _ _ _ _ P1 Q1 T) (between_on _ _ _ _ _ P2 Q2 T)) as (K & _).
    destruct (between_not_end _ _ p q _ (edge_ends i I) P1 Q1 D T). tauto.
  Qed.
  Lemma size_with k : (forall i j bs, i <> j -> In i (d_edges d) -> In j (d_edges d) -> NoDup bs -> Forall (cut (sa d i) (sb d i) (sa d j) (sb d j)) bs -> length bs <= k) ->
    length (d_edges d') <= 2 * (length ls * (1 + k * (length ls - 1))).
  Proof.
    intros B. pose proof H as (W & _ & _ & _ & _ & S1 & (BR1 & BR2 & BR3) & _ & PX & _). cbv zeta in PX. apply Permutation_length in PX. unfold segs in PX at 1. rewrite map_length, app_length, map_length in PX.
    rewrite PX. enough (length (flat_map (pieces_at d1) (d_edges d)) <= length ls * (1 + k * (length ls - 1))) by lia.
    rewrite lines_length. set (m := 1 + k * (length (d_edges d) - 1)).
    assert (Z : forall es, incl es (d_edges d) -> length (flat_map (pieces_at d1) es) <= length es * m).
    { induction es as [|e es IH]; intros IN; cbn [flat_map length]; [lia|]. rewrite app_length. pose proof (IH (fun x K => IN x (or_intror K))) as IH'. pose proof (IN e (or_introl eq_refl)) as I.
      enough (length (pieces_at d1 e) <= m) by lia. pose proof W as ((R1 & R2 & R3) & _). destruct (proj1 (R2 e) I) as (h0 & L0). destruct S1 as (_ & _ & _ & _ & _ & _ & _ & _ & E9). destruct (E9 e h0 L0) as (h & L).
      unfold pieces_at. pose proof L as L'. unfold live in L'. rewrite L', pieces_length. apply in_split in I as (e1 & e2 & ES). unfold m. rewrite ES, app_length. cbn [length].
      replace (length e1 + S (length e2) - 1) with (length (e1 ++ e2)) by (rewrite app_length; lia). apply le_n_S. apply (pigeon (fun j => cut (sa d e) (sb d e) (sa d j) (sb d j))).
      - apply sorted_nodup. eapply BR3; eauto.
      - intros p Ip. destruct (BR1 e p (ex_intro _ h (conj L Ip))) as (j & NE & _ & J & C). exists j. split; auto. rewrite ES in J. apply in_app_or in J as [J|[J|J]]; [apply in_or_app; auto|congruence|apply in_or_app; auto].
      - intros j x J. assert (J' : In j (d_edges d)) by (rewrite ES; apply in_app_or in J as [J|J]; apply in_or_app; cbn; auto). apply B; auto; [|apply IN; now left].
        intros <-. rewrite ES in R1. apply NoDup_remove_2 in R1. auto. }
    apply Z. intros x K. exact K.
  Qed.
End Size.
Lemma C62_apart_lemma en l d d' : (forall l, Permutation (de_order en l) l) -> Forall dcall_fin l -> dcalls_run dcel0 l = Ok d -> dcel_process en d = Ok d' -> no_lap (lines_given subject l) ->
  length (d_edges d') <= 2 * (length (lines_given subject l) * length (lines_given subject l)).
Proof.
  intros PO FI HC HP NL. destruct (lay_parts en l d d' PO FI HC HP) as (d1 & D). pose proof (size_with l d d1 d' D 1 (fun i j bs => cut_one l d d1 d' D i j bs NL)) as K.
  destruct (length (lines_given subject l)) as [|n]; [exact K|]. replace (1 + 1 * (S n - 1)) with (S n) in K by lia. exact K.
Qed.
