(** One point for each position. *)
From Coq Require Import ZArith Bool List Permutation Sorted Lia.
From Verif Require Import Outcome Num Order Rmath RectSpec ScanLine VState VLemmas VAelProofs SortProofs MarkProofs.
From Verif Require Import Dcel DcelSpec DcelBase DcelBreak DcelFace DcelLink DcelSplit.
Import ListNotations.
Local Open Scope out.

Section Unique.
  Context {T : Type} {N : Num T} {O : OrdNum T}.
  Implicit Types d : dcel T.

  Lemma vec_ltb_trans (a b c : vec2 T) : vvalid a -> vvalid b -> vvalid c ->
    vec_ltb a b = true -> vec_ltb b c = true -> vec_ltb a c = true.
  Proof.
    intros (A1 & A2) (B1 & B2) (C1 & C2). unfold vec_ltb.
    destruct (n_ltb (vx a) (vx b)) eqn:E1.
    - intros _. destruct (n_ltb (vx b) (vx c)) eqn:E2.
      + rewrite (nlt_trans (vx a) (vx b) (vx c)) by auto. auto.
      + destruct (n_eqb (vx b) (vx c)) eqn:E3; [|discriminate]. now rewrite (nlt_eq_trans (vx a) (vx b) (vx c)).
    - destruct (n_eqb (vx a) (vx b)) eqn:E4; [|discriminate]. intros H1.
      destruct (n_ltb (vx b) (vx c)) eqn:E2.
      + now rewrite (neq_lt_trans (vx a) (vx b) (vx c)).
      + destruct (n_eqb (vx b) (vx c)) eqn:E3; [|discriminate]. intros H2.
        destruct (n_ltb (vx a) (vx c)); auto. rewrite (neq_trans (vx a) (vx b) (vx c)) by auto. now apply (nlt_trans (vy a) (vy b) (vy c)).
  Qed.
  Lemma vec_ltb_neq (a b : vec2 T) : vvalid a -> vvalid b -> vec_ltb a b = true -> veqb a b = false.
  Proof.
    intros (A1 & A2) (B1 & B2) H. unfold veqb. destruct (n_eqb (vx a) (vx b)) eqn:E1; auto.
    destruct (n_eqb (vy a) (vy b)) eqn:E2; auto. exfalso. unfold vec_ltb in H. rewrite E1 in H.
    assert (K : forall x y : T, nvalid x -> nvalid y -> n_eqb x y = true -> n_ltb x y = false).
    { intros x y Vx Vy E. apply nle_not_lt; auto. rewrite neq_le in E by auto. now apply andb_prop in E as [_ E]. }
    rewrite (K _ _ A1 B1 E1), (K _ _ A2 B2 E2) in H. discriminate.
  Qed.
  Lemma veqb_sym (a b : vec2 T) : veqb a b = veqb b a.
  Proof. unfold veqb. now rewrite (neq_sym (vx a)), (neq_sym (vy a)). Qed.

  (** *** Adding a point *)
  Lemma find_psorted d x y d' i : all_in_set d -> psorted d -> find_or_add_point d x y = (d', i) -> psorted d'.
  Proof.
    intros HA HP H. unfold find_or_add_point in H. destruct (pset_find d (V2 x y) (d_pset d)) as [j|] eqn:E; injection H as <- <-; auto.
    intros V. cbn in V |- *. apply Forall_app in V as (V & Vp). specialize (HP V). apply all_bounded in HA.
    set (p := Point (V2 x y) []) in *. set (d' := wd_points d (d_points d ++ [p])).
    change (coord (wd_pset d' _)) with (coord d').
    assert (Vx : vvalid (V2 x y)) by now inversion Vp.
    assert (Cl : coord d' (length (d_points d)) = V2 x y) by apply coord_last.
    assert (VC : forall k, k < length (d_points d) -> vvalid (coord d k)).
    { intros k Hk. unfold coord. destruct (nth_error (d_points d) k) eqn:Ek; [|apply nth_error_None in Ek; lia].
      rewrite Forall_forall in V. apply V. eapply nth_error_In; eauto. }
    assert (CC : forall k, k < length (d_points d) -> coord d' k = coord d k) by (intros; now apply coord_snoc).
    revert HP E. induction (d_pset d) as [|k r IH]; intros HP E; cbn.
    - constructor; constructor.
    - inversion HP as [|? ? S1 S2]; subst. inversion HA as [|? ? A1 A2]; subst. cbn in E. rewrite Cl, (CC k) by auto.
      destruct (vec_ltb (coord d k) (V2 x y)) eqn:E1.
      + assert (E0 : vec_ltb (V2 x y) (coord d k) = false).
        { destruct (vec_ltb (V2 x y) (coord d k)) eqn:E0; auto.
          pose proof (vec_ltb_neq _ _ (VC k A1) (VC k A1) (vec_ltb_trans _ _ _ (VC k A1) Vx (VC k A1) E1 E0)) as Q.
          unfold veqb in Q. destruct (VC k A1) as (U1 & U2). rewrite !neq_le, !nle_negb, !nlt_irrefl in Q by auto. discriminate. }
        rewrite E0. constructor; auto. rewrite Forall_forall in *. intros j Hj.
        pose proof (insert_new d p r) as Q. cbn in Q. rewrite Forall_forall in Q. specialize (Q A2 E). fold d' in Q.
        apply (Permutation_in j (Permutation_sym Q)) in Hj as [<-|Hj]; rewrite (CC k) by auto.
        * now rewrite Cl.
        * rewrite (CC j) by auto. auto.
      + destruct (vec_ltb (V2 x y) (coord d k)) eqn:E2; [|discriminate]. constructor.
        * assert (Q : Forall (fun j => j < length (d_points d)) (k :: r)) by now constructor.
          clear -HP Q CC. induction HP as [|j s S IH F]; constructor; inversion Q; subst; auto.
          rewrite Forall_forall in *. intros m Hm. rewrite !CC by auto. auto.
        * constructor.
          -- now rewrite Cl, CC.
          -- rewrite Forall_forall in *. intros j Hj. rewrite Cl, CC by auto.
             apply (vec_ltb_trans _ (coord d k)); auto.
  Qed.

  Lemma new_line_psorted d a b d' e : wf d -> psorted d -> a < length (d_points d) -> b < length (d_points d) ->
    new_line_edge d a b = Ok (d', e) -> psorted d'.
  Proof.
    intros W HP Ha Hb H. destruct (new_line_run d a b W Ha Hb) as (d1 & R & _ & _ & _ & _ & _ & _ & C1 & C2).
    rewrite R in H. injection H as <- _. eapply psorted_same; eauto.
  Qed.

  Lemma add_line_psorted d x1 y1 x2 y2 d' : wf d -> psorted d -> add_line d x1 y1 x2 y2 = Ok d' -> psorted d'.
  Proof.
    intros W HP. unfold add_line. destruct (n_eqb x1 x2 && n_eqb y1 y2); [intros E; injection E as <-; auto|].
    destruct (find_or_add_point d x1 y1) as [d1 a] eqn:E1. destruct (find_or_add_point d1 x2 y2) as [d2 b] eqn:E2.
    destruct (find_or_add_wf _ _ _ _ _ W E1) as (W1 & A1 & _).
    destruct (find_or_add_wf _ _ _ _ _ W1 E2) as (W2 & B1 & _).
    pose proof (points_grow_len _ _ (find_grow _ _ _ _ _ E2)) as G.
    assert (P1 := find_psorted _ _ _ _ _ (proj2 (proj2 W)) HP E1). assert (P2 := find_psorted _ _ _ _ _ (proj2 (proj2 W1)) P1 E2).
    intros H. apply bind_ok in H as ((d3 & e) & H & K). injection K as <-.
    eapply (new_line_psorted d2 a b); eauto. lia.
  Qed.
  Lemma calls_psorted l : forall d d', wf d -> psorted d -> dcalls_run d l = Ok d' -> psorted d'.
  Proof.
    induction l as [|c r IH]; intros d d' W HP H; cbn in H; [injection H as <-; auto|].
    apply bind_ok in H as (d1 & H1 & H). 
    assert (S : wf d1 /\ psorted d1).
    { destruct c; cbn in H1; [injection H1 as <-; auto|].
      destruct (add_line_run d x1 y1 x2 y2 W) as (d1' & R & W1 & _). rewrite R in H1. injection H1 as <-. split; auto.
      eapply (add_line_psorted d); eauto. }
    destruct S. eapply IH; eauto.
  Qed.

  Lemma add_pieces_psorted bp : forall d c fin d', wf d -> psorted d -> c < length (d_points d) -> fin < length (d_points d) ->
    add_pieces d c bp fin = Ok d' -> psorted d'.
  Proof.
    induction bp as [|p r IH]; intros d c fin d' W HP Hc Hf H; cbn [add_pieces] in H.
    - apply bind_ok in H as ((d1 & e) & H & K). injection K as <-. eapply (new_line_psorted d c fin); eauto.
    - destruct (find_or_add_point d (vx p) (vy p)) as [d1 k] eqn:E1.
      destruct (find_or_add_wf _ _ _ _ _ W E1) as (W1 & A1 & _).
      pose proof (points_grow_len _ _ (find_grow _ _ _ _ _ E1)) as G.
      assert (P1 := find_psorted _ _ _ _ _ (proj2 (proj2 W)) HP E1).
      assert (Hc1 : c < length (d_points d1)) by lia.
      destruct (new_line_run d1 c k W1 Hc1 A1) as (d2 & R & W2 & _ & _ & _ & _ & _ & C1 & C2).
      assert (P2 : psorted d2) by (eapply psorted_same; eauto).
      rewrite R in H. cbn [bind] in H.
      assert (L2 : length (d_points d2) = length (d_points d1)) by (rewrite <- !(map_length p_at), C2; auto).
      eapply (IH d2 k fin); eauto; lia.
  Qed.
  Lemma dropped_psorted d e a b : psorted d -> psorted (dropped d e a b).
  Proof. apply psorted_same; auto. cbn. rewrite !map_upd_keep; auto. Qed.
  Lemma break_half_psorted d e d' : wf d -> psorted d -> break_half d e = Ok d' -> psorted d'.
  Proof.
    intros W HP H. pose proof W as ((R1 & R2 & R3) & HS & HA). unfold break_half in H.
    apply bind_ok in H as (h & L & H). apply half_at_ok in L. destruct (h_breaks h); [injection H as <-; auto|].
    destruct (R3 e h L) as (Ls & Le). binvs.
    eapply psorted_same; [| |eapply (add_pieces_psorted _ d (h_start h) (h_end h)); eauto]; auto.
    all: repeat match goal with K : dpmod _ _ _ = Ok _ |- _ => apply dpmod_inv in K as (_ & ->) end; cbn;
      rewrite ?map_upd_keep; auto.
  Qed.
  Lemma break_halves_psorted l : forall d d', wf d -> psorted d -> NoDup l -> (forall e, In e l -> exists h, live d e h) ->
    break_halves d l = Ok d' -> psorted d'.
  Proof.
    induction l as [|e r IH]; intros d d' W HP ND HL H; cbn in H; [injection H as <-; auto|].
    apply bind_ok in H as (d1 & H1 & H). inversion ND; subst. destruct (HL e (or_introl eq_refl)) as (h & L).
    destruct (break_half_run d e h W L) as (d1' & R & W1 & _ & _ & K1 & _). rewrite R in H1. injection H1 as <-.
    apply (IH d1'); auto.
    - eapply (break_half_psorted d e); eauto.
    - intros i Hi. destruct (HL i (or_intror Hi)) as (x & Lx). exists x. apply K1; auto. intros ->; auto.
  Qed.
  Lemma process_break_psorted en d d' : wf d -> psorted d -> process_break en d = Ok d' -> psorted d'.
  Proof.
    intros W HP H. unfold process_break in H. apply bind_ok in H as (bs & _ & H). apply bind_ok in H as (d1 & H2 & H).
    apply intersect_all_sbb in H2. pose proof (sbb_wf _ _ H2 W) as W1. destruct (by_addr_live en d1 W1) as (B1 & B2).
    eapply (break_halves_psorted _ d1); eauto. destruct H2 as (A1 & A2 & _). apply (psorted_same d); [now rewrite A1|exact A2|exact HP].
  Qed.
  Lemma build_twins_of_psorted l : forall d d', wf d -> psorted d -> build_twins_of d l = Ok d' -> psorted d'.
  Proof.
    induction l as [|e r IH]; intros d d' W HP H; cbn in H; [injection H as <-; auto|].
    apply bind_ok in H as (d1 & H1 & H). unfold build_twin in H1.
    apply bind_ok in H1 as (h & L & H1). apply half_at_ok in L. pose proof W as ((R1 & R2 & R3) & HS & HA).
    destruct (R3 e h L) as (Ls & Le).
    destruct (new_line_run d _ _ W Le Ls) as (d2 & R & W2 & C1 & _ & _ & _ & _ & C5 & C6). rewrite R in H1. cbn [bind] in H1.
    apply bind_ok in H1 as (d3 & H3 & H4). apply hmod_inv in H3 as (_ & ->). apply hmod_inv in H4 as (_ & ->).
    eapply IH; [| |exact H].
    - apply wf_upd; auto. apply wf_upd; auto.
    - eapply psorted_same; [| |exact HP]; auto.
  Qed.
  Lemma twins_psorted en d d1 d2 : wf d -> psorted d -> process_break en d = Ok d1 -> build_twins en d1 = Ok d2 -> psorted d2.
  Proof.
    intros W HP H1 H2. destruct (process_break_ok en d d1 W H1) as (W2 & _).
    eapply build_twins_of_psorted; [exact W2| |exact H2]. apply (process_break_psorted en d); auto.
  Qed.

  Lemma psorted_unique d : all_in_set d -> Forall (fun p => vvalid (p_at p)) (d_points d) -> psorted d -> unique_points d.
  Proof.
    intros HA V HP. specialize (HP V). intros i j p q Hi Hj NE.
    assert (Vp : vvalid (p_at p)) by (rewrite Forall_forall in V; apply V; eapply nth_error_In; eauto).
    assert (Vq : vvalid (p_at q)) by (rewrite Forall_forall in V; apply V; eapply nth_error_In; eauto).
    assert (Ci : coord d i = p_at p) by (unfold coord; now rewrite Hi).
    assert (Cj : coord d j = p_at q) by (unfold coord; now rewrite Hj).
    assert (Ii : In i (d_pset d)).
    { eapply Permutation_in; [symmetry; exact HA|]. apply in_seq. apply nth_lt in Hi. lia. }
    assert (Ij : In j (d_pset d)).
    { eapply Permutation_in; [symmetry; exact HA|]. apply in_seq. apply nth_lt in Hj. lia. }
    clear HA V. induction HP as [|k r S IH F]; [contradiction|]. rewrite Forall_forall in F.
    destruct Ii as [->|Ii], Ij as [->|Ij]; [congruence| | |auto].
    - specialize (F j Ij). rewrite Ci, Cj in F. now apply vec_ltb_neq.
    - specialize (F i Ii). rewrite Ci, Cj in F. rewrite veqb_sym. now apply vec_ltb_neq.
  Qed.
End Unique.
