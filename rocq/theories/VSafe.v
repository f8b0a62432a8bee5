(** Building the output: which accesses can go wrong. *)
From Coq Require Import ZArith Bool List Lia Permutation.
From Verif Require Import Outcome Num Rmath Segment CurveR VState VPath VBreak VAel VOut VMain VLemmas VFrame AelSpec RingSpec BreakSpec
  VAelProofs VEdges VAelRun VRun VOutProofs SortProofs ClimbFuel VSolid ClimbNone.
Import ListNotations.
Local Open Scope out.

Section Safe.
  Context {T : Type} {N : Num T}.
  Implicit Types s : clipper T.
  Variable vs : list (vertex T).
  Variable C : nat -> Prop.
  Hypothesis HC : forall i, C i -> whole_at vs C i.
  Notation nE s := (length (edges s)).
  Notation nB s := (length (bounds s)).
  Notation nP s := (length (polys s)).
  Notation nL s := (length (lmins s)).
  Notation solid := (solid vs C).
  Notation onto := (onto vs C).
  Ltac rng := repeat match goal with H : VSolid.onto _ _ _ _ |- _ => destruct H as (? & ? & ? & ? & ?) end; unfold edge_in, bound_in, within in *; try lia; auto.
  Ltac tr := first [assumption|match goal with H : VSolid.onto _ _ ?s ?t |- VSolid.onto _ _ ?s ?u => apply (onto_trans _ _ _ _ _ H); assumption end].
  Ltac ontos := repeat match goal with
    | A : VSolid.onto _ _ ?s ?t, B : VSolid.onto _ _ ?t ?u |- _ =>
      lazymatch goal with H : VSolid.onto _ _ s u |- _ => fail | _ => pose proof (onto_trans _ _ _ _ _ A B) end
    end.

  Lemma at_run {A} (l : list A) i x : nth_error l i = Some x -> at_ l i = Ok x.
  Proof. unfold at_. now intros ->. Qed.
  Section Out.
    Variable E : ub -> Prop.
    Lemma is_contributing_post s e : solid s -> e_lmin e < nL s -> post E (fun _ => True) (is_contributing s e).
    Proof. intros H L. unfold is_contributing. eapply post_bind; [eapply get_polytype_post; eauto|]. intros; exact I. Qed.
    Lemma delete_obl_bound_post s b : solid s -> b < nB s -> post E (onto s) (delete_obl_bound s b).
    Proof.
      intros H L. unfold delete_obl_bound. eapply post_bind; [eapply at_bound; eauto|]. intros x _ (B1 & B2 & B3 & B4).
      eapply post_bind with (P := onto s).
      - destruct (ob_prev x); [apply bmod_post; auto; intros z (? & ? & ? & ?); repeat split; auto|]. apply obl_post; auto.
      - intros s1 _ O1. eapply post_weak; [apply bmod_opt_post; [apply O1|eapply within_le; [apply O1|auto]|]|].
        + intros z (? & ? & ? & ?); repeat split; auto. eapply within_le; [apply O1|auto].
        + intros s2 _ O2. tr.
    Qed.
    Lemma new_output_post s a b : solid s -> a < nE s -> b < nE s -> post E (onto s) (new_output s a b).
    Proof.
      intros H L L'. unfold new_output. destruct (nth_some _ _ L) as [ea Ea]. destruct (nth_some _ _ L') as [eb Eb].
      rewrite (at_run _ _ _ Ea), (at_run _ _ _ Eb). cbn [bind]. cbn zeta. set (s1 := w_bounds s _).
      rewrite (emod_run s1 a ea _ Ea). cbn [bind]. set (s2 := w_edges s1 _).
      assert (X : exists f, nth_error (edges s2) b = Some f) by (apply nth_some; cbn; rewrite length_upd; exact L').
      destruct X as [f F]. rewrite (emod_run s2 b f _ F). cbn [bind]. set (s3 := w_edges s2 _).
      assert (LE : nE s3 = nE s) by (cbn; now rewrite !length_upd).
      assert (LB : nB s3 = S (S (nB s))) by (cbn; rewrite app_length; cbn; lia).
      assert (FE : Forall (edge_in C (nE s3) (nB s3) (nL s)) (edges s3)).
      { rewrite LE, LB. cbn. apply forall_upd; [apply forall_upd|].
        - eapply Forall_impl; [|exact (so_edges _ _ s H)]. intros x. apply edge_in_le; lia.
        - intros x (? & ? & ? & ? & ?); repeat split; cbn; auto; lia.
        - intros x (? & ? & ? & ? & ?); repeat split; cbn; auto; lia. }
      assert (K : forall p, poly_in (nB s3) p -> onto s (w_polys s3 (polys s ++ [p]))).
      { intros p Hp. assert (LP : length (polys s ++ [p]) = S (nP s)) by (rewrite app_length; cbn; lia).
        split; [|change (nE s <= nE s3 /\ nB s <= nB s3 /\ nP s <= length (polys s ++ [p]) /\ nL s = nL s); rewrite LP; lia].
        destruct H. constructor; cbn [verts edges bounds polys lmins minima ael obl w_polys]; rewrite ?LP; auto.
        - rewrite LE, LB. cbn. apply Forall_app. split; [eapply Forall_impl; [|exact so_bounds]; intros x; apply bound_in_le; lia|].
          repeat constructor; cbn; try lia; eexists; (split; [reflexivity|lia]).
        - apply Forall_app. split; [eapply Forall_impl; [|exact so_polys]; intros x; apply poly_in_le; lia|]. constructor; auto.
        - rewrite LE. exact so_ael.
        - eapply within_le; [|exact so_obl]. lia. }
      destruct (edge_up ea); cbn [post]; apply K; split; cbn [o_up_bound o_down_bound within]; lia.
    Qed.
    Lemma update_bound_post s b e : solid s -> b < nB s -> e < nE s -> post E (onto s) (update_bound s b e).
    Proof.
      intros H L L'. unfold update_bound. eapply post_bind; [eapply at_bound; eauto|]. intros x _ (B1 & B2 & B3 & o & B4 & B5).
      eapply post_bind; [eapply at_edge; eauto|]. intros ed _ _. eapply post_bind with (P := onto s).
      - destruct (n_eqb _ _); [now apply onto_refl|]. rewrite B4. cbn [deref of_opt bind].
        destruct (bound_up x); apply pmod_post; auto; intros u [? ?]; split; auto.
      - intros s1 _ O1. eapply post_bind; [eapply bmod_post; [apply O1|rng|]|].
        { intros z (? & ? & ? & ?); repeat split; auto. cbn. rng. }
        intros s2 _ O2. ontos. eapply post_weak; [eapply ebound_post; [apply O2|rng|rng]|]. intros s3 _ O3. tr.
    Qed.
    Lemma collect_post fuel : forall s c acc, solid s -> within (nE s) c -> Forall (fun i => i < nE s) acc ->
      post E (Forall (fun i => i < nE s)) (collect fuel s c acc).
    Proof.
      induction fuel as [|fuel IH]; intros s [i|] acc H L F; cbn [collect]; try exact I; try exact F.
      eapply post_bind; [eapply at_edge; eauto|]. intros e _ (A1 & A2 & A3 & A4 & A5). eapply post_bind; [eapply is_contributing_post; eauto|]. intros k _ _.
      eapply post_bind with (P := Forall (fun i => i < nE s)).
      - destruct k; [|exact F]. destruct acc as [|j r]; [repeat constructor; auto|]. apply Forall_cons_iff in F as F'. destruct F' as [Fj Fr].
        eapply post_bind; [eapply at_edge; eauto|]. intros f _ (B1 & _). eapply post_bind; [eapply is_same_post; eauto|]. intros b _ _. cbn.
        destruct b; auto.
      - intros acc' _ F'. apply IH; auto.
    Qed.
    Lemma open_pairs_post k : forall s l, length l <= k -> solid s -> Forall (fun i => i < nE s) l ->
      post E (fun x => onto s (fst x) /\ Forall (fun i => i < nE (fst x)) (snd x)) (open_pairs s l).
    Proof.
      induction k as [|k IH]; intros s [|a [|b r]] LK H F; cbn [length] in LK; try lia; cbn [open_pairs]; try (cbn; split; [now apply onto_refl|auto]).
      apply Forall_cons_iff in F as [Fa F]. apply Forall_cons_iff in F as [Fb F].
      eapply post_bind; [eapply at_edge; eauto|]. intros ea _ _. eapply post_bind; [eapply at_edge; eauto|]. intros eb _ _.
      destruct (n_eqb _ _).
      - eapply post_bind; [apply new_output_post; auto|]. intros s1 _ O1. eapply post_weak; [apply IH; [lia|apply O1|]|].
        + eapply Forall_impl; [|exact F]. cbn. intros; rng.
        + intros x _ [O2 F2]. split; auto. tr.
      - eapply post_bind; [apply IH; [lia|auto|auto]|]. intros [s1 l] _ [O1 F1]. cbn in *. split; auto.
        constructor; [rng|]. constructor; [rng|auto].
    Qed.
    Definition bd_in (e b : nat) (x : bd (T := T)) : Prop := match bd_what x with inl i => i < e | inr i => i < b end.
    Lemma sbl_edges_post s l : solid s -> Forall (fun i => i < nE s) l -> forall k, post E (Forall (bd_in (nE s) (nB s))) (sbl_edges s l k).
    Proof.
      intros H F. induction F as [|i l Hi F IH]; intros k; cbn [sbl_edges]; [constructor|].
      eapply post_bind; [eapply at_edge; eauto|]. intros e _ _. eapply post_bind; [apply IH|]. intros t _ Ht. cbn. constructor; auto.
    Qed.
    Lemma sbl_bounds_post n : forall s c k, solid s -> within (nB s) c -> post E (Forall (bd_in (nE s) (nB s))) (sbl_bounds n s c k).
    Proof.
      induction n as [|n IH]; intros s [i|] k H L; cbn [sbl_bounds]; try exact I; try constructor.
      eapply post_bind; [eapply at_bound; eauto|]. intros b _ (_ & B & _). eapply post_bind; [apply IH; auto|]. intros t _ Ht. cbn. constructor; auto.
    Qed.
    Lemma find_other_forall (P : bd (T := T) -> Prop) x k : forall l o r, Forall P l -> find_other x k l = Some (o, r) -> P o /\ Forall P r.
    Proof.
      induction l as [|h l IH]; intros o r F H; cbn [find_other] in H; [discriminate|]. apply Forall_cons_iff in F as [Fh F].
      destruct (n_eqb _ _); [|discriminate]. destruct (Bool.eqb _ _); [|injection H as <- <-; auto].
      destruct (find_other x k l) as [[o' r']|] eqn:Q; [|discriminate]. injection H as <- <-. destruct (IH _ _ F eq_refl). auto.
    Qed.
    Lemma bd_in_le a b a' b' x : a <= a' -> b <= b' -> bd_in a b x -> bd_in a' b' x.
    Proof. unfold bd_in. destruct (bd_what x); lia. Qed.

    (** *** Where a null pointer or the end of a list may be followed *)
    Hypothesis EN : E NullDeref.
    Lemma absorb_post s d r up : solid s -> d < nP s -> r < nP s -> post E (onto s) (absorb s d r up).
    Proof.
      intros H L L'. unfold absorb. eapply post_bind; [eapply at_poly; eauto|]. intros pd _ _. eapply post_bind; [eapply at_poly; eauto|]. intros pr _ [Pu Pd].
      eapply post_bind with (P := onto s).
      - destruct up; (eapply post_bind; [eapply pmod_post; [exact H|auto|intros u [? ?]; split; auto]|]); intros s1 _ O1;
          [destruct (o_up_bound pr)|destruct (o_down_bound pr)]; cbn [deref of_opt bind]; auto;
          (eapply post_weak; [eapply bmod_post; [apply O1|rng|intros z (? & ? & ? & ? & ?); repeat split; auto; exists d; split; auto; rng]|]; intros s2 _ O2; tr).
      - intros s1 _ O1. eapply post_weak; [eapply pmod_post; [apply O1|rng|intros u _; split; exact I]|]. intros s2 _ O2. tr.
    Qed.
    Lemma join_output_post s a b y : solid s -> a < nB s -> b < nB s -> post E (onto s) (join_output s a b y).
    Proof.
      intros H L L'. unfold join_output. eapply post_bind; [eapply at_bound; eauto|]. intros ba _ (A1 & A2 & A3 & ao & A4 & A5).
      eapply post_bind; [eapply at_bound; eauto|]. intros bb _ (B1 & B2 & B3 & bo & B4 & B5).
      eapply post_bind; [eapply emod_opt_post; [exact H|auto|intros x (? & ? & ? & ? & ?); repeat split; cbn; auto]|]. intros s1 _ O1.
      eapply post_bind; [eapply emod_opt_post; [apply O1|eapply within_le; [apply O1|auto]|intros x (? & ? & ? & ? & ?); repeat split; cbn; auto]|]. intros s2 _ O2. ontos.
      eapply post_bind; [eapply bmod_post; [apply O2|rng|intros x (? & ? & ? & ?); repeat split; cbn; auto]|]. intros s3 _ O3. ontos.
      eapply post_bind; [eapply bmod_post; [apply O3|rng|intros x (? & ? & ? & ?); repeat split; cbn; auto]|]. intros s4 _ O4. ontos.
      rewrite A4, B4. cbn [deref of_opt bind]. assert (O04 : onto s s4) by tr. eapply post_bind with (P := onto s4).
      { destruct (n_eqb _ _); [now apply onto_refl, O4|]. destruct (bound_up ba); apply pmod_post; try apply O4; try (clear - O04 A5; rng); intros u [? ?]; split; auto. }
      intros s5 _ O5. assert (O05 : onto s s5) by tr. eapply post_bind with (P := onto s5).
      { destruct (Nat.eqb _ _); [apply pmod_post; [apply O5|clear - O05 A5; rng|intros u [? ?]; split; auto]|].
        destruct (Nat.ltb _ _); apply absorb_post; try apply O5; clear - O05 A5 B5; rng. }
      intros s6 _ O6. assert (O06 : onto s s6) by tr.
      eapply post_bind; [apply delete_obl_bound_post; [apply O6|clear - O06 L; rng]|]. intros s7 _ O7. assert (O07 : onto s s7) by tr.
      eapply post_weak; [apply delete_obl_bound_post; [apply O7|clear - O07 L'; rng]|]. intros s8 _ O8. tr.
    Qed.
    Lemma connect_post s a b y : solid s -> bd_in (nE s) (nB s) a -> bd_in (nE s) (nB s) b -> post E (onto s) (connect s a b y).
    Proof.
      intros H. unfold bd_in, connect. destruct (bd_what a), (bd_what b); intros A B;
        [apply new_output_post|apply update_bound_post|apply update_bound_post|apply join_output_post]; auto.
    Qed.
    Lemma link_obl_post l : forall s k, solid s -> k < nB s -> Forall (fun i => i < nE s) l -> post E (onto s) (link_obl s k l).
    Proof.
      induction l as [|i l IH]; intros s k H L F; cbn [link_obl]; [now apply onto_refl|]. apply Forall_cons_iff in F as [Fi F].
      eapply post_bind; [eapply at_edge; eauto|]. intros e _ (_ & _ & _ & _ & A).
      eapply post_bind; [eapply bmod_post; [exact H|auto|intros x (? & ? & ? & ?); repeat split; auto]|]. intros s1 _ O1.
      destruct (e_bound e) as [nb|]; cbn [deref of_opt bind]; auto. cbn in A.
      eapply post_bind; [eapply bmod_post; [apply O1|rng|intros x (? & ? & ? & ?); repeat split; auto; cbn; rng]|]. intros s2 _ O2. ontos.
      assert (O02 : onto s s2) by tr. eapply post_weak; [apply IH; [apply O2|clear - O02 A; rng|]|].
      - eapply Forall_impl; [|exact F]. cbn. intros j Hj. clear - O02 Hj. rng.
      - intros s3 _ O3. tr.
    Qed.
    Lemma rebuild_obl_post s l : solid s -> Forall (fun i => i < nE s) l -> post E (onto s) (rebuild_obl s l).
    Proof.
      intros H F. destruct l as [|i l]; cbn [rebuild_obl]; [apply obl_post; cbn; auto|]. apply Forall_cons_iff in F as [Fi F].
      eapply post_bind; [eapply at_edge; eauto|]. intros e _ (_ & _ & _ & _ & A). destruct (e_bound e) as [b|]; cbn [deref of_opt bind]; auto.
      assert (O0 : onto s (w_obl s (Some b))) by (apply obl_post; auto).
      eapply post_bind; [eapply bmod_post; [apply O0|exact A|intros x (? & ? & ? & ?); repeat split; cbn; auto]|]. intros s1 _ O1.
      assert (O01 : onto s s1) by tr. eapply post_weak; [apply link_obl_post; [apply O1|clear - O01 A; rng|]|].
      - eapply Forall_impl; [|exact F]. cbn. intros j Hj. clear - O01 Hj. rng.
      - intros s2 _ O2. tr.
    Qed.
    Lemma close_loop_post y fuel : forall s c n, solid s -> c < nB s -> within (nB s) n -> post E (onto s) (close_loop fuel s y c n).
    Proof.
      induction fuel as [|fuel IH]; intros s c [nx|] H L W; cbn [close_loop]; try exact I; try now apply onto_refl.
      eapply post_bind; [eapply at_bound; eauto|]. intros bn _ (_ & B & _). eapply post_bind; [eapply at_bound; eauto|]. intros bc _ _.
      eapply post_bind with (P := onto s).
      - destruct (n_eqb _ _); [apply join_output_post; auto|now apply onto_refl].
      - intros s1 _ O1. destruct (ob_next bn) as [c'|]; [|exact O1]. assert (Lc : c' < nB s1) by (clear - O1 B; rng).
        eapply post_bind; [eapply at_bound; [apply O1|exact Lc]|]. intros b _ (_ & B' & _).
        eapply post_weak; [apply IH; [apply O1|auto|auto]|]. intros s2 _ O2. tr.
    Qed.
    Lemma close_output_post n s y : solid s -> post E (onto s) (close_output n s y).
    Proof.
      intros H. unfold close_output. pose proof (so_obl _ _ s H) as L. destruct (obl s); [|now apply onto_refl]. cbn in L.
      eapply post_bind; [eapply at_bound; eauto|]. intros b _ (_ & B & _). apply close_loop_post; auto.
    Qed.
    Hypothesis EE : E EndDeref.
    Lemma match_up_post y k : forall s l, solid s -> Forall (bd_in (nE s) (nB s)) l -> post E (onto s) (match_up k s y l).
    Proof.
      induction k as [|k IH]; intros s [|it r] H F; cbn [match_up]; try exact I; try now apply onto_refl. apply Forall_cons_iff in F as [Fi F].
      assert (K : forall o r', bd_in (nE s) (nB s) o -> Forall (bd_in (nE s) (nB s)) r' -> post E (onto s) (do s <- connect s it o y ;; match_up k s y r')).
      { intros o r' Fo Fr. eapply post_bind; [apply connect_post; auto|]. intros s1 _ O1. eapply post_weak; [apply IH; [apply O1|]|].
        - eapply Forall_impl; [|exact Fr]. intros x. apply bd_in_le; apply O1.
        - intros s2 _ O2. tr. }
      destruct (find_other _ _ r) as [[o r']|] eqn:Q; [destruct (find_other_forall _ _ _ _ _ _ F Q); auto|].
      destruct r as [|n r']; [exact EE|]. apply Forall_cons_iff in F as [Fn F]. auto.
    Qed.
    Lemma update_output_bound_post n s y : solid s -> post E (onto s) (update_output_bound n s y).
    Proof.
      intros H. unfold update_output_bound. destruct (changes s); [now apply onto_refl|]. cbn zeta. pose proof (changes_post vs C s [] H) as O0.
      eapply post_bind; [apply collect_post; [apply O0|apply (so_ael _ _ s H)|constructor]|]. intros be _ Fb.
      eapply post_bind; [eapply open_pairs_post; [reflexivity|apply O0|apply Forall_rev, Fb]|]. intros [s1 lft] _ [O1 F1]. cbn [fst snd] in *.
      eapply post_bind; [apply sbl_edges_post; [apply O1|auto]|]. intros se _ Fe.
      eapply post_bind; [apply sbl_bounds_post; [apply O1|apply (so_obl _ _ s1 (proj1 O1))]|]. intros sb _ Fs. cbn zeta.
      eapply post_bind; [apply match_up_post; [apply O1|]|].
      { eapply Permutation_Forall; [apply sort_by_perm|]. apply Forall_app. auto. }
      intros s2 _ O2. assert (O02 : onto (w_changes s []) s2) by tr. eapply post_weak; [apply rebuild_obl_post; [apply O2|]|].
      - apply Forall_rev. eapply Forall_impl; [|exact Fb]. cbn beta. intros j Hj. clear - O02 Hj. rng.
      - intros s3 _ O3. eapply onto_trans; [exact O0|]. tr.
    Qed.
  End Out.
End Safe.
