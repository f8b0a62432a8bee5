(** Every index kept by the clipper is in range; which accesses can still go wrong. *)
From Coq Require Import ZArith Bool List Lia.
From Verif Require Import Outcome Num Rmath Segment CurveR VState VPath VBreak VAel VOut VMain VLemmas VFrame AelSpec RingSpec BreakSpec
  VAelProofs VEdges VAelRun VRun VOutProofs ClimbFuel.
Import ListNotations.
Local Open Scope out.

(** [o] ends in a result with [Q], runs out of fuel, or fails as [E] allows. *)
Definition post {A} (E : ub -> Prop) (Q : A -> Prop) (o : outcome A) : Prop :=
  match o with Ok x => Q x | UB k => E k | NoFuel => True | Throw => False end.
Lemma post_bind {A B} (E : ub -> Prop) P (Q : B -> Prop) (o : outcome A) f :
  post E P o -> (forall x, o = Ok x -> P x -> post E Q (f x)) -> post E Q (bind o f).
Proof. destruct o; cbn; auto. Qed.
Lemma post_weak {A} (E : ub -> Prop) (P Q : A -> Prop) o : post E P o -> (forall x, o = Ok x -> P x -> Q x) -> post E Q o.
Proof. destruct o; cbn; auto. Qed.
Lemma post_more {A} (E F : ub -> Prop) (P : A -> Prop) o : post E P o -> (forall k, E k -> F k) -> post F P o.
Proof. destruct o; cbn; auto. Qed.
Lemma post_ok {A} (E : ub -> Prop) (Q : A -> Prop) x : Q x -> post E Q (Ok x).
Proof. auto. Qed.

Definition within (n : nat) (p : option nat) : Prop := match p with Some i => i < n | None => True end.
Lemma within_le n m p : n <= m -> within n p -> within m p.
Proof. destruct p; cbn; lia. Qed.
Lemma post_at {A} E (l : list A) i (Q : A -> Prop) : i < length l -> (forall x, nth_error l i = Some x -> Q x) -> post E Q (at_ l i).
Proof. intros L H. destruct (nth_some l i L) as [x Hx]. unfold at_. rewrite Hx. cbn. auto. Qed.
Lemma forall_upd {A} (P : A -> Prop) l i f : Forall P l -> (forall x, P x -> P (f x)) -> Forall P (upd l i f).
Proof. intros H K. revert i. induction H; intros [|i]; cbn; constructor; auto. Qed.
Lemma forall_nth {A} (P : A -> Prop) l i x : Forall P l -> nth_error l i = Some x -> P x.
Proof. intros H K. rewrite Forall_forall in H. apply H. eapply nth_error_In; eauto. Qed.

Section Solid.
  Context {T : Type} {N : Num T}.
  Implicit Types s : clipper T.
  Variable vs : list (vertex T).
  Variable C : nat -> Prop.
  (** Vertices of the set [C] are linked to vertices of [C] and carry a segment. *)
  Definition whole_at (i : nat) : Prop := exists v n p g, nth_error vs i = Some v /\ v_next v = Some n /\ v_prev v = Some p /\ v_seg v = Some g /\
    drawable g /\ C n /\ C p.
  Hypothesis HC : forall i, C i -> whole_at i.

  Definition edge_in (nE nB nL : nat) (e : edge T) : Prop :=
    C (e_vtop e) /\ e_lmin e < nL /\ within nE (e_prev e) /\ within nE (e_next e) /\ within nB (e_bound e).
  Definition bound_in (nE nB nP : nat) (b : bound T) : Prop :=
    within nB (ob_prev b) /\ within nB (ob_next b) /\ within nE (ob_edge b) /\ exists o, ob_owner b = Some o /\ o < nP.
  Definition poly_in (nB : nat) (o : poly T) : Prop := within nB (o_up_bound o) /\ within nB (o_down_bound o).
  Notation nE s := (length (edges s)).
  Notation nB s := (length (bounds s)).
  Notation nP s := (length (polys s)).
  Notation nL s := (length (lmins s)).
  Record solid s : Prop := {
    so_verts : verts s = vs;
    so_edges : Forall (edge_in (nE s) (nB s) (nL s)) (edges s);
    so_bounds : Forall (bound_in (nE s) (nB s) (nP s)) (bounds s);
    so_polys : Forall (poly_in (nB s)) (polys s);
    so_ael : within (nE s) (ael s);
    so_obl : within (nB s) (obl s);
    so_minima : Forall (fun m => m < nL s) (minima s);
    so_lmins : Forall (fun l => C (lm_vert l)) (lmins s) }.
  Definition onto s s' : Prop := solid s' /\ nE s <= nE s' /\ nB s <= nB s' /\ nP s <= nP s' /\ nL s' = nL s.
  Lemma onto_refl s : solid s -> onto s s.
  Proof. intros H. split; auto. Qed.
  Lemma onto_trans s1 s2 s3 : onto s1 s2 -> onto s2 s3 -> onto s1 s3.
  Proof. intros (_ & A1 & A2 & A3 & A4) (B & B1 & B2 & B3 & B4). split; auto. lia. Qed.
  Lemma edge_in_le a b c a' b' e : a <= a' -> b <= b' -> edge_in a b c e -> edge_in a' b' c e.
  Proof. intros L1 L2 (A & B & D & F & G). repeat split; auto; eapply within_le; eauto. Qed.
  Lemma bound_in_le a b c a' b' c' x : a <= a' -> b <= b' -> c <= c' -> bound_in a b c x -> bound_in a' b' c' x.
  Proof. intros L1 L2 L3 (A & B & D & o & F & G). repeat split; try (eapply within_le; eauto). exists o. split; auto. lia. Qed.
  Lemma poly_in_le a a' x : a <= a' -> poly_in a x -> poly_in a' x.
  Proof. intros L (A & B). split; eapply within_le; eauto. Qed.

  (** *** Reading and writing *)
  Section Access.
    Variable E : ub -> Prop.
    Lemma edge_of s i e : solid s -> nth_error (edges s) i = Some e -> edge_in (nE s) (nB s) (nL s) e.
    Proof. intros H K. exact (forall_nth _ _ _ _ (so_edges s H) K). Qed.
    Lemma at_edge s i : solid s -> i < nE s -> post E (edge_in (nE s) (nB s) (nL s)) (at_ (edges s) i).
    Proof. intros H L. apply post_at; auto. intros e. now apply edge_of. Qed.
    Lemma at_bound s i : solid s -> i < nB s -> post E (bound_in (nE s) (nB s) (nP s)) (at_ (bounds s) i).
    Proof. intros H L. apply post_at; auto. intros e K. exact (forall_nth _ _ _ _ (so_bounds s H) K). Qed.
    Lemma at_poly s i : solid s -> i < nP s -> post E (poly_in (nB s)) (at_ (polys s) i).
    Proof. intros H L. apply post_at; auto. intros e K. exact (forall_nth _ _ _ _ (so_polys s H) K). Qed.
    Lemma at_vert s i : solid s -> C i -> post E (fun v => exists n p g, v_next v = Some n /\ v_prev v = Some p /\ v_seg v = Some g /\ drawable g /\ C n /\ C p) (at_ (verts s) i).
    Proof. intros H K. destruct (HC i K) as (v & n & p & g & A & B). unfold at_. rewrite (so_verts s H), A. cbn. eauto. Qed.
    Lemma emod_post s i f : solid s -> i < nE s -> (forall e, edge_in (nE s) (nB s) (nL s) e -> edge_in (nE s) (nB s) (nL s) (f e)) ->
      post E (onto s) (emod s i f).
    Proof.
      intros H L K. unfold emod, at_. destruct (nth_some _ _ L) as [e He]. rewrite He. cbn [of_opt bind post].
      split; [|cbn; rewrite length_upd; lia]. destruct H. constructor; cbn; rewrite ?length_upd; auto. apply forall_upd; auto.
    Qed.
    Lemma emod_opt_post s p f : solid s -> within (nE s) p -> (forall e, edge_in (nE s) (nB s) (nL s) e -> edge_in (nE s) (nB s) (nL s) (f e)) ->
      post E (onto s) (emod_opt s p f).
    Proof. intros H L K. destruct p; cbn [emod_opt]; [now apply emod_post|]. now apply onto_refl. Qed.
    Lemma bmod_post s i f : solid s -> i < nB s -> (forall e, bound_in (nE s) (nB s) (nP s) e -> bound_in (nE s) (nB s) (nP s) (f e)) ->
      post E (onto s) (bmod s i f).
    Proof.
      intros H L K. unfold bmod, at_. destruct (nth_some _ _ L) as [e He]. rewrite He. cbn [of_opt bind post].
      split; [|cbn; rewrite length_upd; lia]. destruct H. constructor; cbn; rewrite ?length_upd; auto. apply forall_upd; auto.
    Qed.
    Lemma bmod_opt_post s p f : solid s -> within (nB s) p -> (forall e, bound_in (nE s) (nB s) (nP s) e -> bound_in (nE s) (nB s) (nP s) (f e)) ->
      post E (onto s) (bmod_opt s p f).
    Proof. intros H L K. destruct p; cbn [bmod_opt]; [now apply bmod_post|]. now apply onto_refl. Qed.
    Lemma pmod_post s i f : solid s -> i < nP s -> (forall e, poly_in (nB s) e -> poly_in (nB s) (f e)) -> post E (onto s) (pmod s i f).
    Proof.
      intros H L K. unfold pmod, at_. destruct (nth_some _ _ L) as [e He]. rewrite He. cbn [of_opt bind post].
      split; [|cbn; rewrite length_upd; lia]. destruct H. constructor; cbn; rewrite ?length_upd; auto. apply forall_upd; auto.
    Qed.
    Lemma ael_post s p : solid s -> within (nE s) p -> onto s (w_ael s p).
    Proof. intros H L. split; [|cbn; lia]. destruct H. constructor; auto. Qed.
    Lemma obl_post s p : solid s -> within (nB s) p -> onto s (w_obl s p).
    Proof. intros H L. split; [|cbn; lia]. destruct H. constructor; auto. Qed.
    Lemma change_post s x : solid s -> onto s (push_change s x).
    Proof. intros H. split; [|cbn; lia]. destruct H. constructor; auto. Qed.
    Lemma changes_post s x : solid s -> onto s (w_changes s x).
    Proof. intros H. split; [|cbn; lia]. destruct H. constructor; auto. Qed.
    Lemma scan_post s x : solid s -> onto s (insert_scanline s x).
    Proof. intros H. split; [|cbn; lia]. destruct H. constructor; auto. Qed.
    Lemma scans_post s x : solid s -> onto s (w_scans s x).
    Proof. intros H. split; [|cbn; lia]. destruct H. constructor; auto. Qed.
  End Access.

  (** One step of a run *)
  Ltac onto :=
    match goal with
    | |- onto ?s ?s => now apply onto_refl
    | H : onto ?s ?t |- onto ?s ?t => exact H
    | H : onto ?s ?t |- onto ?s ?u => apply (onto_trans s t u H); onto
    | _ => eauto
    end.
  Ltac rng := repeat match goal with H : onto _ _ |- _ => destruct H as (? & ? & ? & ? & ?) end; unfold edge_in, bound_in, within in *; try lia; auto.

  Section Steps.
    Variable E : ub -> Prop.
    Lemma get_polytype_post s e : solid s -> e_lmin e < nL s -> post E (fun _ => True) (get_polytype s e).
    Proof. intros H L. unfold get_polytype. eapply post_bind; [apply post_at with (Q := fun _ => True); auto|]. cbn. auto. Qed.
    Lemma is_maxima_post s e : solid s -> C (e_vtop e) -> post E (fun _ => True) (is_maxima s e).
    Proof. intros H L. unfold is_maxima. eapply post_bind; [apply at_vert; auto|]. cbn. auto. Qed.
    Lemma get_seg_post s e : solid s -> C (e_vtop e) -> post E (fun x => exists g, fst x = Some g /\ drawable g) (get_seg s e).
    Proof.
      intros H L. unfold get_seg. eapply post_bind; [apply at_vert; auto|]. intros v _ (n & p & g & A & B & D & F & G & I).
      destruct (edge_up e); [|cbn; eauto]. rewrite B. cbn [deref of_opt bind]. eapply post_bind; [apply at_vert; auto|].
      intros w _ (n' & p' & g' & A' & B' & D' & F' & _). cbn. eauto.
    Qed.
    Lemma edge_x_at_post s e y : solid s -> C (e_vtop e) -> post E (fun _ => True) (edge_x_at s e y).
    Proof.
      intros H L. unfold edge_x_at. eapply post_bind; [apply get_seg_post; auto|]. intros x _ (g & -> & D). cbn [of_opt bind].
      destruct g; try contradiction; cbn [seg_curr_x]; [exact I|]. rewrite point_at_y_eq. cbn [bind]. destruct (filter _ _) as [|? [|? ?]]; exact I.
    Qed.
    Lemma copy_seg_post s e r : solid s -> C (e_vtop e) -> post E (fun _ => True) (copy_seg s e r).
    Proof.
      intros H L. unfold copy_seg. eapply post_bind; [apply get_seg_post; auto|]. intros x _ (g & -> & D). cbn [of_opt bind].
      destruct g; try contradiction; exact I.
    Qed.
    Lemma is_same_post s a b : solid s -> C (e_vtop a) -> C (e_vtop b) -> post E (fun _ => True) (is_same s a b).
    Proof.
      intros H L L'. unfold is_same. eapply post_bind; [apply get_seg_post; auto|]. intros x _ (g & X & D).
      eapply post_bind; [apply get_seg_post; auto|]. intros y _ (h & Y & D'). destruct (_ && _); [|exact I].
      rewrite X, Y. cbn [of_opt bind]. destruct g, h; exact I.
    Qed.
    Lemma update_x_post s i y : solid s -> i < nE s -> post E (onto s) (update_x s i y).
    Proof.
      intros H L. unfold update_x. eapply post_bind; [apply at_edge; auto|]. intros e _ (K & _).
      eapply post_bind; [apply edge_x_at_post; auto|]. intros x _ _. apply emod_post; auto.
    Qed.
    Lemma next_edge_post s i : solid s -> i < nE s -> post E (onto s) (next_edge s i).
    Proof.
      intros H L. unfold next_edge. eapply post_bind; [apply at_edge; auto|]. intros e _ (K & _).
      eapply post_bind; [apply at_vert; auto|]. intros v _ (n & p & g & A & B & D & F & G & I).
      assert (X : exists k, (if edge_up e then v_next v else v_prev v) = Some k /\ C k) by (destruct (edge_up e); eauto).
      destruct X as (k & -> & Hk). cbn [deref of_opt bind]. eapply post_bind; [apply at_vert; auto|]. intros w _ _.
      apply emod_post; auto. intros f (? & ? & ? & ? & ?). repeat split; auto.
    Qed.

    (** *** The active edge list *)
    Lemma valid_order_post s r n : solid s -> edge_in (nE s) (nB s) (nL s) r -> edge_in (nE s) (nB s) (nL s) n ->
      post E (fun _ => True) (valid_order s r n).
    Proof.
      intros H (A & B & _) (A' & B' & _). unfold valid_order. destruct (negb _); [exact I|].
      eapply post_bind; [apply edge_x_at_post; auto|]. intros rx _ _. eapply post_bind; [apply edge_x_at_post; auto|]. intros nx _ _.
      destruct (negb _); [exact I|]. eapply post_bind; [apply get_polytype_post; auto|]. intros a _ _.
      eapply post_bind; [apply get_polytype_post; auto|]. intros b _ _. exact I.
    Qed.
    Lemma find_place_post fuel : forall s r n, solid s -> r < nE s -> edge_in (nE s) (nB s) (nL s) n -> post E (fun k => k < nE s) (find_place fuel s r n).
    Proof.
      induction fuel as [|fuel IH]; intros s r n H L K; cbn [find_place]; [exact I|].
      eapply post_bind; [apply at_edge; auto|]. intros e _ (A1 & A2 & A3 & A4 & A5). destruct (e_next e) as [k|]; [|exact L].
      eapply post_bind; [apply at_edge; auto|]. intros f _ F. eapply post_bind; [apply valid_order_post; auto|]. intros ok _ _.
      destruct ok; [apply IH; auto|exact L].
    Qed.
    Lemma insert_after_post s l n : solid s -> l < nE s -> n < nE s -> post E (onto s) (insert_after s l n).
    Proof.
      intros H L L'. unfold insert_after. eapply post_bind; [apply at_edge; auto|]. intros e _ F.
      eapply post_bind; [apply find_place_post; auto|]. intros r _ Hr. cbn beta in Hr. eapply post_bind; [apply at_edge; auto|]. intros er _ (_ & _ & _ & A & _).
      eapply post_bind; [apply emod_post; auto; intros x (? & ? & ? & ? & ?); repeat split; auto|]. intros s1 _ O1.
      eapply post_bind; [apply emod_opt_post; [apply O1|eapply within_le; [apply O1|auto]|]|].
      { intros x (? & ? & ? & ? & ?); repeat split; auto. cbn. destruct O1; lia. }
      intros s2 _ O2. pose proof (onto_trans _ _ _ O1 O2) as O12.
      eapply post_bind; [apply emod_post; [apply O2|rng|]|].
      { intros x (? & ? & ? & ? & ?); repeat split; auto. cbn. rng. }
      intros s3 _ O3. pose proof (onto_trans _ _ _ O12 O3) as O13.
      eapply post_weak; [apply emod_post; [apply O3|rng|]|].
      { intros x (? & ? & ? & ? & ?); repeat split; auto. cbn. rng. }
      intros s4 _ O4. exact (onto_trans _ _ _ O13 O4).
    Qed.
    Lemma insert_into_ael_post s n : solid s -> n < nE s -> post E (onto s) (insert_into_ael s n).
    Proof.
      intros H L. unfold insert_into_ael. pose proof (so_ael s H) as A. destruct (ael s) as [f|].
      - eapply post_bind; [apply at_edge; auto|]. intros ef _ F. eapply post_bind; [apply at_edge; auto|]. intros en _ G.
        eapply post_bind; [apply valid_order_post; auto|]. intros ok _ _. destruct ok; [apply insert_after_post; auto|].
        eapply post_bind; [apply emod_post; auto; intros x (? & ? & ? & ? & ?); repeat split; auto|]. intros s1 _ O1.
        eapply post_bind; [apply emod_post; [apply O1|cbn in A; rng|]|].
        { intros x (? & ? & ? & ? & ?); repeat split; auto. cbn. rng. }
        intros s2 _ O2. cbn [post]. apply (onto_trans _ s1); auto. apply (onto_trans _ s2); auto. apply ael_post; [apply O2|]. cbn. rng.
      - eapply post_bind; [apply emod_post; auto; intros x (? & ? & ? & ? & ?); repeat split; cbn; auto|]. intros s1 _ O1.
        cbn [post]. apply (onto_trans _ s1); auto. apply ael_post; [apply O1|]. cbn. rng.
    Qed.
    Lemma insert_into_ael_left_post s l n : solid s -> within (nE s) l -> n < nE s -> post E (onto s) (insert_into_ael_left s l n).
    Proof. intros H L K. destruct l; [apply insert_after_post|apply insert_into_ael_post]; auto. Qed.
    Lemma unlink_post s (i : edge T) : solid s -> within (nE s) (e_prev i) -> within (nE s) (e_next i) ->
      post E (onto s) (match e_prev i with Some p => emod s p (set_enext (e_next i)) | None => Ok (w_ael s (e_next i)) end).
    Proof.
      intros H A B. destruct (e_prev i); [apply emod_post; auto; intros x (? & ? & ? & ? & ?); repeat split; auto|].
      apply ael_post; auto.
    Qed.
    Lemma take_from_ael_post s i : solid s -> i < nE s -> post E (onto s) (take_from_ael s i).
    Proof.
      intros H L. unfold take_from_ael. eapply post_bind; [apply at_edge; auto|]. intros e _ (A1 & A2 & A3 & A4 & A5).
      eapply post_bind; [apply unlink_post; auto|]. intros s1 _ O1. cbn beta in O1.
      eapply post_bind; [apply emod_opt_post; [apply O1|eapply within_le; [apply O1|auto]|]|].
      { intros x (? & ? & ? & ? & ?); repeat split; auto. eapply within_le; [apply O1|auto]. }
      intros s2 _ O2. pose proof (onto_trans _ _ _ O1 O2) as O12.
      eapply post_weak; [apply emod_post; [apply O2|rng|]|].
      { intros x (? & ? & ? & ? & ?); repeat split; cbn; auto. }
      intros s3 _ O3. exact (onto_trans _ _ _ O12 O3).
    Qed.
    Lemma delete_active_edge_post s i : solid s -> i < nE s -> post E (fun x => onto s (snd x) /\ within (nE s) (fst x)) (delete_active_edge s i).
    Proof.
      intros H L. unfold delete_active_edge. eapply post_bind; [apply at_edge; auto|]. intros e _ (A1 & A2 & A3 & A4 & A5).
      eapply post_bind; [apply emod_opt_post; auto; intros x (? & ? & ? & ? & ?); repeat split; auto|]. intros s1 _ O1.
      eapply post_bind; [apply unlink_post; [apply O1|eapply within_le; [apply O1|auto]|eapply within_le; [apply O1|auto]]|].
      intros s2 _ O2. cbn. split; auto. exact (onto_trans _ _ _ O1 O2).
    Qed.

    (** *** New edges *)
    Lemma new_edge_post s e : solid s -> edge_in (nE s) (nB s) (nL s) e -> onto s (w_edges s (edges s ++ [e])) /\ nE (w_edges s (edges s ++ [e])) = S (nE s).
    Proof.
      intros H K. cbn [edges w_edges]. assert (L : length (edges s ++ [e]) = S (nE s)) by (rewrite app_length; cbn; lia). split; auto.
      split; [|cbn; lia]. destruct H. constructor; cbn; rewrite ?L; auto.
      - apply Forall_app. split; [|constructor; auto].
        + eapply Forall_impl; [|exact so_edges0]. intros x. apply edge_in_le; auto.
        + eapply edge_in_le; [| |exact K]; auto.
      - eapply Forall_impl; [|exact so_bounds0]. intros x. apply bound_in_le; auto.
      - eapply within_le; [|exact so_ael0]. auto.
    Qed.
    Lemma skip_horz_post fuel : forall s i, solid s -> i < nE s -> post E (onto s) (skip_horz fuel s i).
    Proof.
      induction fuel as [|fuel IH]; intros s i H L; cbn [skip_horz]; (eapply post_bind; [apply at_edge; auto|]); intros e _ _;
        (destruct (is_horz e); [|now apply onto_refl]); [exact I|].
      eapply post_bind; [apply next_edge_post; auto|]. intros s1 _ O1. eapply post_bind; [apply at_edge; [apply O1|rng]|]. intros f _ _.
      pose proof (change_post s1 (vx (e_bot f)) (proj1 O1)) as O2. pose proof (onto_trans _ _ _ O1 O2) as O12.
      eapply post_weak; [apply IH; [apply O2|rng]|]. intros s2 _ O3. exact (onto_trans _ _ _ O12 O3).
    Qed.
    Lemma start_edge_post s m bot top dx : solid s -> m < nL s -> C top -> post E (fun s' => onto s s' /\ nE s < nE s') (start_edge s m bot top dx).
    Proof.
      intros H L K. unfold start_edge. eapply post_bind; [apply at_vert; auto|]. intros v _ _. cbn zeta.
      destruct (new_edge_post s (Edge bot (v_pt v) (n_ofZ 0) dx 0 0 None None None top m) H) as [O1 L1].
      { repeat split; cbn; auto. }
      set (s1 := w_edges s _) in *. pose proof (change_post s1 (vx bot) (proj1 O1)) as O2. pose proof (onto_trans _ _ _ O1 O2) as O12.
      eapply post_bind; [apply skip_horz_post; [apply O2|cbn; cbn in L1; lia]|]. intros s2 _ O3. pose proof (onto_trans _ _ _ O12 O3) as O13.
      assert (L2 : nE s < nE s2) by (destruct O3 as (_ & ? & _); cbn in *; lia).
      eapply post_bind; [apply at_edge; [apply O3|auto]|]. intros e _ _. eapply post_weak; [apply emod_post; [apply O3|auto|auto]|].
      intros s3 _ O4. split; [exact (onto_trans _ _ _ O13 O4)|]. destruct O4; lia.
    Qed.
    Lemma insert_minimum_post s m : solid s -> m < nL s -> post E (onto s) (insert_minimum s m).
    Proof.
      intros H L. unfold insert_minimum. eapply post_bind; [apply post_at with (Q := fun l => C (lm_vert l)); auto|].
      { intros x K. exact (forall_nth _ _ _ _ (so_lmins s H) K). }
      intros l _ Hl. eapply post_bind; [apply at_vert; auto|]. intros v _ (n & p & g & A & B & D & F & G & I). rewrite A, B. cbn [deref of_opt bind]. cbn zeta.
      eapply post_bind; [apply start_edge_post; auto|]. intros s1 _ [O1 L1].
      eapply post_bind; [apply start_edge_post; [apply O1|destruct O1 as (_ & _ & _ & _ & ->); auto|auto]|]. intros s2 _ [O2 L2].
      pose proof (onto_trans _ _ _ O1 O2) as O12.
      eapply post_bind; [apply insert_into_ael_post; [apply O2|lia]|]. intros s3 _ O3. pose proof (onto_trans _ _ _ O12 O3) as O13.
      assert (L3 : nE s2 <= nE s3) by apply O3.
      eapply post_bind; [apply at_edge; [apply O3|lia]|]. intros ea _ (_ & _ & Ha & _).
      eapply post_bind; [apply insert_into_ael_left_post; [apply O3|auto|lia]|]. intros s4 _ O4. pose proof (onto_trans _ _ _ O13 O4) as O14.
      assert (L4 : nE s3 <= nE s4) by apply O4.
      eapply post_bind; [apply at_edge; [apply O4|lia]|]. intros eb _ _. eapply post_bind; [apply at_edge; [apply O4|lia]|]. intros ec _ _.
      cbn [post]. eapply onto_trans; [exact O14|]. eapply onto_trans; apply scan_post; [apply O4|]. apply scan_post, O4.
    Qed.
    Lemma cur_post s k : solid s -> onto s (w_minima s (minima s) k).
    Proof. intros H. split; [|cbn; lia]. destruct H. constructor; auto. Qed.
    Lemma insert_minima_post y rest : forall s, solid s -> Forall (fun m => m < nL s) rest -> post E (onto s) (insert_minima s y rest).
    Proof.
      induction rest as [|m r IH]; intros s H F; cbn [insert_minima]; [now apply onto_refl|]. apply Forall_cons_iff in F as [Hm F].
      eapply post_bind; [apply post_at with (Q := fun l => C (lm_vert l)); auto|].
      { intros x K. exact (forall_nth _ _ _ _ (so_lmins s H) K). }
      intros l _ Hl. eapply post_bind; [apply at_vert; auto|]. intros v _ _. destruct (n_eqb _ _); [|now apply onto_refl].
      pose proof (cur_post s (S (cur s)) H) as O0. eapply post_bind; [apply insert_minimum_post; [apply O0|auto]|]. intros s1 _ O1.
      pose proof (onto_trans _ _ _ O0 O1) as O01. eapply post_weak; [apply IH; [apply O1|]|].
      { destruct O01 as (_ & _ & _ & _ & ->). exact F. }
      intros s2 _ O2. exact (onto_trans _ _ _ O01 O2).
    Qed.
    Lemma forall_skipn {A} (P : A -> Prop) k : forall l, Forall P l -> Forall P (skipn k l).
    Proof. induction k; intros [|x l] H; cbn; auto. apply IHk. now apply Forall_cons_iff in H. Qed.
    Lemma insert_local_post s y : solid s -> post E (onto s) (insert_local_minima_to_ael s y).
    Proof. intros H. apply insert_minima_post; auto. apply forall_skipn, so_minima, H. Qed.

    (** *** Resorting *)
    Lemma unbound_post s p : solid s -> within (nB s) p -> post E (onto s) (match p with Some b => bmod s b (set_bedge None) | None => Ok s end).
    Proof.
      intros H L. destruct p; [|now apply onto_refl]. apply bmod_post; auto. intros x (? & ? & ? & ?). repeat split; cbn; auto.
    Qed.
    Lemma ebound_post s i p : solid s -> i < nE s -> within (nB s) p -> post E (onto s) (emod s i (set_ebound p)).
    Proof. intros H L K. apply emod_post; auto. intros x (? & ? & ? & ? & ?). repeat split; auto. Qed.
    Lemma take_changed_post fuel : forall s xs c acc, solid s -> within (nE s) c -> Forall (fun i => i < nE s) acc ->
      post E (fun x => onto s (fst x) /\ Forall (fun i => i < nE (fst x)) (snd x)) (take_changed fuel s xs c acc).
    Proof.
      induction fuel as [|fuel IH]; intros s xs c acc H L F; (destruct xs as [|x xr]; [cbn; split; [now apply onto_refl|auto]|]);
        (destruct c as [i|]; cbn [take_changed]; [|cbn; split; [now apply onto_refl|auto]]); [exact I|]. cbn in L.
      eapply post_bind; [apply at_edge; auto|]. intros e _ (A1 & A2 & A3 & A4 & A5). destruct (n_eqb (e_x e) x).
      - eapply post_bind; [apply unbound_post; auto|]. intros s1 _ O1. cbn beta in O1.
        eapply post_bind; [apply ebound_post; [apply O1|rng|exact I]|]. intros s2 _ O2. pose proof (onto_trans _ _ _ O1 O2) as O12.
        eapply post_bind; [apply take_from_ael_post; [apply O2|rng]|]. intros s3 _ O3. pose proof (onto_trans _ _ _ O12 O3) as O13.
        assert (LE : nE s <= nE s3) by apply O13.
        eapply post_weak; [apply IH; [apply O3|eapply within_le; [exact LE|auto]|]|].
        + apply Forall_app. split; [eapply Forall_impl; [|exact F]; cbn; intros; lia|constructor; auto; lia].
        + intros [s4 l] _ [O4 F4]. split; auto. exact (onto_trans _ _ _ O13 O4).
      - destruct (n_ltb x (e_x e)); apply IH; auto.
    Qed.
    Lemma insert_all_post l : forall s, solid s -> Forall (fun i => i < nE s) l -> post E (onto s) (insert_all s l).
    Proof.
      induction l as [|i l IH]; intros s H F; cbn [insert_all]; [now apply onto_refl|]. apply Forall_cons_iff in F as [Hi F].
      eapply post_bind; [apply insert_into_ael_post; auto|]. intros s1 _ O1. eapply post_weak; [apply IH; [apply O1|]|].
      - eapply Forall_impl; [|exact F]. cbn. intros j Hj. destruct O1; lia.
      - intros s2 _ O2. exact (onto_trans _ _ _ O1 O2).
    Qed.
    Lemma resort_ael_post s : solid s -> post E (onto s) (resort_ael s).
    Proof.
      intros H. unfold resort_ael. cbn zeta. pose proof (changes_post s (tidy_changes (changes s)) H) as O0.
      eapply post_bind; [apply take_changed_post; [apply O0|apply (so_ael s H)|constructor]|]. intros [s1 l] _ [O1 F]. cbn [fst snd] in *.
      eapply post_weak; [apply insert_all_post; [apply O1|auto]|]. intros s2 _ O2. eapply onto_trans; [exact O0|]. exact (onto_trans _ _ _ O1 O2).
    Qed.

    (** *** Winding counts *)
    Lemma find_left_post fuel : forall s t p, solid s -> within (nE s) p -> post E (within (nE s)) (find_left fuel s t p).
    Proof.
      induction fuel as [|fuel IH]; intros s t [i|] H L; cbn [find_left]; try exact I.
      eapply post_bind; [apply at_edge; auto|]. intros e _ (A1 & A2 & A3 & A4 & A5). eapply post_bind; [apply get_polytype_post; auto|]. intros u _ _.
      destruct (ptype_eqb u t); [exact L|]. apply IH; auto.
    Qed.
    Lemma sum_other_post s t a2 : solid s -> forall fuel a1 i b c, active s (a1 ++ a2 ++ i :: b) ->
      post E (fun _ => True) (sum_other fuel s t (hd_or (a2 ++ i :: b) None) i c).
    Proof.
      intros H. induction a2 as [|j a2 IH]; intros fuel a1 i b c HA.
      - cbn [app hd_or]. destruct fuel; cbn [sum_other]; rewrite (proj2 (ptr_eqb_eq (Some i) (Some i)) eq_refl); exact I.
      - cbn [app hd_or]. destruct fuel as [|fuel]; cbn [sum_other]; destruct (ptr_eqb (Some j) (Some i)); try exact I.
        cbn [app] in HA. destruct (active_split _ _ _ _ HA) as (e' & E' & _ & Q).
        cbn [deref of_opt bind]. eapply post_bind; [apply at_edge; auto; apply nth_error_Some; congruence|]. intros e Ee (A1 & A2 & _). apply at_ok in Ee.
        rewrite E' in Ee. injection Ee as <-. eapply post_bind; [apply get_polytype_post; auto|]. intros u _ _. rewrite Q.
        apply (IH fuel (a1 ++ [j])). rewrite <- app_assoc. exact HA.
    Qed.
    Lemma calc_windcnt_post s a i b : solid s -> active s (a ++ i :: b) -> post E (onto s) (calc_windcnt s i).
    Proof.
      intros H HA. destruct (active_split _ _ _ _ HA) as (e & Ee & P & Q). assert (L : i < nE s) by (apply nth_error_Some; congruence).
      unfold calc_windcnt. eapply post_bind; [apply at_edge; auto|]. intros x Ex (A1 & A2 & A3 & A4 & A5). apply at_ok in Ex. rewrite Ee in Ex. injection Ex as <-.
      eapply post_bind; [apply get_polytype_post; auto|]. intros pt _ _. rewrite P in *. eapply post_bind; [apply find_left_post; auto|]. intros lft F Hl.
      eapply post_bind with (P := fun r => exists a1 a2, a = a1 ++ a2 /\ snd (snd r) = hd_or (a2 ++ i :: b) None).
      - destruct lft as [j|]; [|cbn; exists [], a; split; auto; apply HA].
        destruct (find_left_place _ _ _ _ _ _ _ HA F) as (a1 & a2 & ->). rewrite <- app_assoc in HA. cbn [app] in HA.
        destruct (active_split _ _ _ _ HA) as (ej & Ej & _ & Qj). eapply post_bind; [apply at_edge; auto|]. intros f Ef _. apply at_ok in Ef. rewrite Ej in Ef.
        injection Ef as <-. cbn. exists (a1 ++ [j]), a2. rewrite <- app_assoc. auto.
      - intros [c [c2 from]] _ (a1 & a2 & -> & R). cbn [snd] in R. subst from. rewrite <- app_assoc in HA.
        eapply post_bind; [eapply sum_other_post; eauto|]. intros k _ _. apply emod_post; auto.
    Qed.
    Lemma recalc_at_post fuel : forall s x a b, solid s -> active s (a ++ b) -> post E (fun r => onto s (snd r)) (recalc_at fuel s x (hd_or b None)).
    Proof.
      induction fuel as [|fuel IH]; intros s x a b H HA; (destruct b as [|i b]; cbn [hd_or recalc_at]; [now apply onto_refl|]); [exact I|].
      destruct (active_split s a i b HA) as (e & Ee & P & Q). assert (L : i < nE s) by (apply nth_error_Some; congruence).
      eapply post_bind; [apply at_edge; auto|]. intros e' Ex (A1 & A2 & A3 & A4 & A5). apply at_ok in Ex. rewrite Ee in Ex. injection Ex as <-.
      assert (NX : forall s', onto s s' -> active s' (a ++ i :: b) -> post E (fun r => onto s (snd r)) (recalc_at fuel s' x (hd_or b None))).
      { intros s' O' HA'. eapply post_weak; [apply (IH s' x (a ++ [i]) b); [apply O'|rewrite <- app_assoc; exact HA']|].
        intros r _ Or. exact (onto_trans _ _ _ O' Or). }
      destruct (n_ltb (e_x e) x); [rewrite Q; apply NX; auto; now apply onto_refl|]. destruct (n_ltb x (e_x e)); [now apply onto_refl|].
      eapply post_bind; [apply unbound_post; auto|]. intros s1 F1 O1. cbn beta in O1.
      eapply post_bind; [apply ebound_post; [apply O1|rng|exact I]|]. intros s2 F2 O2. pose proof (onto_trans _ _ _ O1 O2) as O12.
      apply bmod_opt_edges in F1 as [G1 G2]. apply emod_ok in F2 as [_ ->].
      assert (HA2 : active (w_edges s1 (upd (edges s1) i (set_ebound None))) (a ++ i :: b)).
      { apply (active_bound s); auto. cbn. rewrite G1. apply erel_upd; [apply pre_bound|intros []; reflexivity]. }
      eapply post_bind; [eapply calc_windcnt_post; [apply O2|exact HA2]|]. intros s3 F3 O3. pose proof (onto_trans _ _ _ O12 O3) as O13.
      assert (HA3 : active s3 (a ++ i :: b)).
      { eapply active_count; [eapply calc_windcnt_ec; eauto| |exact HA2]. apply calc_windcnt_frame in F3. tauto. }
      eapply post_bind; [apply at_edge; [apply O3|rng]|]. intros e3 E3 _. apply at_ok in E3.
      destruct (active_split s3 a i b HA3) as (e4 & E4 & _ & Q4). rewrite E3 in E4. injection E4 as <-. rewrite Q4. apply NX; auto.
    Qed.
    Lemma recalc_all_post xs : forall s a b, solid s -> active s (a ++ b) -> post E (onto s) (recalc_all s xs (hd_or b None)).
    Proof.
      induction xs as [|x xs IH]; intros s a b H HA; cbn [recalc_all]; [now apply onto_refl|].
      eapply post_bind; [eapply recalc_at_post; eauto|]. intros [c s1] F O1. cbn [snd] in O1.
      destruct (recalc_at_place _ _ _ _ _ _ _ HA F) as (A & b1 & b2 & -> & ->). rewrite app_assoc in A.
      eapply post_weak; [apply (IH s1 (a ++ b1) b2); [apply O1|exact A]|]. intros s2 _ O2. exact (onto_trans _ _ _ O1 O2).
    Qed.
    Lemma recalc_windcnt_post s l : solid s -> active s l -> post E (onto s) (recalc_windcnt s).
    Proof.
      intros H HA. unfold recalc_windcnt. cbn zeta. pose proof (changes_post s (tidy_changes (changes s)) H) as O0.
      set (s1 := w_changes s _) in *. assert (HA' : active s1 ([] ++ l)) by exact HA.
      replace (ael s1) with (hd_or l None) by (symmetry; apply HA). eapply post_weak; [eapply recalc_all_post; [apply O0|exact HA']|].
      intros s2 _ O2. exact (onto_trans _ _ _ O0 O2).
    Qed.

    (** *** The top of a scan beam *)
    Lemma do_maxima_post s i : solid s -> i < nE s -> post E (fun x => onto s (snd x) /\ within (nE s) (fst x)) (do_maxima s i).
    Proof.
      intros H L. unfold do_maxima. eapply post_bind; [apply at_edge; auto|]. intros e _ (A1 & A2 & A3 & A4 & A5).
      eapply post_bind with (P := fun s1 => onto s s1 /\ nE s1 = nE s).
      - destruct (e_bound e); [|cbn; split; auto; now apply onto_refl]. eapply post_bind; [apply (unbound_post s (Some n)); auto|]. intros s1 F1 O1.
        eapply post_weak; [apply ebound_post; [apply O1|rng|exact I]|]. intros s2 F2 O2. split; [exact (onto_trans _ _ _ O1 O2)|].
        apply bmod_ok in F1 as [_ ->]. apply emod_ok in F2 as [_ ->]. cbn. now rewrite length_upd.
      - intros s1 _ [O1 L1]. eapply post_weak; [apply delete_active_edge_post; [apply O1|lia]|]. intros [p s2] _ [O2 W]. cbn in *.
        split; [exact (onto_trans _ _ _ O1 O2)|]. now rewrite <- L1.
    Qed.
    Lemma extend_bound_post s i : solid s -> i < nE s -> post E (onto s) (extend_bound s i).
    Proof.
      intros H L. unfold extend_bound. eapply post_bind; [apply at_edge; auto|]. intros e _ (A1 & A2 & A3 & A4 & A5).
      destruct (e_bound e) as [b|]; [|now apply onto_refl]. cbn in A5. eapply post_bind; [apply at_bound; auto|]. intros x _ (B1 & B2 & B3 & o & B4 & B5).
      eapply post_bind; [apply copy_seg_post; auto|]. intros g _ _. rewrite B4. cbn [deref of_opt bind].
      eapply post_bind; [apply pmod_post; auto; intros u [? ?]; destruct (bound_up x); split; auto|]. intros s1 _ O1.
      eapply post_weak; [apply bmod_post; [apply O1|rng|auto]|]. intros s2 _ O2. exact (onto_trans _ _ _ O1 O2).
    Qed.
    Lemma climb_post fuel : forall s i, solid s -> i < nE s -> post E (fun x => onto s (snd x) /\ within (nE (snd x)) (fst x)) (climb fuel s i).
    Proof.
      induction fuel as [|fuel IH]; intros s i H L; cbn [climb]; [exact I|].
      eapply post_bind; [apply at_edge; auto|]. intros e _ (A1 & A2 & A3 & A4 & A5). destruct (is_horz e).
      - cbn zeta. pose proof (change_post s (vx (e_top e)) H) as O0. eapply post_bind; [apply is_maxima_post; [apply O0|auto]|]. intros m _ _. destruct m.
        + eapply post_weak; [apply do_maxima_post; [apply O0|auto]|]. intros [p s1] _ [O1 W]. cbn in *. split; [exact (onto_trans _ _ _ O0 O1)|].
          eapply within_le; [|exact W]. apply O1.
        + eapply post_bind; [apply next_edge_post; [apply O0|auto]|]. intros s1 _ O1. pose proof (onto_trans _ _ _ O0 O1) as O01.
          eapply post_weak; [apply IH; [apply O1|rng]|]. intros r _ [O2 W]. split; auto. exact (onto_trans _ _ _ O01 O2).
      - cbn. split; auto. now apply scan_post.
    Qed.
    Lemma top_loop_post y fuel : forall s lx c, solid s -> within (nE s) c -> post E (onto s) (top_loop fuel s y lx c).
    Proof.
      induction fuel as [|fuel IH]; intros s lx [i|] H L; cbn [top_loop]; try exact I; try now apply onto_refl.
      eapply post_bind; [apply at_edge; auto|]. intros e _ (A1 & A2 & A3 & A4 & A5). cbn in L. destruct (n_eqb (vy (e_top e)) y).
      - cbn zeta. eapply post_bind; [apply emod_post; auto|]. intros s1 _ O1.
        assert (O2 : onto s (if n_eqb (vx (e_top e)) lx then push_change s1 lx else s1)).
        { destruct (n_eqb _ _); auto. eapply onto_trans; [exact O1|]. apply change_post, O1. }
        set (s2 := if n_eqb _ _ then _ else _) in *. eapply post_bind; [apply extend_bound_post; [apply O2|rng]|]. intros s3 _ O3.
        pose proof (onto_trans _ _ _ O2 O3) as O13. eapply post_bind; [apply is_maxima_post; [apply O3|auto]|]. intros m _ _. destruct m.
        + eapply post_bind; [apply do_maxima_post; [apply O3|rng]|]. intros [p s4] _ [O4 W]. cbn [fst snd] in *.
          pose proof (onto_trans _ _ _ O13 O4) as O14. eapply post_weak; [apply IH; [apply O4|eapply within_le; [|exact W]; apply O4]|].
          intros s5 _ O5. exact (onto_trans _ _ _ O14 O5).
        + eapply post_bind; [apply next_edge_post; [apply O3|rng]|]. intros s4 _ O4. pose proof (onto_trans _ _ _ O13 O4) as O14.
          eapply post_bind; [apply climb_post; [apply O4|rng]|]. intros [p s5] _ [O5 W]. cbn [fst snd] in *. pose proof (onto_trans _ _ _ O14 O5) as O15.
          eapply post_weak; [apply IH; [apply O5|exact W]|]. intros s6 _ O6. exact (onto_trans _ _ _ O15 O6).
      - eapply post_bind; [apply update_x_post; auto|]. intros s1 _ O1. eapply post_bind; [apply at_edge; [apply O1|rng]|].
        intros f _ (B1 & B2 & B3 & B4 & B5). eapply post_bind with (P := onto s1).
        { destruct (e_bound f); [|now apply onto_refl, O1]. apply bmod_post; auto. apply O1. }
        intros s2 _ O2. pose proof (onto_trans _ _ _ O1 O2) as O12. cbn zeta.
        assert (O3 : onto s2 (if n_eqb (e_x f) lx then push_change s2 lx else s2)).
        { destruct (n_eqb _ _); [apply change_post|apply onto_refl]; apply O2. }
        set (s3 := if n_eqb _ _ then _ else _) in *. pose proof (onto_trans _ _ _ O12 O3) as O13.
        eapply post_weak; [apply IH; [apply O3|]|].
        + eapply within_le; [|exact B4]. pose proof (onto_trans _ _ _ O2 O3) as O23. apply O23.
        + intros s4 _ O4. exact (onto_trans _ _ _ O13 O4).
    Qed.
    Lemma do_top_post s y : solid s -> post E (onto s) (do_top_of_scanbeam s y).
    Proof.
      intros H. unfold do_top_of_scanbeam. cbn zeta. pose proof (changes_post s [] H) as O0.
      eapply post_weak; [apply top_loop_post; [apply O0|apply (so_ael s H)]|]. intros s1 _ O1. exact (onto_trans _ _ _ O0 O1).
    Qed.
  End Steps.
End Solid.
