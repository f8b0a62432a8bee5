(** The pieces of the output come from the contours. *)
From Coq Require Import ZArith Bool List Lia.
From Verif Require Import Outcome Num Order Rmath Segment CurveR ScanLine VState VPath VBreak VAel VOut VMain VLemmas VFrame AelSpec RingSpec PathSpec BreakSpec VAelProofs VEdges VAelRun VRun VOutProofs SortProofs VBuild VAdd VBroken BreakStatements BreakDrawn ClimbPoly ClimbSpec ClimbFuel VSolid VSafe ClimbNone ClipSpec VSafeRun VSafeEnd PieceSpec.
Import ListNotations.
Local Open Scope out.

(** What holds of a result if there is one *)
Definition okp {A} (Q : A -> Prop) (o : outcome A) : Prop := forall x, o = Ok x -> Q x.
Lemma okp_bind {A B} P (Q : B -> Prop) (o : outcome A) f : okp P o -> (forall x, P x -> okp Q (f x)) -> okp Q (bind o f).
Proof. intros H K y E. apply bind_ok in E as (x & E & F). exact (K x (H x E) y F). Qed.
Lemma okp_any {A B} (Q : B -> Prop) (o : outcome A) f : (forall x, okp Q (f x)) -> okp Q (bind o f).
Proof. intros H. apply (okp_bind (fun _ => True)); auto. intros x _. exact I. Qed.
Lemma okp_at {A B} (Q : B -> Prop) (l : list A) i f : (forall x, nth_error l i = Some x -> okp Q (f x)) -> okp Q (bind (at_ l i) f).
Proof. intros H. apply (okp_bind (fun x => nth_error l i = Some x)); auto. intros x E. now apply at_ok in E. Qed.
Lemma okp_ok {A} (Q : A -> Prop) x : Q x -> okp Q (Ok x).
Proof. intros H y E. now injection E as <-. Qed.
Lemma okp_ub {A} (Q : A -> Prop) k : okp Q (UB k).
Proof. intros y E. discriminate. Qed.
Lemma okp_fuel {A} (Q : A -> Prop) : okp Q NoFuel.
Proof. intros y E. discriminate. Qed.
Lemma okp_throw {A} (Q : A -> Prop) : okp Q Throw.
Proof. intros y E. discriminate. Qed.
Lemma okp_weak {A} (P Q : A -> Prop) o : okp P o -> (forall x, P x -> Q x) -> okp Q o.
Proof. intros H K x E. auto. Qed.

Section Piece.
  Context {T : Type} {N : Num T}.
  Implicit Types s : clipper T.
  Variable vs : list (vertex T).
  Variable C : nat -> Prop.
  (** Vertices of [C] are linked to vertices of [C] on both sides. *)
  Definition tied_at (i : nat) : Prop := exists n p g h, link vs i n g /\ link vs p i h /\ drawable g /\ drawable h /\ C n /\ C p.
  Hypothesis HC : forall i, C i -> tied_at i.

  Definition at_level (y : T) : Prop := exists q, corner vs q /\ y = vy q.
  Lemma corner_at i v : nth_error vs i = Some v -> corner vs (v_pt v).
  Proof. intros H. exists v. split; auto. eapply nth_error_In; eauto. Qed.
  (** The edge goes from one vertex to the next. *)
  Definition stands (e : edge T) : Prop :=
    C (e_vtop e) /\ exists w i u, nth_error vs (e_vtop e) = Some w /\ e_top e = v_pt w /\
      neighbour (negb (edge_up e)) w = Some i /\ nth_error vs i = Some u /\ e_bot e = v_pt u.
  Definition same_stand (e f : edge T) : Prop := e_bot f = e_bot e /\ e_top f = e_top e /\ e_dx f = e_dx e /\ e_vtop f = e_vtop e.
  Lemma stands_same e f : same_stand e f -> stands e -> stands f.
  Proof. intros (A & B & D & F) H. unfold stands, edge_up in *. now rewrite A, B, D, F. Qed.
  Definition fine (g : seg T) : Prop :=
    match g with
    | SLine p => at_level (vy p)
    | SCubic a b p => exists q, piece vs q p (SCubic a b p)
    | _ => False
    end.
  Definition fine_poly (o : poly T) : Prop := corner vs (o_origin o) /\ Forall fine (o_up o) /\ Forall fine (o_down o).
  Record tied s : Prop := {
    td_verts : verts s = vs;
    td_lmins : Forall (fun l => C (lm_vert l)) (lmins s);
    td_edges : Forall stands (edges s);
    td_scans : Forall at_level (scans s);
    td_polys : Forall fine_poly (polys s) }.

  Lemma tied_ael s p : tied s -> tied (w_ael s p).
  Proof. intros []. now constructor. Qed.
  Lemma tied_obl s p : tied s -> tied (w_obl s p).
  Proof. intros []. now constructor. Qed.
  Lemma tied_bounds s p : tied s -> tied (w_bounds s p).
  Proof. intros []. now constructor. Qed.
  Lemma tied_changes s p : tied s -> tied (w_changes s p).
  Proof. intros []. now constructor. Qed.
  Lemma tied_minima s p q : tied s -> tied (w_minima s p q).
  Proof. intros []. now constructor. Qed.
  Lemma tied_op s p q : tied s -> tied (w_op s p q).
  Proof. intros []. now constructor. Qed.
  Lemma tied_change s x : tied s -> tied (push_change s x).
  Proof. apply tied_changes. Qed.
  Lemma tied_scan s y : tied s -> at_level y -> tied (insert_scanline s y).
  Proof.
    intros [] H. constructor; auto. cbn. eapply Permutation.Permutation_Forall; [apply SortProofs.insert_by_perm|]. now constructor.
  Qed.
  Lemma emod_tied s i f : tied s -> (forall e, stands e -> stands (f e)) -> okp tied (emod s i f).
  Proof. intros [] H. unfold emod. apply okp_any. intros _. apply okp_ok. constructor; auto. cbn. now apply forall_upd. Qed.
  Lemma esame_tied s i f : tied s -> (forall e, same_stand e (f e)) -> okp tied (emod s i f).
  Proof. intros H K. apply emod_tied; auto. intros e. apply stands_same. auto. Qed.
  Lemma eopt_tied s p f : tied s -> (forall e, same_stand e (f e)) -> okp tied (emod_opt s p f).
  Proof. intros H K. destruct p; [now apply esame_tied|now apply okp_ok]. Qed.
  Lemma bmod_tied s i f : tied s -> okp tied (bmod s i f).
  Proof. intros H. unfold bmod. apply okp_any. intros _. apply okp_ok. now apply tied_bounds. Qed.
  Lemma bopt_tied s p f : tied s -> okp tied (bmod_opt s p f).
  Proof. intros H. destruct p; [now apply bmod_tied|now apply okp_ok]. Qed.
  Lemma pmod_tied s i f : tied s -> (forall o, fine_poly o -> fine_poly (f o)) -> okp tied (pmod s i f).
  Proof. intros [] H. unfold pmod. apply okp_any. intros _. apply okp_ok. constructor; auto. cbn. now apply forall_upd. Qed.
  Lemma stands_edge s i e : tied s -> nth_error (edges s) i = Some e -> stands e.
  Proof. intros H. apply forall_nth. apply H. Qed.

  Ltac same := intros []; repeat split; reflexivity.
  Ltac wp :=
    repeat match goal with
      | |- tied _ => assumption
      | |- tied (snd (_, _)) => cbn [snd]
      | |- tied (fst (_, _)) => cbn [fst]
      | |- tied (w_ael _ _) => apply tied_ael
      | |- tied (w_obl _ _) => apply tied_obl
      | |- tied (w_changes _ _) => apply tied_changes
      | |- tied (push_change _ _) => apply tied_change
      | |- okp _ (Ok _) => apply okp_ok
      | |- okp _ (UB _) => apply okp_ub
      | |- okp _ NoFuel => apply okp_fuel
      | |- okp _ Throw => apply okp_throw
      | |- okp _ (emod _ _ _) => apply esame_tied; [|same]
      | |- okp _ (emod_opt _ _ _) => apply eopt_tied; [|same]
      | |- okp _ (bmod _ _ _) => apply bmod_tied
      | |- okp _ (bmod_opt _ _ _) => apply bopt_tied
      | |- okp _ (bind (at_ _ _) _) => apply okp_at; intros ? ?
      | |- okp _ (bind (emod _ _ _) _) => apply (okp_bind tied); [|intros ? ?]
      | |- okp _ (bind (emod_opt _ _ _) _) => apply (okp_bind tied); [|intros ? ?]
      | |- okp _ (bind (bmod _ _ _) _) => apply (okp_bind tied); [|intros ? ?]
      | |- okp _ (bind (bmod_opt _ _ _) _) => apply (okp_bind tied); [|intros ? ?]
      | |- okp _ (bind (match _ with Some _ => emod _ _ _ | None => _ end) _) => apply (okp_bind tied); [|intros ? ?]
      | |- okp _ (bind (match _ with Some _ => bmod _ _ _ | None => _ end) _) => apply (okp_bind tied); [|intros ? ?]
      | |- okp _ (bind (deref _) _) => apply okp_any; intros ?
      | |- okp _ (bind (get_polytype _ _) _) => apply okp_any; intros ?
      | |- okp _ (bind (valid_order _ _ _) _) => apply okp_any; intros ?
      | |- okp _ (bind (find_place _ _ _ _) _) => apply okp_any; intros ?
      | |- okp _ (bind (is_maxima _ _) _) => apply okp_any; intros ?
      | |- okp _ (match ?x with _ => _ end) => destruct x eqn:?
      end.

  Lemma insert_after_tied s l n : tied s -> okp tied (insert_after s l n).
  Proof. intros H. unfold insert_after. wp. Qed.
  Lemma insert_into_ael_tied s n : tied s -> okp tied (insert_into_ael s n).
  Proof. intros H. unfold insert_into_ael. wp. now apply insert_after_tied. Qed.
  Lemma insert_left_tied s l n : tied s -> okp tied (insert_into_ael_left s l n).
  Proof. destruct l; [apply insert_after_tied|apply insert_into_ael_tied]. Qed.
  Lemma take_from_ael_tied s i : tied s -> okp tied (take_from_ael s i).
  Proof. intros H. unfold take_from_ael. wp. Qed.
  Lemma delete_tied s i : tied s -> okp (fun x => tied (snd x)) (delete_active_edge s i).
  Proof. intros H. unfold delete_active_edge. wp. Qed.
  Lemma calc_tied s i : tied s -> okp tied (calc_windcnt s i).
  Proof. intros H. unfold calc_windcnt. wp. apply okp_any. intros lft. apply okp_any. intros [c [c2 from]]. apply okp_any. intros c'. wp. Qed.
  Lemma recalc_at_tied fuel : forall s x c, tied s -> okp (fun r => tied (snd r)) (recalc_at fuel s x c).
  Proof.
    induction fuel; intros s x c H; cbn [recalc_at]; wp; try (now apply IHfuel). apply (okp_bind tied); [now apply calc_tied|]. intros. wp. now apply IHfuel.
  Qed.
  Lemma recalc_all_tied xs : forall s c, tied s -> okp tied (recalc_all s xs c).
  Proof.
    induction xs; intros s c H; cbn [recalc_all]; wp. apply (okp_bind (fun r => tied (snd r))); [now apply recalc_at_tied|]. intros [c' s'] H'. now apply IHxs.
  Qed.
  Lemma recalc_tied s : tied s -> okp tied (recalc_windcnt s).
  Proof. intros H. apply recalc_all_tied. now apply tied_changes. Qed.

  (** *** From vertex to vertex *)
  Lemma link_next i w j : C i -> nth_error vs i = Some w -> v_next w = Some j -> exists u, C j /\ nth_error vs j = Some u /\ v_prev u = Some i.
  Proof.
    intros H V E. destruct (HC i H) as (n & p & g & h & (a & b & A & B & X1 & X2 & _) & _ & _ & _ & Cn & _). rewrite V in A. injection A as <-.
    rewrite E in X1. injection X1 as <-. eauto.
  Qed.
  Lemma link_prev i w j : C i -> nth_error vs i = Some w -> v_prev w = Some j -> exists u, C j /\ nth_error vs j = Some u /\ v_next u = Some i.
  Proof.
    intros H V E. destruct (HC i H) as (n & p & g & h & _ & (a & b & A & B & X1 & X2 & _) & _ & _ & _ & Cp). rewrite V in B. injection B as <-.
    rewrite E in X2. injection X2 as <-. eauto.
  Qed.
  Lemma link_way fwd i w j : C i -> nth_error vs i = Some w -> neighbour fwd w = Some j ->
    exists u, C j /\ nth_error vs j = Some u /\ neighbour (negb fwd) u = Some i.
  Proof. destruct fwd; [apply link_next|apply link_prev]. Qed.
  Lemma next_edge_tied s i : tied s -> okp tied (next_edge s i).
  Proof.
    intros H. unfold next_edge. apply okp_at. intros e E. apply okp_at. intros v V. rewrite (td_verts _ H) in V |- *.
    pose proof (stands_edge _ _ _ H E) as (Ce & w & k & u & W & _). rewrite V in W. injection W as <-.
    intros s' K. apply bind_ok in K as (n & D & K). apply deref_ok in D. apply bind_ok in K as (vn & An & K). apply at_ok in An.
    destruct (link_way (edge_up e) _ _ n Ce V D) as (x & Cn & X & B). rewrite An in X. injection X as <-.
    unfold emod in K. apply bind_ok in K as (e' & E' & K). apply at_ok in E'. rewrite E in E'. injection E' as <-. injection K as <-.
    constructor; cbn; try apply H. apply Forall_forall. intros f F. apply In_nth_error in F as [j F].
    rewrite nth_upd in F. destruct (Nat.eqb i j) eqn:Ne.
    - apply Nat.eqb_eq in Ne. subst j. rewrite E in F. cbn [option_map] in F. injection F as <-. split; [exact Cn|]. cbn.
      exists vn, (e_vtop e), v. csplit; auto. destruct (stands_edge _ _ _ H E) as (_ & w & k' & u' & W & TP & _). rewrite V in W. injection W as <-. exact TP.
    - exact (stands_edge _ _ _ H F).
  Qed.
  Lemma stands_top e : stands e -> at_level (vy (e_top e)).
  Proof. intros (_ & w & i & u & W & E & _). exists (v_pt w). split; [eapply corner_at; eauto|]. now rewrite E. Qed.
  Lemma stands_bot e : stands e -> corner vs (e_bot e).
  Proof. intros (_ & w & i & u & _ & _ & _ & U & ->). eapply corner_at; eauto. Qed.
  Lemma skip_horz_tied fuel : forall s i, tied s -> okp tied (skip_horz fuel s i).
  Proof.
    induction fuel; intros s i H; cbn [skip_horz]; wp. apply (okp_bind tied); [now apply next_edge_tied|]. intros. wp. apply IHfuel. wp.
  Qed.
  Lemma start_edge_tied s m i v top dx : tied s -> C i -> nth_error vs i = Some v -> neighbour (Z.ltb dx 0) v = Some top ->
    okp tied (start_edge s m (v_pt v) top dx).
  Proof.
    intros H Ci V E. unfold start_edge. apply okp_at. intros vt VT. rewrite (td_verts _ H) in VT.
    apply (okp_bind tied).
    - apply skip_horz_tied. apply tied_change. constructor; cbn; try apply H. apply Forall_app. split; [apply H|]. constructor; [|constructor].
      destruct (link_way _ _ _ _ Ci V E) as (u & Ct & U & B). rewrite VT in U. injection U as <-. split; [exact Ct|]. cbn.
      exists vt, i, v. csplit; auto.
    - intros. wp.
  Qed.
  Lemma insert_minimum_tied s m : tied s -> okp tied (insert_minimum s m).
  Proof.
    intros H. unfold insert_minimum. apply okp_at. intros lm L. pose proof (forall_nth _ _ _ _ (td_lmins _ H) L) as Cl. cbn beta in Cl.
    apply okp_at. intros v V. rewrite (td_verts _ H) in V. intros s' K.
    apply bind_ok in K as (p & Ep & K). apply deref_ok in Ep. apply bind_ok in K as (n & En & K). apply deref_ok in En. revert s' K.
    match goal with |- forall s', ?o = _ -> _ => change (okp tied o) end.
    apply (okp_bind tied); [now apply (start_edge_tied s m (lm_vert lm))|]. intros s1 H1.
    apply (okp_bind tied); [now apply (start_edge_tied s1 m (lm_vert lm))|]. intros s2 H2.
    apply (okp_bind tied); [now apply insert_into_ael_tied|]. intros s3 H3. apply okp_at. intros ea EA.
    apply (okp_bind tied); [now apply insert_left_tied|]. intros s4 H4. apply okp_at. intros ea' EA'. apply okp_at. intros eb EB. apply okp_ok.
    apply tied_scan; [apply tied_scan; auto|]; apply stands_top; eapply stands_edge; eauto.
  Qed.
  Lemma insert_minima_tied y rest : forall s, tied s -> okp tied (insert_minima s y rest).
  Proof.
    induction rest; intros s H; cbn [insert_minima]; wp. apply (okp_bind tied); [apply insert_minimum_tied; now apply tied_minima|]. intros. now apply IHrest.
  Qed.
  Lemma take_changed_tied fuel : forall s xs c acc, tied s -> okp (fun r => tied (fst r)) (take_changed fuel s xs c acc).
  Proof.
    induction fuel; intros s xs c acc H; cbn [take_changed]; destruct xs; wp; try (now apply IHfuel).
    apply (okp_bind tied); [now apply take_from_ael_tied|]. intros. now apply IHfuel.
  Qed.
  Lemma insert_all_tied l : forall s, tied s -> okp tied (insert_all s l).
  Proof. induction l; intros s H; cbn [insert_all]; wp. apply (okp_bind tied); [now apply insert_into_ael_tied|]. intros. now apply IHl. Qed.
  Lemma resort_tied s : tied s -> okp tied (resort_ael s).
  Proof.
    intros H. unfold resort_ael. apply (okp_bind (fun r => tied (fst r))); [apply take_changed_tied; now apply tied_changes|].
    intros [s' l] H'. now apply insert_all_tied.
  Qed.

  (** *** Copies of segments *)
  Lemma backwards_reverse p (g : seg T) : drawable g -> seg_reverse g p = backwards p g.
  Proof. destruct g; try contradiction; reflexivity. Qed.
  Lemma copy_piece s e up : verts s = vs -> stands e ->
    exists g, copy_seg s e (xorb (edge_up e) up) = Ok g /\ drawable g /\
      piece vs (if up then e_bot e else e_top e) (if up then e_top e else e_bot e) g.
  Proof.
    intros HV (Ce & w & i & u & W & TP & NB & U & BT). unfold copy_seg, get_seg, at_. rewrite HV, W. cbn [of_opt bind].
    destruct (edge_up e) eqn:UP; cbn [negb neighbour xorb] in *.
    - rewrite NB. cbn [deref of_opt bind]. rewrite U. cbn [of_opt bind fst snd].
      destruct (HC _ Ce) as (n & p & g & h & _ & LK & _ & D & _ & _).
      pose proof LK as (a & b & A & B & X1 & X2 & X3 & X4). rewrite W in B. injection B as <-. rewrite NB in X2. injection X2 as ->.
      rewrite U in A. injection A as <-. rewrite X3. cbn [of_opt bind fst snd].
      assert (E : forall z : seg T, match h with SLine _ | SCubic _ _ _ => Ok z | _ => Throw end = Ok z) by (intros z; destruct h; try contradiction; reflexivity).
      rewrite E. eexists. split; [reflexivity|]. rewrite BT, TP. destruct up; cbn [negb].
      + split; [exact D|]. exists p, (e_vtop e), h, u, w. csplit; auto.
      + rewrite backwards_reverse by auto. split; [destruct h; try contradiction; exact I|]. exists p, (e_vtop e), h, u, w. csplit; auto.
    - cbn [fst snd]. destruct (HC _ Ce) as (n & p & g & h & LK & _ & D & _ & _ & _).
      pose proof LK as (a & b & A & B & X1 & X2 & X3 & X4). rewrite W in A. injection A as <-. rewrite NB in X1. injection X1 as ->.
      rewrite U in B. injection B as <-. rewrite X3. cbn [of_opt bind fst snd].
      assert (E : forall z : seg T, match g with SLine _ | SCubic _ _ _ => Ok z | _ => Throw end = Ok z) by (intros z; destruct g; try contradiction; reflexivity).
      rewrite E. eexists. split; [reflexivity|]. rewrite BT, TP. destruct up; cbn [negb].
      + rewrite backwards_reverse by auto. split; [destruct g; try contradiction; exact I|]. exists (e_vtop e), n, g, w, u. csplit; auto.
      + split; [exact D|]. exists (e_vtop e), n, g, w, u. csplit; auto.
  Qed.
  Lemma piece_target p q g : drawable g -> piece vs p q g -> seg_target g = q.
  Proof.
    intros D (i & j & h & v & w & (a & b & A & B & X1 & X2 & X3 & X4) & V & W & [(-> & -> & ->)|(-> & -> & ->)]).
    - rewrite W in B. injection B as <-. auto.
    - destruct h; reflexivity.
  Qed.
  Lemma piece_corner p q g : piece vs p q g -> corner vs q.
  Proof. intros (i & j & h & v & w & _ & V & W & [(_ & -> & _)|(_ & -> & _)]); eapply corner_at; eauto. Qed.
  Lemma piece_fine p q g : drawable g -> piece vs p q g -> fine g.
  Proof.
    intros D H. pose proof (piece_target _ _ _ D H) as E. destruct g; try contradiction; cbn in E |- *; subst.
    - exists q. split; auto. eapply piece_corner; eauto.
    - eauto.
  Qed.
  Lemma push_up_fine g o : fine g -> fine_poly o -> fine_poly (push_up g o).
  Proof. intros F (A & B & D). repeat split; auto. cbn. apply Forall_app. auto. Qed.
  Lemma push_down_fine g o : fine g -> fine_poly o -> fine_poly (push_down g o).
  Proof. intros F (A & B & D). repeat split; auto. cbn. apply Forall_app. auto. Qed.
  Lemma extend_tied s i : tied s -> okp tied (extend_bound s i).
  Proof.
    intros H. unfold extend_bound. apply okp_at. intros e E. destruct (e_bound e) as [b|]; [|now apply okp_ok].
    apply okp_at. intros bd B. destruct (copy_piece s e (bound_up bd) (td_verts _ H) (stands_edge _ _ _ H E)) as (g & EC & D & P).
    rewrite EC. cbn [bind]. apply okp_any. intros o. apply (okp_bind tied).
    - apply pmod_tied; auto. intros pl F. destruct (bound_up bd); [apply push_up_fine|apply push_down_fine]; auto; eapply piece_fine; eauto.
    - intros. wp.
  Qed.
  Lemma do_maxima_tied s i : tied s -> okp (fun x => tied (snd x)) (do_maxima s i).
  Proof.
    intros H. unfold do_maxima. apply okp_at. intros e E. apply (okp_bind tied); [wp|]. intros. now apply delete_tied.
  Qed.
  Lemma climb_tied fuel : forall s i, tied s -> okp (fun x => tied (snd x)) (climb fuel s i).
  Proof.
    induction fuel; intros s i H; cbn [climb]; wp.
    - apply do_maxima_tied. wp.
    - apply (okp_bind tied); [apply next_edge_tied; wp|]. intros. now apply IHfuel.
    - cbn [snd]. apply tied_scan; auto. apply stands_top. eapply stands_edge; eauto.
  Qed.
  Lemma top_loop_tied y fuel : forall s lx c, tied s -> okp tied (top_loop fuel s y lx c).
  Proof.
    induction fuel; intros s lx c H; cbn [top_loop]; wp.
    - apply (okp_bind tied); [apply extend_tied; destruct (n_eqb _ lx); wp|]. intros s1 K1. apply okp_any. intros [|].
      + apply (okp_bind (fun x => tied (snd x))); [now apply do_maxima_tied|]. intros [n' s2] K2. now apply IHfuel.
      + apply (okp_bind tied); [now apply next_edge_tied|]. intros s2 K2.
        apply (okp_bind (fun x => tied (snd x))); [now apply climb_tied|]. intros [n' s3] K3. now apply IHfuel.
    - unfold update_x. apply (okp_bind tied).
      + apply okp_at. intros ? ?. apply okp_any. intros ?. wp.
      + intros s1 K1. apply okp_at. intros ? ?. apply (okp_bind tied); [wp|]. intros s2 K2. apply IHfuel. destruct (n_eqb _ lx); wp.
  Qed.

  (** *** Output bounds *)
  Lemma delete_obl_tied s b : tied s -> okp tied (delete_obl_bound s b).
  Proof. intros H. unfold delete_obl_bound. wp. Qed.
  Lemma fine_at s i o : tied s -> nth_error (polys s) i = Some o -> fine_poly o.
  Proof. intros H. apply forall_nth. apply H. Qed.
  Lemma absorb_tied s d r u : tied s -> okp tied (absorb s d r u).
  Proof.
    intros H. unfold absorb. apply okp_at. intros od D. apply okp_at. intros or R. pose proof (fine_at _ _ _ H R) as (R1 & R2 & R3).
    apply (okp_bind tied).
    - destruct u; (apply (okp_bind tied); [apply pmod_tied; auto; intros o (A & B & E); repeat split; auto; cbn; rewrite !Forall_app; csplit; auto; now apply Forall_rev|]);
        intros; wp.
    - intros s1 K1. apply pmod_tied; auto. intros o (A & _). repeat split; auto; constructor.
  Qed.
  Lemma join_tied s a b y : tied s -> at_level y -> okp tied (join_output s a b y).
  Proof.
    intros H HY. unfold join_output. wp.
    apply (okp_bind tied).
    - destruct (n_eqb _ _); [now apply okp_ok|]. destruct (bound_up _); apply pmod_tied; auto; intros o; [apply push_up_fine|apply push_down_fine]; exact HY.
    - intros s1 K1. apply (okp_bind tied).
      + destruct (Nat.eqb _ _); [apply pmod_tied; auto; intros o (A & B & E); repeat split; auto|]. destruct (Nat.ltb _ _); now apply absorb_tied.
      + intros s2 K2. apply (okp_bind tied); [now apply delete_obl_tied|]. intros. now apply delete_obl_tied.
  Qed.
  Lemma close_loop_tied y fuel : at_level y -> forall s c n, tied s -> okp tied (close_loop fuel s y c n).
  Proof.
    intros HY. induction fuel; intros s c n H; cbn [close_loop]; wp.
    apply (okp_bind tied); [destruct (n_eqb _ _); [now apply join_tied|now apply okp_ok]|]. intros s1 K1. wp. now apply IHfuel.
  Qed.
  Lemma close_tied n s y : tied s -> at_level y -> okp tied (close_output n s y).
  Proof. intros H HY. unfold close_output. wp. now apply close_loop_tied. Qed.
  Lemma new_output_tied s a b : tied s -> okp tied (new_output s a b).
  Proof.
    intros H. unfold new_output. apply okp_at. intros ea EA. apply okp_at. intros eb EB. cbn zeta.
    apply (okp_bind tied); [apply esame_tied; [now apply tied_bounds|same]|]. intros s1 K1. apply (okp_bind tied); [wp|]. intros s2 K2.
    pose proof (stands_bot _ (stands_edge _ _ _ H EA)) as KA. pose proof (stands_bot _ (stands_edge _ _ _ H EB)) as KB.
    assert (F : forall p q u d (c : bool), corner vs p -> corner vs q -> fine_poly (Poly p u d (if c then [SLine q] else []) [] false)).
    { intros p q u d c P Q. repeat split; cbn; auto. destruct c; constructor; [|constructor]. exists q. auto. }
    destruct (edge_up ea); apply okp_ok; constructor; cbn; try apply K2; apply Forall_app; (split; [apply K2|]); constructor; auto.
  Qed.
  Lemma update_bound_tied s b e : tied s -> okp tied (update_bound s b e).
  Proof.
    intros H. unfold update_bound. apply okp_at. intros bd B. apply okp_at. intros ed E. pose proof (stands_bot _ (stands_edge _ _ _ H E)) as K.
    apply (okp_bind tied).
    - destruct (n_eqb _ _); [now apply okp_ok|]. apply okp_any. intros o.
      destruct (bound_up bd); apply pmod_tied; auto; intros pl; [apply push_up_fine|apply push_down_fine]; exists (e_bot ed); auto.
    - intros. wp.
  Qed.
  Lemma connect_tied s a b y : tied s -> at_level y -> okp tied (connect s a b y).
  Proof. intros H HY. unfold connect. destruct (bd_what a), (bd_what b); auto using new_output_tied, join_tied, update_bound_tied. Qed.
  Lemma open_pairs_tied k : forall l s, length l <= k -> tied s -> okp (fun r => tied (fst r)) (open_pairs s l).
  Proof.
    induction k; intros [|a [|b l]] s L H; cbn [open_pairs length] in *; try lia; wp.
    - apply (okp_bind tied); [now apply new_output_tied|]. intros. apply IHk; auto. lia.
    - apply (okp_bind (fun r => tied (fst r))); [apply IHk; auto; lia|]. intros [s1 l1] K1. now apply okp_ok.
  Qed.
  Lemma match_up_tied y fuel : at_level y -> forall s l, tied s -> okp tied (match_up fuel s y l).
  Proof.
    intros HY. induction fuel; intros s [|it l] H; cbn [match_up]; wp; (apply (okp_bind tied); [now apply connect_tied|]; intros; now apply IHfuel).
  Qed.
  Lemma link_obl_tied l : forall s last, tied s -> okp tied (link_obl s last l).
  Proof. induction l; intros s last H; cbn [link_obl]; wp. now apply IHl. Qed.
  Lemma rebuild_tied s l : tied s -> okp tied (rebuild_obl s l).
  Proof. intros H. unfold rebuild_obl. wp. now apply link_obl_tied. Qed.
  Lemma update_output_tied n s y : tied s -> at_level y -> okp tied (update_output_bound n s y).
  Proof.
    intros H HY. unfold update_output_bound. destruct (changes s); [now apply okp_ok|]. apply okp_any. intros be.
    apply (okp_bind (fun r => tied (fst r))); [eapply open_pairs_tied; [reflexivity|now apply tied_changes]|]. intros [s1 lft] K1. cbn [fst] in K1.
    apply okp_any. intros se. apply okp_any. intros sb. apply (okp_bind tied); [now apply match_up_tied|]. intros. now apply rebuild_tied.
  Qed.

  (** *** The main loop *)
  Lemma drop_level y l : Forall at_level l -> Forall at_level (drop_eq y l).
  Proof. intros H. induction l; cbn; auto. apply Forall_cons_iff in H as [A B]. destruct (n_eqb a y); auto. Qed.
  Lemma pop_tied s y p s' : tied s -> pop_scanline s y = (p, s') -> tied s' /\ forall y', p = Some y' -> at_level y'.
  Proof.
    intros H. unfold pop_scanline. pose proof (drop_level y _ (td_scans _ H)) as K. destruct (drop_eq y (scans s)) as [|z r] eqn:E; intros Q; injection Q as <- <-.
    - split; [|discriminate]. constructor; cbn; try apply H. constructor.
    - apply Forall_cons_iff in K as [K1 K2]. split; [|intros y' Q; injection Q as <-; auto]. constructor; cbn; try apply H. now apply drop_level.
  Qed.
  Lemma scan_at_tied n s y : tied s -> at_level y -> okp tied (scan_at n s y).
  Proof.
    intros H HY. unfold scan_at. apply (okp_bind tied); [now apply insert_minima_tied|]. intros s1 H1.
    apply (okp_bind tied); [now apply recalc_tied|]. intros. now apply update_output_tied.
  Qed.
  Lemma beam_tied n s y : tied s -> at_level y -> okp tied (beam n s y).
  Proof.
    intros H HY. unfold beam. apply (okp_bind tied); [apply top_loop_tied; now apply tied_changes|]. intros s1 H1.
    apply (okp_bind tied); [now apply close_tied|]. intros. now apply resort_tied.
  Qed.
  Lemma sweep_tied n fuel : forall s y, tied s -> at_level y -> okp tied (sweep n fuel s y).
  Proof.
    induction fuel; intros s y H HY; cbn [sweep]; [apply okp_fuel|]. apply (okp_bind tied); [now apply scan_at_tied|]. intros s1 H1.
    destruct (pop_scanline s1 y) as [[y'|] s2] eqn:P; destruct (pop_tied _ _ _ _ H1 P) as [H2 L]; [|now apply okp_ok].
    apply (okp_bind tied); [apply beam_tied; auto|]. intros. apply IHfuel; auto.
  Qed.
  Lemma push_minima_tied l : forall s, tied s -> okp tied (push_minima s l).
  Proof.
    induction l; intros s H; cbn [push_minima]; [now apply okp_ok|]. apply okp_at. intros lm L. apply okp_at. intros v V. apply IHl. apply tied_scan; auto.
    rewrite (td_verts _ H) in V. exists (v_pt v). split; auto. eapply corner_at; eauto.
  Qed.
  Lemma reset_tied s : tied s -> okp tied (reset s).
  Proof.
    intros H. unfold reset. apply (okp_bind tied); [apply push_minima_tied; now apply tied_minima|]. intros. apply okp_ok. wp.
  Qed.
  Lemma seen_tied en n s0 op fill s1 s y : process_intersect en (w_op s0 op fill) = Ok s1 -> tied s1 -> seen en n s0 op fill s y -> tied s /\ at_level y.
  Proof.
    intros PI H V. induction V as [t1 t2 t3 y A B D|s y t1 t2 t3 y' V IH A B D].
    - rewrite PI in A. injection A as <-. destruct (pop_tied _ _ _ _ (reset_tied _ H _ B) D) as [K L]. auto.
    - destruct IH as [K L]. destruct (pop_tied _ _ _ _ (scan_at_tied _ _ _ K L _ A) B) as [K2 L2]. split; auto. exact (beam_tied _ _ _ K2 (L2 _ eq_refl) _ D).
  Qed.
  Lemma write_path_fine l : forall p, Forall fine l -> Forall (has_source vs) (fst (write_path p l)).
  Proof.
    induction l as [|g l IH]; intros p H; cbn [write_path]; [constructor|]. apply Forall_cons_iff in H as [A B]. specialize (IH (seg_target g) B).
    destruct (write_path (seg_target g) l) as [cs q]. constructor; auto. destruct g; try contradiction; cbn in A |- *; auto.
  Qed.
  Lemma write_poly_fine o : fine_poly o -> Forall (has_source vs) (write_poly o).
  Proof.
    intros (A & B & D). unfold write_poly. destruct (o_complete o); [|constructor].
    assert (K : Forall (has_source vs) (let '(c1, p) := write_path (o_origin o) (o_up o) in let '(c2, _) := write_path p (rev (o_down o)) in
       MoveTo (V2 (n_ofZ 0) (n_ofZ 0)) (o_origin o) :: c1 ++ c2)).
    { pose proof (write_path_fine (o_up o) (o_origin o) B) as K1. destruct (write_path (o_origin o) (o_up o)) as [c1 p].
      pose proof (write_path_fine (rev (o_down o)) p (Forall_rev D)) as K2. destruct (write_path p (rev (o_down o))) as [c2 q]. constructor; [exact A|]. now apply Forall_app. }
    destruct (o_up o), (o_down o); auto.
  Qed.
  Lemma process_tied en n s0 op fill s1 s' l : process_intersect en (w_op s0 op fill) = Ok s1 -> tied s1 -> process en n s0 op fill = Ok (s', l) ->
    tied s' /\ Forall (has_source vs) l.
  Proof.
    intros PI H. unfold process. rewrite PI. cbn [bind]. intros P. apply bind_ok in P as (s2 & R & P). pose proof (reset_tied _ H _ R) as H2.
    destruct (pop_scanline s2 (n_neg n_huge)) as [[y|] s3] eqn:Q; destruct (pop_tied _ _ _ _ H2 Q) as [H3 L].
    - apply bind_ok in P as (s4 & S & P). injection P as <- <-. pose proof (sweep_tied _ _ _ _ H3 (L _ eq_refl) _ S) as H4. split; auto.
      unfold build_output. apply Forall_flat_map. eapply Forall_impl; [|apply H4]. exact write_poly_fine.
    - injection P as <- <-. split; auto.
  Qed.
End Piece.

Section Drawn.
  Context {T : Type} {N : Num T}.
  (** Broken contours are linked both ways. *)
  Lemma drawn_tied en ps (s : clipper T) bs : drawable_paths ps -> add_all clipper0 ps = Ok s -> find_breaks en (verts s) (starts s) = Ok bs ->
    exists (C : nat -> Prop) s1, process_intersect en s = Ok s1 /\ (forall i, C i -> tied_at (verts s1) C i) /\ forall op fill, tied (verts s1) C (w_op s1 op fill).
  Proof.
    intros D E F. destruct (add_all_built ps clipper0 [] [] D (built_nil _)) as (s' & cs & E' & B). rewrite E in E'. injection E' as <-.
    destruct (built_rings _ _ _ B (items_drawable ps)) as [R ST]. set (ls := map c_verts cs) in *.
    destruct (process_intersect_broken en s ls bs R ST F) as (vs' & news & PI & RG & _). cbn zeta in PI, RG.
    exists (fun i => In i (concat (map (with_new news) ls))). eexists. split; [exact PI|]. cbn [verts w_verts w_breaks w_op]. split.
    - intros i H. apply in_concat in H as (l' & Hl & H). pose proof Hl as Hl'. apply in_map_iff in Hl as (l & <- & Hl).
      rewrite Forall_forall in RG. pose proof (RG l Hl) as RI.
      assert (IN : forall j, In j (with_new news l) -> In j (concat (map (with_new news) ls))) by (intros j Hj; apply in_concat; eauto).
      destruct (ring_link _ _ _ _ RI H) as (j & g & Hj & Hg & L1). destruct (ring_back _ _ _ _ RI H) as (k & h & Hk & L2).
      destruct (ring_link _ _ _ _ RI Hk) as (i' & h' & _ & Hh & L3).
      assert (h' = h) by (destruct L2 as (? & ? & A & _ & _ & _ & X & _), L3 as (? & ? & A' & _ & _ & _ & X' & _); congruence). subst h'.
      assert (FD : forall g, In g (flat_map (pieces_from (verts s) (tidy_breaks en bs)) l) -> drawable g).
      { intros g' Hg'. apply in_flat_map in Hg' as (m & Hm & Hg').
        assert (FD : Forall drawable (pieces_from (verts s) (tidy_breaks en bs) m)) by (apply (pieces_from_drawable (verts s) ls); auto; apply in_concat; eauto).
        rewrite Forall_forall in FD. auto. }
      exists j, k, g, h. csplit; auto.
    - intros op fill. destruct B as ((G & _) & _ & OKC & _ & LM & MN & _).
      assert (G1 : edges s = [] /\ polys s = [] /\ scans s = []) by (rewrite G; cbn; auto). destruct G1 as (G1 & G2 & G3).
      constructor; cbn; rewrite ?G1, ?G2, ?G3; try constructor.
      rewrite LM. cbn [clipper0 lmins app]. apply Forall_forall. intros x Hx. unfold all_lows in Hx. apply in_flat_map in Hx as (c & Hc & Hx).
      apply in_map_iff in Hx as (i & <- & Hi). cbn [lm_vert]. unfold lows in Hi. apply in_map_iff in Hi as ([i' k] & Q & Hi). cbn [fst] in Q. subst i'.
      apply filter_In in Hi as [Hi _]. rewrite Forall_forall in OKC. destruct (OKC c Hc) as (f & r & EV & NE & _ & X & _).
      apply in_concat. exists (with_new news (c_verts c)). split; [apply in_map; apply in_map; exact Hc|]. apply with_new_in. rewrite EV.
      eapply sub_in; [eapply extremes_sub; eauto|]. change i with (fst (i, k)). now apply in_map.
  Qed.
  Lemma process_found en n (s : clipper T) op fill r : process en n s op fill = Ok r -> exists bs, find_breaks en (verts s) (starts s) = Ok bs.
  Proof. unfold process, process_intersect. cbn [verts starts w_op]. destruct (find_breaks en (verts s) (starts s)); try discriminate. eauto. Qed.
  Lemma sources en n ps (s : clipper T) op fill s' l : drawable_paths ps -> add_all clipper0 ps = Ok s -> process en n s op fill = Ok (s', l) ->
    Forall (has_source (verts s')) l.
  Proof.
    intros D E P. destruct (process_found _ _ _ _ _ _ P) as [bs F]. destruct (drawn_tied en ps s bs D E F) as (C & s1 & PI & HC & TD).
    destruct (process_tied (verts s1) C HC en n s op fill (w_op s1 op fill) s' l) as [K1 K2]; auto.
    - now apply process_intersect_op.
    - now rewrite (td_verts _ _ _ K1).
  Qed.
  Lemma copies en n ps (s : clipper T) op fill s' y e up : drawable_paths ps -> add_all clipper0 ps = Ok s -> seen en n s op fill s' y -> In e (edges s') ->
    exists g, copy_seg s' e (xorb (Z.ltb (e_dx e) 0) up) = Ok g /\
      piece (verts s') (if up then e_bot e else e_top e) (if up then e_top e else e_bot e) g.
  Proof.
    intros D E V I.
    assert (X : exists bs, find_breaks en (verts s) (starts s) = Ok bs).
    { clear I. induction V as [t1 t2 t3 y A B K|]; auto. unfold process_intersect in A. cbn [verts starts w_op] in A.
      destruct (find_breaks en (verts s) (starts s)); try discriminate. eauto. }
    destruct X as [bs F]. destruct (drawn_tied en ps s bs D E F) as (C & s1 & PI & HC & TD).
    destruct (seen_tied (verts s1) C HC en n s op fill (w_op s1 op fill) s' y (process_intersect_op op fill en _ _ PI) (TD op fill) V) as [K _].
    pose proof (td_edges _ _ _ K) as KE. rewrite Forall_forall in KE.
    destruct (copy_piece (verts s1) C HC s' e up (td_verts _ _ _ K) (KE e I)) as (g & G1 & _ & G2). exists g. split; [exact G1|]. now rewrite (td_verts _ _ _ K).
  Qed.
  (** *** The calls *)
  Lemma write_path_spells : forall (l : list (seg T)) p, Forall drawable l -> Forall2 spells (fst (write_path p l)) l.
  Proof.
    induction l as [|g l IH]; intros p H; cbn [write_path]; [constructor|]. apply Forall_cons_iff in H as [A B]. pose proof (IH (seg_target g) B) as K.
    destruct (write_path (seg_target g) l) as [cs q]. constructor; auto. destruct g; try contradiction; cbn; auto.
  Qed.
  Lemma write_poly_spells (o : poly T) : Forall drawable (o_up o) -> Forall drawable (o_down o) ->
    if written o then spelled o (write_poly o) else write_poly o = [].
  Proof.
    intros A B. unfold written, write_poly. destruct (o_complete o); [|reflexivity]. cbn [andb].
    assert (K : spelled o (let '(c1, p) := write_path (o_origin o) (o_up o) in let '(c2, _) := write_path p (rev (o_down o)) in
       MoveTo (V2 (n_ofZ 0) (n_ofZ 0)) (o_origin o) :: c1 ++ c2)).
    { pose proof (write_path_spells (o_up o) (o_origin o) A) as K1. destruct (write_path (o_origin o) (o_up o)) as [c1 p].
      pose proof (write_path_spells (rev (o_down o)) p (Forall_rev B)) as K2. destruct (write_path p (rev (o_down o))) as [c2 q].
      eexists _, _. split; [reflexivity|]. now apply Forall2_app. }
    unfold spelled in *. destruct (o_up o), (o_down o); auto.
  Qed.
  Lemma build_spells (os : list (poly T)) : Forall (fun o => Forall drawable (o_up o) /\ Forall drawable (o_down o)) os ->
    exists cs, flat_map write_poly os = concat cs /\ Forall2 spelled (filter written os) cs.
  Proof.
    induction os as [|o os IH]; intros H; [exists []; split; [reflexivity|constructor]|]. apply Forall_cons_iff in H as [[A B] H]. destruct (IH H) as (cs & E & F).
    pose proof (write_poly_spells o A B) as K. cbn [flat_map filter]. destruct (written o).
    - exists (write_poly o :: cs). cbn [concat]. rewrite E. split; auto.
    - exists cs. rewrite K. auto.
  Qed.
  Lemma spelling en n ps (s : clipper T) op fill s' l : drawable_paths ps -> add_all clipper0 ps = Ok s -> process en n s op fill = Ok (s', l) ->
    exists cs, l = concat cs /\ Forall2 spelled (filter written (polys s')) cs.
  Proof.
    intros D E P. destruct (process_found _ _ _ _ _ _ P) as [bs F]. destruct (drawn_tied en ps s bs D E F) as (C & s1 & PI & HC & TD).
    pose proof (process_tied (verts s1) C HC en n s op fill (w_op s1 op fill) s' l (process_intersect_op op fill en _ _ PI) (TD op fill) P) as [K _].
    assert (FD : forall g, fine (verts s1) g -> drawable g) by (intros []; cbn; auto).
    destruct (build_spells (polys s')) as (cs & X & Y).
    { eapply Forall_impl; [|apply K]. intros o (_ & A & B). split; (eapply Forall_impl; [|eassumption]); auto. }
    exists cs. split; auto. rewrite <- X. destruct (drawn_fresh ps s D E) as (_ & _ & FP).
    unfold process in P. rewrite (process_intersect_op op fill en _ _ PI) in P. cbn [bind] in P. apply bind_ok in P as (s2 & R & P).
    destruct (pop_scanline s2 (n_neg n_huge)) as [[y|] s3] eqn:Q; [apply bind_ok in P as (s4 & S & P); now injection P as <- <-|].
    injection P as <- <-. assert (Z : polys s3 = []).
    { apply process_intersect_quiet in PI as (G1 & _). unfold reset in R. apply bind_ok in R as (z & A & R). injection R as <-.
      apply push_minima_quiet in A as (G2 & _). apply pop_scanline_frame in Q as (_ & G3 & _). unfold fout in G3. cbn in *. congruence. }
    now rewrite Z.
  Qed.
End Drawn.
