(** A run leaves the polygons of earlier runs alone: everything it reaches was
    made by itself. *)
From Coq Require Import ZArith Bool List Lia Permutation.
From Verif Require Import Outcome Num Rmath Segment VState VPath VBreak VAel VOut VMain VLemmas VOutProofs SortProofs.
Import ListNotations.
Local Open Scope out.

(** If [o] ends in a result, the result has [Q]. *)
Definition okp {A} (Q : A -> Prop) (o : outcome A) : Prop := match o with Ok x => Q x | _ => True end.
Lemma okp_bind {A B} P (Q : B -> Prop) (o : outcome A) f : okp P o -> (forall x, P x -> okp Q (f x)) -> okp Q (bind o f).
Proof. destruct o; cbn; auto. Qed.
Lemma okp_weak {A} (P Q : A -> Prop) o : okp P o -> (forall x, P x -> Q x) -> okp Q o.
Proof. destruct o; cbn; auto. Qed.
Lemma okp_true {A} (o : outcome A) : okp (fun _ => True) o.
Proof. destruct o; cbn; auto. Qed.

(** Null or not below [n]. *)
Definition since (n : nat) (p : option nat) : Prop := match p with Some i => n <= i | None => True end.
Lemma okp_deref n p : since n p -> okp (fun i => n <= i) (deref p).
Proof. destruct p; cbn; auto. Qed.

(** All entries from [n] on. *)
Definition later {A} (n : nat) (P : A -> Prop) (l : list A) : Prop := forall i x, n <= i -> nth_error l i = Some x -> P x.
Lemma later_upd {A} n (P : A -> Prop) l j f : later n P l -> (forall x, P x -> P (f x)) -> later n P (upd l j f).
Proof.
  intros H K i x L E. rewrite nth_upd in E. destruct (Nat.eqb j i); [|eapply H; eauto].
  destruct (nth_error l i) as [y|] eqn:G; cbn in E; [|discriminate]. injection E as <-. apply K. eapply H; eauto.
Qed.
Lemma later_app {A} n (P : A -> Prop) l r : later n P l -> Forall P r -> later n P (l ++ r).
Proof.
  intros H F i x L E. destruct (Nat.lt_ge_cases i (length l)).
  - rewrite nth_error_app1 in E by auto. eapply H; eauto.
  - rewrite nth_error_app2 in E by auto. rewrite Forall_forall in F. apply F. eapply nth_error_In; eauto.
Qed.
Lemma okp_at {A} n (P : A -> Prop) l i : later n P l -> n <= i -> okp P (at_ l i).
Proof. intros H L. unfold at_. destruct (nth_error l i) eqn:E; cbn; auto. eapply H; eauto. Qed.

Section Fresh.
  Context {T : Type} {N : Num T}.
  Implicit Types s : clipper T.
  (** The sizes of the store at the start of the run and the polygons then. *)
  Variables (nE nB : nat) (old : list (poly T)).
  Notation nP := (length old).
  Definition edge_since (e : edge T) : Prop := since nE (e_prev e) /\ since nE (e_next e) /\ since nB (e_bound e).
  Definition bound_since (b : bound T) : Prop := since nB (ob_prev b) /\ since nB (ob_next b) /\ since nE (ob_edge b) /\ since nP (ob_owner b).
  Definition poly_since (o : poly T) : Prop := since nB (o_up_bound o) /\ since nB (o_down_bound o).
  Record fresh s : Prop := {
    fr_old : exists r, polys s = old ++ r;
    fr_nE : nE <= length (edges s);
    fr_nB : nB <= length (bounds s);
    fr_edges : later nE edge_since (edges s);
    fr_bounds : later nB bound_since (bounds s);
    fr_polys : later nP poly_since (polys s);
    fr_ael : since nE (ael s);
    fr_obl : since nB (obl s) }.

  (** *** Reading and writing *)
  Lemma at_edge s i : fresh s -> nE <= i -> okp edge_since (at_ (edges s) i).
  Proof. intros H. apply okp_at, H. Qed.
  Lemma at_bound s i : fresh s -> nB <= i -> okp bound_since (at_ (bounds s) i).
  Proof. intros H. apply okp_at, H. Qed.
  Lemma at_poly s i : fresh s -> nP <= i -> okp poly_since (at_ (polys s) i).
  Proof. intros H. apply okp_at, H. Qed.
  Lemma emod_fr s i f : fresh s -> (forall e, edge_since e -> edge_since (f e)) -> okp fresh (emod s i f).
  Proof.
    intros H K. unfold emod. eapply okp_bind; [apply okp_true|]. intros x _. cbn [okp].
    destruct H. constructor; cbn; rewrite ?length_upd; auto. now apply later_upd.
  Qed.
  Lemma bmod_fr s i f : fresh s -> (forall e, bound_since e -> bound_since (f e)) -> okp fresh (bmod s i f).
  Proof.
    intros H K. unfold bmod. eapply okp_bind; [apply okp_true|]. intros x _. cbn [okp].
    destruct H. constructor; cbn; rewrite ?length_upd; auto. now apply later_upd.
  Qed.
  Lemma upd_app_ge {A} (l r : list A) i f : length l <= i -> upd (l ++ r) i f = l ++ upd r (i - length l) f.
  Proof.
    revert i. induction l as [|x l IH]; intros [|i] L; cbn in *; auto; try lia. f_equal. apply IH. lia.
  Qed.
  Lemma pmod_fr s i f : fresh s -> nP <= i -> (forall e, poly_since e -> poly_since (f e)) -> okp fresh (pmod s i f).
  Proof.
    intros H L K. unfold pmod. eapply okp_bind; [apply okp_true|]. intros x _. cbn [okp].
    destruct H as [[r R]]. constructor; cbn; auto; [|now apply later_upd].
    rewrite R, upd_app_ge by auto. eauto.
  Qed.
  Lemma emod_opt_fr s p f : fresh s -> (forall e, edge_since e -> edge_since (f e)) -> okp fresh (emod_opt s p f).
  Proof. intros H K. destruct p; cbn [emod_opt]; [now apply emod_fr|exact H]. Qed.
  Lemma bmod_opt_fr s p f : fresh s -> (forall e, bound_since e -> bound_since (f e)) -> okp fresh (bmod_opt s p f).
  Proof. intros H K. destruct p; cbn [bmod_opt]; [now apply bmod_fr|exact H]. Qed.
  Lemma ael_fr s p : fresh s -> since nE p -> fresh (w_ael s p).
  Proof. intros [] L. constructor; auto. Qed.
  Lemma obl_fr s p : fresh s -> since nB p -> fresh (w_obl s p).
  Proof. intros [] L. constructor; auto. Qed.
  Lemma changes_fr s x : fresh s -> fresh (w_changes s x).
  Proof. intros []. constructor; auto. Qed.
  Lemma change_fr s x : fresh s -> fresh (push_change s x).
  Proof. intros []. constructor; auto. Qed.
  Lemma scan_fr s x : fresh s -> fresh (insert_scanline s x).
  Proof. intros []. constructor; auto. Qed.
  Lemma scans_fr s x : fresh s -> fresh (w_scans s x).
  Proof. intros []. constructor; auto. Qed.
  Lemma minima_fr s x y : fresh s -> fresh (w_minima s x y).
  Proof. intros []. constructor; auto. Qed.
  Lemma new_edge_fr s e : fresh s -> edge_since e -> fresh (w_edges s (edges s ++ [e])).
  Proof. intros [] K. constructor; auto; cbn; rewrite ?app_length; [lia|]. apply later_app; auto. Qed.

  (** Field updates *)
  Lemma since_eprev p e : since nE p -> edge_since e -> edge_since (set_eprev p e).
  Proof. intros H (A & B & D). repeat split; auto. Qed.
  Lemma since_enext p e : since nE p -> edge_since e -> edge_since (set_enext p e).
  Proof. intros H (A & B & D). repeat split; auto. Qed.
  Lemma since_ebound p e : since nB p -> edge_since e -> edge_since (set_ebound p e).
  Proof. intros H (A & B & D). repeat split; auto. Qed.
  Lemma since_ex x e : edge_since e -> edge_since (set_ex x e).
  Proof. intros (A & B & D). repeat split; auto. Qed.
  Lemma since_ecnt x y e : edge_since e -> edge_since (set_ecnt x y e).
  Proof. intros (A & B & D). repeat split; auto. Qed.
  Lemma since_bprev p e : since nB p -> bound_since e -> bound_since (set_bprev p e).
  Proof. intros H (A & B & D & F). repeat split; auto. Qed.
  Lemma since_bnext p e : since nB p -> bound_since e -> bound_since (set_bnext p e).
  Proof. intros H (A & B & D & F). repeat split; auto. Qed.
  Lemma since_bowner p e : since nP p -> bound_since e -> bound_since (set_bowner p e).
  Proof. intros H (A & B & D & F). repeat split; auto. Qed.
  Lemma since_bedge p e : since nE p -> bound_since e -> bound_since (set_bedge p e).
  Proof. intros H (A & B & D & F). repeat split; auto. Qed.
  Lemma since_bstop x e : bound_since e -> bound_since (set_bstop x e).
  Proof. intros (A & B & D & F). repeat split; auto. Qed.
  Hint Resolve since_eprev since_enext since_ebound since_ex since_ecnt since_bprev since_bnext since_bowner since_bedge since_bstop
    emod_fr bmod_fr pmod_fr emod_opt_fr bmod_opt_fr ael_fr obl_fr changes_fr change_fr scan_fr scans_fr minima_fr : fr.
  Hint Extern 1 (since _ None) => exact I : fr.
  Hint Extern 1 (since _ (Some _)) => cbn [since]; lia : fr.
  Hint Extern 1 (okp _ (Ok _)) => cbn [okp] : fr.
  Hint Resolve fr_ael fr_obl : fr.

  (** Step over a read whose value does not matter, a read of the store, or a write. *)
  Ltac rd := eapply okp_bind; [apply okp_true|]; intros ? _.
  Ltac ed := eapply okp_bind; [apply at_edge; [eassumption|auto with fr; lia]|]; let v := fresh "x" in intros v; let a := fresh "Z" in let b := fresh "Z" in let c := fresh "Z" in intros (a & b & c).
  Ltac bd := eapply okp_bind; [apply at_bound; [eassumption|auto with fr; lia]|]; let v := fresh "x" in intros v; let a := fresh "Z" in let b := fresh "Z" in let c := fresh "Z" in let d := fresh "Z" in intros (a & b & c & d).
  Ltac wr := eapply okp_bind; [solve [eauto 6 with fr]|]; let v := fresh "x" in intros v; let a := fresh "W" in intros a.

  (** *** The active edge list *)
  Lemma update_x_fr s i y : fresh s -> okp fresh (update_x s i y).
  Proof. intros H. unfold update_x. rd. rd. auto with fr. Qed.
  Lemma next_edge_fr s i : fresh s -> okp fresh (next_edge s i).
  Proof. intros H. unfold next_edge. do 4 rd. apply emod_fr; auto. Qed.
  Lemma find_place_fr fuel : forall s r n, fresh s -> nE <= r -> okp (fun k => nE <= k) (find_place fuel s r n).
  Proof.
    induction fuel as [|fuel IH]; intros s r n H L; cbn [find_place]; [exact I|].
    ed. destruct (e_next x) as [k|]; [|exact L]. rd. rd. destruct x1; [apply IH; auto|exact L].
  Qed.
  Lemma insert_after_fr s l n : fresh s -> nE <= l -> nE <= n -> okp fresh (insert_after s l n).
  Proof.
    intros H L K. unfold insert_after. rd. eapply okp_bind; [apply find_place_fr; auto|]. intros r Hr. cbn beta in Hr. ed.
    wr. wr. wr. auto with fr.
  Qed.
  Lemma insert_into_ael_fr s n : fresh s -> nE <= n -> okp fresh (insert_into_ael s n).
  Proof.
    intros H L. unfold insert_into_ael. pose proof (fr_ael s H) as A. destruct (ael s) as [f|]; cbn in A.
    - rd. rd. rd. destruct x1; [apply insert_after_fr; auto|]. wr. wr. auto with fr.
    - wr. auto with fr.
  Qed.
  Lemma insert_into_ael_left_fr s l n : fresh s -> since nE l -> nE <= n -> okp fresh (insert_into_ael_left s l n).
  Proof. intros H L K. destruct l; [apply insert_after_fr|apply insert_into_ael_fr]; auto. Qed.
  Lemma unlink_fr s (i : edge T) : fresh s -> edge_since i ->
    okp fresh (match e_prev i with Some p => emod s p (set_enext (e_next i)) | None => Ok (w_ael s (e_next i)) end).
  Proof. intros H (A & B & D). destruct (e_prev i); auto with fr. Qed.
  Lemma take_from_ael_fr s i : fresh s -> nE <= i -> okp fresh (take_from_ael s i).
  Proof.
    intros H L. unfold take_from_ael. ed. eapply okp_bind; [apply unlink_fr; [auto|repeat split; auto]|]. intros s1 H1. cbn beta in H1.
    wr. auto with fr.
  Qed.
  Lemma delete_active_edge_fr s i : fresh s -> nE <= i -> okp (fun x => fresh (snd x) /\ since nE (fst x)) (delete_active_edge s i).
  Proof.
    intros H L. unfold delete_active_edge. ed. wr. eapply okp_bind; [apply unlink_fr; [eassumption|repeat split; auto]|]. intros s1 H1. cbn. auto.
  Qed.

  (** *** New edges *)
  Lemma skip_horz_fr fuel : forall s i, fresh s -> okp fresh (skip_horz fuel s i).
  Proof.
    induction fuel as [|fuel IH]; intros s i H; cbn [skip_horz]; rd; (destruct (is_horz x); [|exact H]); [exact I|].
    eapply okp_bind; [apply next_edge_fr; auto|]. intros s1 H1. rd. apply IH. auto with fr.
  Qed.
  Lemma start_edge_fr s m bot top dx : fresh s -> okp fresh (start_edge s m bot top dx).
  Proof.
    intros H. unfold start_edge. rd. cbn zeta.
    eapply okp_bind; [apply skip_horz_fr; apply change_fr, new_edge_fr; auto; repeat split; exact I|]. intros s1 H1. rd. auto with fr.
  Qed.
  Lemma insert_minimum_fr s m : fresh s -> okp fresh (insert_minimum s m).
  Proof.
    intros H. unfold insert_minimum. do 4 rd. pose proof (fr_nE s H) as L1.
    eapply okp_bind; [apply start_edge_fr; auto|]. intros s1 H1. pose proof (fr_nE s1 H1) as L2.
    eapply okp_bind; [apply start_edge_fr; auto|]. intros s2 H2.
    eapply okp_bind; [apply insert_into_ael_fr; auto|]. intros s3 H3. ed.
    eapply okp_bind; [apply insert_into_ael_left_fr; auto|]. intros s4 H4. rd. rd. cbn [okp]. auto with fr.
  Qed.
  Lemma insert_minima_fr y rest : forall s, fresh s -> okp fresh (insert_minima s y rest).
  Proof.
    induction rest as [|m r IH]; intros s H; cbn [insert_minima]; [exact H|]. rd. rd. destruct (n_eqb _ _); [|exact H].
    eapply okp_bind; [apply insert_minimum_fr, minima_fr; auto|]. intros s1 H1. auto.
  Qed.
  Lemma insert_local_fr s y : fresh s -> okp fresh (insert_local_minima_to_ael s y).
  Proof. apply insert_minima_fr. Qed.

  (** *** Resorting *)
  Lemma unbound_fr s p : fresh s -> okp fresh (match p with Some b => bmod s b (set_bedge None) | None => Ok s end).
  Proof. intros H. destruct p; auto with fr. Qed.
  Lemma take_changed_fr fuel : forall s xs c acc, fresh s -> since nE c -> Forall (fun i => nE <= i) acc ->
    okp (fun x => fresh (fst x) /\ Forall (fun i => nE <= i) (snd x)) (take_changed fuel s xs c acc).
  Proof.
    induction fuel as [|fuel IH]; intros s xs c acc H L F; (destruct xs as [|x xr]; [cbn; auto|]); (destruct c as [i|]; cbn [take_changed]; [|cbn; auto]); [exact I|].
    cbn in L. ed. destruct (n_eqb (e_x x0) x).
    - eapply okp_bind; [apply unbound_fr; auto|]. intros s1 H1. cbn beta in H1. wr.
      eapply okp_bind; [apply take_from_ael_fr; eauto|]. intros s3 H3. apply IH; auto. apply Forall_app. auto.
    - destruct (n_ltb x (e_x x0)); apply IH; auto.
  Qed.
  Lemma insert_all_fr l : forall s, fresh s -> Forall (fun i => nE <= i) l -> okp fresh (insert_all s l).
  Proof.
    induction l as [|i l IH]; intros s H F; cbn [insert_all]; [exact H|]. apply Forall_cons_iff in F as [Hi F].
    eapply okp_bind; [apply insert_into_ael_fr; auto|]. intros s1 H1. auto.
  Qed.
  Lemma resort_ael_fr s : fresh s -> okp fresh (resort_ael s).
  Proof.
    intros H. unfold resort_ael. cbn zeta. eapply okp_bind; [apply take_changed_fr; [apply changes_fr; auto|apply (fr_ael s H)|constructor]|].
    intros [s1 l] [H1 F]. cbn [fst snd] in *. apply insert_all_fr; auto.
  Qed.

  (** *** Winding counts *)
  Lemma calc_windcnt_fr s i : fresh s -> okp fresh (calc_windcnt s i).
  Proof. intros H. unfold calc_windcnt. do 4 rd. destruct x2 as [c [c2 from]]. rd. auto with fr. Qed.
  Lemma recalc_at_fr fuel : forall s x c, fresh s -> okp (fun r => fresh (snd r)) (recalc_at fuel s x c).
  Proof.
    induction fuel as [|fuel IH]; intros s x [i|] H; cbn [recalc_at]; try exact I; try exact H. rd.
    destruct (n_ltb (e_x x0) x); [apply IH; auto|]. destruct (n_ltb x (e_x x0)); [exact H|].
    eapply okp_bind; [apply unbound_fr; auto|]. intros s1 H1. cbn beta in H1. wr.
    eapply okp_bind; [apply calc_windcnt_fr; eauto|]. intros s3 H3. rd. apply IH; auto.
  Qed.
  Lemma recalc_all_fr xs : forall s c, fresh s -> okp fresh (recalc_all s xs c).
  Proof.
    induction xs as [|x xs IH]; intros s c H; cbn [recalc_all]; [exact H|]. eapply okp_bind; [apply recalc_at_fr; auto|].
    intros [c1 s1] H1. auto.
  Qed.
  Lemma recalc_windcnt_fr s : fresh s -> okp fresh (recalc_windcnt s).
  Proof. intros H. unfold recalc_windcnt. cbn zeta. apply recalc_all_fr. auto with fr. Qed.

  (** *** The top of a scan beam *)
  Lemma do_maxima_fr s i : fresh s -> nE <= i -> okp (fun x => fresh (snd x) /\ since nE (fst x)) (do_maxima s i).
  Proof.
    intros H L. unfold do_maxima. ed. eapply okp_bind with (P := fresh).
    - destruct (e_bound x); [|exact H]. wr. auto with fr.
    - intros s1 H1. apply delete_active_edge_fr; auto.
  Qed.
  Lemma push_since up g o : poly_since o -> poly_since ((if up : bool then push_up g else push_down g) o).
  Proof. intros (A & B). destruct up; split; auto. Qed.
  Lemma push_up_since g o : poly_since o -> poly_since (push_up g o).
  Proof. intros (A & B). split; auto. Qed.
  Lemma push_down_since g o : poly_since o -> poly_since (push_down g o).
  Proof. intros (A & B). split; auto. Qed.
  Hint Resolve push_since push_up_since push_down_since : fr.
  Lemma extend_bound_fr s i : fresh s -> nE <= i -> okp fresh (extend_bound s i).
  Proof.
    intros H L. unfold extend_bound. ed. destruct (e_bound x) as [b|]; [|exact H]. bd. rd.
    eapply okp_bind; [apply okp_deref; eauto|]. intros o Ho. cbn beta in Ho. wr. auto with fr.
  Qed.
  Lemma climb_fr fuel : forall s i, fresh s -> nE <= i -> okp (fun x => fresh (snd x) /\ since nE (fst x)) (climb fuel s i).
  Proof.
    induction fuel as [|fuel IH]; intros s i H L; cbn [climb]; [exact I|]. ed. destruct (is_horz x).
    - rd. destruct x0; [apply do_maxima_fr; auto with fr|]. eapply okp_bind; [apply next_edge_fr; auto with fr|]. intros s1 H1. auto.
    - cbn. auto with fr.
  Qed.
  Lemma top_loop_fr fuel : forall s y lx c, fresh s -> since nE c -> okp fresh (top_loop fuel s y lx c).
  Proof.
    induction fuel as [|fuel IH]; intros s y lx [i|] H L; cbn [top_loop]; try exact I; try exact H. cbn in L. ed.
    destruct (n_eqb (vy (e_top x)) y).
    - wr. cbn zeta. assert (H5 : fresh (if n_eqb (vx (e_top x)) lx then push_change x0 lx else x0)) by (destruct (n_eqb _ _); auto with fr).
      eapply okp_bind; [apply extend_bound_fr; auto|]. intros s2 H2. rd. destruct x1.
      + eapply okp_bind; [apply do_maxima_fr; auto|]. intros [n s3] [H6 H7]. auto.
      + eapply okp_bind; [apply next_edge_fr; auto|]. intros s3 H6. eapply okp_bind; [apply climb_fr; auto|]. intros [n s4] [H7 H8]. auto.
    - eapply okp_bind; [apply update_x_fr; auto|]. intros s1 H1'. ed.
      eapply okp_bind with (P := fresh); [destruct (e_bound x0); auto with fr; exact H1'|]. intros s2 H2'. cbn zeta. apply IH; auto.
      destruct (n_eqb _ _); auto with fr.
  Qed.
  Lemma do_top_fr s y : fresh s -> okp fresh (do_top_of_scanbeam s y).
  Proof. intros H. unfold do_top_of_scanbeam. cbn zeta. apply top_loop_fr; auto with fr. Qed.

  (** *** Output *)
  Lemma delete_obl_bound_fr s b : fresh s -> nB <= b -> okp fresh (delete_obl_bound s b).
  Proof.
    intros H L. unfold delete_obl_bound. bd. eapply okp_bind with (P := fresh); [destruct (ob_prev x); auto with fr|].
    intros s1 H1. auto with fr.
  Qed.
  Lemma absorb_fr s d r u : fresh s -> nP <= d -> nP <= r -> okp fresh (absorb s d r u).
  Proof.
    intros H L K. unfold absorb. rd. eapply okp_bind; [apply at_poly; eauto|]. intros o (U & D).
    eapply okp_bind with (P := fresh).
    - destruct u; (eapply okp_bind; [apply pmod_fr; [auto|auto|intros e (A & B); split; auto]|]); intros s1 H1; rd; apply bmod_fr; auto;
        intros e He; apply since_bowner; auto.
    - intros s1 H1. apply pmod_fr; auto. intros e _. split; exact I.
  Qed.
  Lemma join_output_fr s a b y : fresh s -> nB <= a -> nB <= b -> okp fresh (join_output s a b y).
  Proof.
    intros H L K. unfold join_output. bd. bd. do 4 wr.
    eapply okp_bind; [apply okp_deref; eassumption|]. intros oa La. eapply okp_bind; [apply okp_deref; eassumption|]. intros ob Lb. cbn beta in La, Lb.
    eapply okp_bind with (P := fresh); [destruct (n_eqb _ _); [eassumption|destruct (bound_up x); auto with fr]|]. intros s1 H1'.
    eapply okp_bind with (P := fresh).
    - destruct (Nat.eqb oa ob); [apply pmod_fr; auto; intros e (A & B); split; auto|]. destruct (Nat.ltb ob oa); apply absorb_fr; auto.
    - intros s2 H2'. eapply okp_bind; [apply delete_obl_bound_fr; auto|]. intros s3 H3'. apply delete_obl_bound_fr; auto.
  Qed.
  Lemma close_loop_fr fuel : forall s y c n, fresh s -> nB <= c -> since nB n -> okp fresh (close_loop fuel s y c n).
  Proof.
    induction fuel as [|fuel IH]; intros s y c [n|] H L K; cbn [close_loop]; try exact I; try exact H. bd. bd.
    eapply okp_bind with (P := fresh); [destruct (n_eqb _ _); [apply join_output_fr; auto|exact H]|]. intros s1 H1'.
    destruct (ob_next x) as [c'|]; [|exact H1']. bd. apply IH; auto.
  Qed.
  Lemma close_output_fr n s y : fresh s -> okp fresh (close_output n s y).
  Proof.
    intros H. unfold close_output. pose proof (fr_obl s H) as L. destruct (obl s) as [c|]; [|exact H]. cbn in L. bd. apply close_loop_fr; auto.
  Qed.
  Lemma new_output_fr s a b : fresh s -> nE <= a -> nE <= b -> okp fresh (new_output s a b).
  Proof.
    intros H L K. unfold new_output. rd. rd. cbn zeta. pose proof (fr_nB s H) as LB.
    assert (LP : nP <= length (polys s)) by (destruct (fr_old s H) as [r ->]; rewrite app_length; lia).
    set (s0 := w_bounds s _).
    assert (H0 : fresh s0).
    { destruct H. constructor; auto; cbn; rewrite ?app_length; [lia|]. apply later_app; auto.
      repeat constructor; cbn; auto. }
    eapply okp_bind with (P := fun s' => fresh s' /\ polys s' = polys s).
    { pose proof (emod_fr s0 a (set_ebound (Some (length (bounds s)))) H0 (fun e He => since_ebound (Some _) e LB He)) as X.
      destruct (emod _ _ _) eqn:EM; cbn in *; auto. split; auto. apply emod_ok in EM as [_ ->]. reflexivity. }
    intros s1 [H1 P1]. eapply okp_bind with (P := fun s' => fresh s' /\ polys s' = polys s).
    { assert (LB' : nB <= S (length (bounds s))) by lia.
      pose proof (emod_fr s1 b (set_ebound (Some (S (length (bounds s))))) H1 (fun e He => since_ebound (Some _) e LB' He)) as X.
      destruct (emod s1 _ _) eqn:EM; cbn in *; auto. split; auto. apply emod_ok in EM as [_ ->]. exact P1. }
    intros s2 [H2 P2].
    assert (G : forall o, poly_since o -> fresh (w_polys s2 (polys s2 ++ [o]))).
    { intros o Ho. destruct H2 as [[r R]]. constructor; auto; cbn.
      - exists (r ++ [o]). rewrite R, app_assoc. reflexivity.
      - apply later_app; auto. }
    destruct (edge_up x); cbn [okp]; apply G; split; cbn; lia.
  Qed.
  Lemma open_pairs_fr k : forall l s, length l <= k -> fresh s -> Forall (fun i => nE <= i) l ->
    okp (fun x => fresh (fst x) /\ Forall (fun i => nE <= i) (snd x)) (open_pairs s l).
  Proof.
    induction k as [|k IH]; intros [|a [|b l]] s LE H F; cbn [open_pairs]; try (cbn; auto; fail); [cbn in LE; lia|].
    apply Forall_cons_iff in F as [Ha F]. apply Forall_cons_iff in F as [Hb F]. rd. rd. destruct (n_eqb _ _).
    - eapply okp_bind; [apply new_output_fr; auto|]. intros s1 H1. apply IH; auto. cbn in LE. lia.
    - eapply okp_bind; [apply IH; [cbn in LE; lia|auto|auto]|]. intros [s1 l1] [H1 F1]. cbn. auto.
  Qed.
  Lemma update_bound_fr s b e : fresh s -> nB <= b -> nE <= e -> okp fresh (update_bound s b e).
  Proof.
    intros H L K. unfold update_bound. bd. rd. eapply okp_bind with (P := fresh).
    - destruct (n_eqb _ _); [exact H|]. eapply okp_bind; [apply okp_deref; eassumption|]. intros o Ho. cbn beta in Ho. destruct (bound_up x); auto with fr.
    - intros s1 H1'. wr. auto with fr.
  Qed.
  Definition bd_since (b : bd (T := T)) : Prop := match bd_what b with inl e => nE <= e | inr o => nB <= o end.
  Lemma connect_fr s a b y : fresh s -> bd_since a -> bd_since b -> okp fresh (connect s a b y).
  Proof.
    intros H A B. unfold connect, bd_since in *. destruct (bd_what a), (bd_what b); auto using new_output_fr, update_bound_fr, join_output_fr.
  Qed.
  Lemma find_other_since x k l : forall o r, find_other x k l = Some (o, r) -> Forall bd_since l -> bd_since o /\ Forall bd_since r.
  Proof.
    induction l as [|h l IH]; cbn; intros o r E F; [discriminate|]. apply Forall_cons_iff in F as [Hh F].
    destruct (n_eqb _ _); [|discriminate]. destruct (Bool.eqb _ _); [|injection E as <- <-; auto].
    destruct (find_other x k l) as [[o' r']|]; [|discriminate]. injection E as <- <-. destruct (IH o' r' eq_refl F). auto.
  Qed.
  Lemma match_up_fr fuel : forall s y l, fresh s -> Forall bd_since l -> okp fresh (match_up fuel s y l).
  Proof.
    induction fuel as [|fuel IH]; intros s y [|it l] H F; cbn [match_up]; try exact I; try exact H. apply Forall_cons_iff in F as [Hi F].
    destruct (find_other _ _ l) as [[o r]|] eqn:E.
    - destruct (find_other_since _ _ _ _ _ E F) as [G1 G2]. eapply okp_bind; [apply connect_fr; auto|]. intros s1 H1. auto.
    - destruct l as [|n l]; [exact I|]. apply Forall_cons_iff in F as [Hn F]. eapply okp_bind; [apply connect_fr; auto|]. intros s1 H1. auto.
  Qed.
  Lemma link_obl_fr l : forall s last, fresh s -> nB <= last -> Forall (fun i => nE <= i) l -> okp fresh (link_obl s last l).
  Proof.
    induction l as [|i l IH]; intros s last H L F; cbn [link_obl]; [exact H|]. apply Forall_cons_iff in F as [Hi F]. ed. wr.
    eapply okp_bind; [apply okp_deref; eassumption|]. intros b Hb. cbn beta in Hb. wr. auto.
  Qed.
  Lemma rebuild_obl_fr s l : fresh s -> Forall (fun i => nE <= i) l -> okp fresh (rebuild_obl s l).
  Proof.
    intros H F. destruct l as [|i l]; cbn [rebuild_obl]; [auto with fr|]. apply Forall_cons_iff in F as [Hi F]. ed.
    eapply okp_bind; [apply okp_deref; eassumption|]. intros b Hb. cbn beta in Hb. wr. apply link_obl_fr; auto.
  Qed.
  Lemma collect_fr fuel : forall s c acc, fresh s -> since nE c -> Forall (fun i => nE <= i) acc -> okp (Forall (fun i => nE <= i)) (collect fuel s c acc).
  Proof.
    induction fuel as [|fuel IH]; intros s [i|] acc H L F; cbn [collect]; try exact I; try exact F. cbn in L. ed. rd.
    eapply okp_bind with (P := Forall (fun i => nE <= i)); [|intros acc' F'; apply IH; auto].
    destruct x0; [|exact F]. destruct acc as [|j r]; [cbn; auto|]. rd. rd. cbn. destruct x1; auto. now apply Forall_cons_iff in F.
  Qed.
  Lemma sbl_edges_fr s l : forall k, Forall (fun i => nE <= i) l -> okp (Forall bd_since) (sbl_edges s l k).
  Proof.
    induction l as [|i l IH]; intros k F; cbn [sbl_edges]; [constructor|]. apply Forall_cons_iff in F as [Hi F]. rd.
    eapply okp_bind; [apply IH; auto|]. intros t Ht. cbn. auto.
  Qed.
  Lemma sbl_bounds_fr fuel : forall s c k, fresh s -> since nB c -> okp (Forall bd_since) (sbl_bounds fuel s c k).
  Proof.
    induction fuel as [|fuel IH]; intros s [i|] k H L; cbn [sbl_bounds]; try exact I; try constructor. cbn in L. bd.
    eapply okp_bind; [apply IH; auto|]. intros t Ht. cbn. auto.
  Qed.
  Lemma update_output_bound_fr n s y : fresh s -> okp fresh (update_output_bound n s y).
  Proof.
    intros H. unfold update_output_bound. destruct (changes s); [exact H|]. cbn zeta. pose proof (changes_fr s [] H) as H0.
    set (s0 := w_changes s []) in *. clearbody s0. clear H.
    eapply okp_bind; [apply collect_fr; auto with fr|]. intros be F. assert (FR : Forall (fun i => nE <= i) (rev be)) by now apply Forall_rev.
    eapply okp_bind; [eapply open_pairs_fr; eauto|]. intros [s1 lf] [H1 F1]. cbn [fst snd] in *.
    eapply okp_bind; [apply sbl_edges_fr; auto|]. intros se Fe. eapply okp_bind; [apply sbl_bounds_fr; auto with fr|]. intros sb Fb.
    eapply okp_bind; [apply match_up_fr; auto|].
    { apply Forall_forall. intros b Hb. apply (Permutation_in _ (Permutation_sym (sort_by_perm bd_ltb (se ++ sb)))) in Hb. apply in_app_or in Hb. rewrite Forall_forall in Fe, Fb. destruct Hb; auto. }
    intros s2 H2. apply rebuild_obl_fr; auto.
  Qed.

  (** *** A run *)
  Lemma scan_at_fr n s y : fresh s -> okp fresh (scan_at n s y).
  Proof.
    intros H. unfold scan_at. eapply okp_bind; [apply insert_local_fr; auto|]. intros s1 H1. eapply okp_bind; [apply recalc_windcnt_fr; auto|].
    intros s2 H2. apply update_output_bound_fr; auto.
  Qed.
  Lemma beam_fr n s y : fresh s -> okp fresh (beam n s y).
  Proof.
    intros H. unfold beam. eapply okp_bind; [apply do_top_fr; auto|]. intros s1 H1. eapply okp_bind; [apply close_output_fr; auto|].
    intros s2 H2. apply resort_ael_fr; auto.
  Qed.
  Lemma sweep_fr n fuel : forall s y, fresh s -> okp fresh (sweep n fuel s y).
  Proof.
    induction fuel as [|fuel IH]; intros s y H; cbn [sweep]; [exact I|]. eapply okp_bind; [apply scan_at_fr; auto|]. intros s1 H1.
    unfold pop_scanline. destruct (drop_eq _ _); [cbn; auto with fr|]. eapply okp_bind; [apply beam_fr; auto with fr|]. auto.
  Qed.
End Fresh.
