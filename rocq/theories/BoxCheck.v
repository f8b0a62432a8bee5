(** What the computed conditions of BoxZ.v mean. *)
From Coq Require Import ZArith Bool List Lia Sorted Permutation.
From Verif Require Import Outcome Num Rmath Segment Path PathSpec ScanLine VState VPath VBreak VAel VOut VMain SortProofs
  RingSpec ClipSpec BreakSpec ClimbNone EquiSpec EquiMap EquiLoad EquiBreak BoxSpec BoxZ.
Import ListNotations.
Local Open Scope Z_scope.

(** *** Orders *)
Lemma rising_sorted {A} (lt : A -> A -> bool) l : rising lt l = true -> StronglySorted (fun a b => lt a b = true) l.
Proof.
  induction l as [|a l IH]; cbn; [constructor|]. intros H. apply andb_true_iff in H as (H & K). constructor; auto. apply Forall_forall.
  rewrite forallb_forall in H. auto.
Qed.

(** *** Breaks *)
Lemma edge_of_at vs i p q : edge_of vs i = Some (p, q) <-> edge_at vs i p q.
Proof.
  unfold edge_of, edge_at. split.
  - destruct (nth_error vs i) as [v|]; [|discriminate]. destruct (v_seg v) as [[]|] eqn:E; try discriminate. intros K. injection K as <- <-. eauto.
  - intros (v & -> & <- & ->). reflexivity.
Qed.
Lemma meets_at_in p q u r P : In P (meets_at p q u r) <-> meet p q u r P.
Proof.
  unfold meets_at, meet. rewrite in_app_iff. cbn [n_eqb Z_num].
  destruct ((vx p =? vx q) && (vy u =? vy r) && sbetween (vy u) (vy p) (vy q) && wbetween (vx p) (vx u) (vx r)) eqn:A;
  destruct ((vy p =? vy q) && (vx u =? vx r) && sbetween (vx u) (vx p) (vx q) && wbetween (vy p) (vy u) (vy r)) eqn:B;
  rewrite ?andb_true_iff, ?andb_false_iff in *; cbn [In]; intuition congruence.
Qed.
Lemma hits_in vs ids i P : In i ids -> In P (hits vs ids i) <-> broken vs ids i P.
Proof.
  intros Hi. unfold hits, broken. destruct (edge_of vs i) as [(p & q)|] eqn:E.
  - rewrite edge_of_at in E. split.
    + intros H. apply (Permutation_in _ (Permutation_sym (sort_by_perm _ _))) in H. apply in_flat_map in H as (j & Hj & H).
      destruct (Nat.eqb i j) eqn:D; [contradiction|]. apply Nat.eqb_neq in D. destruct (edge_of vs j) as [(u & r)|] eqn:E'; [|contradiction].
      rewrite edge_of_at in E'. apply meets_at_in in H. exists p, q, j, u, r. auto 8.
    + intros (p' & q' & j & u & r & _ & Hj & D & E1 & E2 & M). destruct (edge_at_fun _ _ _ _ _ _ E E1) as (<- & <-).
      apply (Permutation_in _ (sort_by_perm _ _)). apply in_flat_map. exists j. split; auto. apply Nat.eqb_neq in D. rewrite D.
      apply edge_of_at in E2. rewrite E2. now apply meets_at_in.
  - split; [contradiction|]. intros (p' & q' & j & u & r & _ & Hj & D & E1 & _). apply edge_of_at in E1. congruence.
Qed.
Lemma cut_listing addr vs ids ks : StronglySorted (fun a b => addr a < addr b) ks -> (forall k, In k ks <-> In k ids /\ hits vs ids k <> []) ->
  (forall i p q, In i ids -> edge_of vs i = Some (p, q) -> rising (along p q) (hits vs ids i) = true) ->
  listing addr vs ids (map place (cut_at vs ids ks)).
Proof.
  intros S K RI. split.
  - assert (SUB : forall k, In k ks -> In k ids) by (intros k Hk; now apply K). clear K. induction S as [|k ks S IH FK]; [constructor|].
    unfold cut_at in *. cbn [flat_map]. rewrite map_app.
    assert (IH' := IH (fun j Hj => SUB j (or_intror Hj))). clear IH. rewrite Forall_forall in FK.
    assert (A : forall x, In x (map place (flat_map (fun k => map (fun P => Break k P 0) (hits vs ids k)) ks)) -> addr k < addr (fst x)).
    { intros x Hx. apply in_map_iff in Hx as (b & <- & Hx). apply in_flat_map in Hx as (j & Hj & Hx). apply in_map_iff in Hx as (P & <- & _). cbn. auto. }
    revert A IH'. generalize (map place (flat_map (fun k => map (fun P => Break k P 0) (hits vs ids k)) ks)) as tl. intros tl A IH'.
    destruct (edge_of vs k) as [(p & q)|] eqn:E.
    + pose proof (rising_sorted _ _ (RI k p q (SUB k (or_introl eq_refl)) E)) as RS. rewrite edge_of_at in E.
      induction RS as [|P l RS IHl FP]; cbn [map app]; auto. constructor; auto. apply Forall_forall. intros x Hx. apply in_app_or in Hx as [Hx|Hx].
      * rewrite map_map in Hx. apply in_map_iff in Hx as (Q & <- & Hx). right. cbn. split; auto. exists p, q. split; auto. rewrite Forall_forall in FP. auto.
      * left. cbn. auto.
    + unfold hits. rewrite E. exact IH'.
  - intros i P. rewrite in_map_iff. split.
    + intros (b & E & H). apply in_flat_map in H as (k & Hk & H). apply in_map_iff in H as (Q & <- & H). injection E as <- <-. apply K in Hk as (Hk & _).
      now apply (hits_in vs ids k Q Hk).
    + intros B. assert (Hi : In i ids) by (destruct B as (? & ? & ? & ? & ? & ? & _); auto). pose proof (proj2 (hits_in vs ids i P Hi) B) as H.
      exists (Break i P 0). split; auto. apply in_flat_map. exists i. split; [apply K; split; auto; intros E; rewrite E in H; contradiction|].
      apply in_map_iff. eauto.
Qed.

(** *** Contours *)
Lemma some_true {A} (l : list A) : some l = true <-> l <> [].
Proof. destruct l; cbn; split; congruence. Qed.
Lemma zeqb_true p q : zeqb p q = true -> p = q.
Proof. unfold zeqb. destruct p, q. cbn. intros H. apply andb_true_iff in H as (A & B). apply Z.eqb_eq in A, B. congruence. Qed.
Lemma zeqb_refl p : zeqb p p = true.
Proof. unfold zeqb. now rewrite !Z.eqb_refl. Qed.
Lemma split_concat l : concat (split_moves l) = l.
Proof.
  induction l as [|c l IH]; cbn [split_moves]; auto. destruct (split_moves l) as [|h t]; cbn in *; [now rewrite <- IH|].
  destruct h as [|d h]; [|destruct (is_move d)]; cbn in *; now rewrite <- IH.
Qed.
Lemma connectedb_true l : forall p, connectedb p l = true -> connected p l.
Proof. induction l as [|c l IH]; cbn; auto. intros p H. rewrite !andb_true_iff in H. destruct H as ((A & B) & C). apply zeqb_true in A. apply negb_true_iff in B. auto. Qed.
Lemma contourb_true l : contourb l = true -> contour l.
Proof. destruct l as [|[]]; cbn; try discriminate. intros H. apply andb_true_iff in H as (A & B). split; [now apply some_true|now apply connectedb_true]. Qed.
Lemma split_contours l : forallb contourb (split_moves l) = true -> contours l (split_moves l).
Proof. intros H. split; [symmetry; apply split_concat|]. apply Forall_forall. rewrite forallb_forall in H. intros x X. apply contourb_true; auto. Qed.

(** *** The condition on one pair *)
Record pair_fact (fs : bool) (k k' : nat) (S C : rect Z) (s : clipper Z) (ids : list nat) : Prop := {
  pf_load : add_all clipper0 (box_paths fs k k' S C) = Ok s;
  pf_ids : all_rings (verts s) (starts s) = Ok ids;
  pf_plain : Forall plain (verts s);
  pf_unaligned : forall i j p q u r, In i ids -> In j ids -> i <> j -> edge_at (verts s) i p q -> edge_at (verts s) j u r ->
    ~ (vx p = vx q /\ vx u = vx r /\ vx p = vx u) /\ ~ (vy p = vy q /\ vy u = vy r /\ vy p = vy u);
  pf_rising : forall i p q, In i ids -> edge_of (verts s) i = Some (p, q) -> rising (along p q) (hits (verts s) ids i) = true;
  pf_sides : forall i p q P, edge_at (verts s) i p q -> broken (verts s) ids i P ->
    if vx p =? vx q then sides (y0 S) (y1 S) (y0 C) (y1 C) (vy p) (vy q) (vy P) = true /\ vy p <> vy q
    else sides (x0 S) (x1 S) (x0 C) (x1 C) (vx p) (vx q) (vx P) = true;
  pf_order : StronglySorted (fun a b => Z.of_nat a < Z.of_nat b) (filter (fun i => some (hits (verts s) ids i)) ids);
  pf_run : forall op fill, let bs := cut_at (verts s) ids (filter (fun i => some (hits (verts s) ids i)) ids) in
    exists s1, break_all (length bs) (w_breaks (w_op s op fill) bs) bs = Ok s1 /\ inv s1 /\ answer_ok op fill S C (omap snd (finish fuel0 s1)) = true }.

Lemma plainb_true v : plainb v = true -> plain v.
Proof. unfold plainb, plain, axis. destruct (v_seg v) as [[]|]; cbn; auto; try discriminate. now rewrite orb_true_iff. Qed.
Lemma plains l : forallb plainb l = true -> Forall plain l.
Proof. rewrite forallb_forall, Forall_forall. intros H x X. apply plainb_true; auto. Qed.
Lemma pair_ok_true fs k k' S C : pair_ok fs k k' S C = true -> exists s ids, pair_fact fs k k' S C s ids.
Proof.
  unfold pair_ok. destruct (add_all clipper0 (box_paths fs k k' S C)) as [s| | |] eqn:LO; try discriminate.
  destruct (all_rings (verts s) (starts s)) as [ids| | |] eqn:AR; try discriminate. rewrite !andb_true_iff. intros (((A & B) & D) & E).
  exists s, ids. rewrite forallb_forall in B, D. constructor; auto.
  - now apply plains.
  - intros i j p q u r Hi Hj N Ei Ej. specialize (B i Hi). rewrite forallb_forall in B. specialize (B j Hj). apply edge_of_at in Ei, Ej. rewrite Ei, Ej in B.
    apply Nat.eqb_neq in N. rewrite N in B. cbn [orb alignedb] in B. apply negb_true_iff, orb_false_iff in B as (B1 & B2).
    split; intros (K1 & K2 & K3); rewrite <- Z.eqb_eq in K1, K2, K3; [rewrite K1, K2, K3 in B1|rewrite K1, K2, K3 in B2]; discriminate.
  - intros i p q Hi Ei. specialize (D i Hi). unfold hit_ok in D. rewrite Ei in D. now apply andb_true_iff in D as (D & _).
  - intros i p q P Ei BR. assert (Hi : In i ids) by (destruct BR as (? & ? & ? & ? & ? & ? & _); auto). specialize (D i Hi). unfold hit_ok in D.
    apply edge_of_at in Ei. rewrite Ei in D. apply andb_true_iff in D as (_ & D). rewrite forallb_forall in D. specialize (D P (proj2 (hits_in _ _ _ _ Hi) BR)).
    cbv beta in D. destruct (vx p =? vx q); auto. apply andb_true_iff in D as (D1 & D2). apply negb_true_iff, Z.eqb_neq in D2. auto.
  - destruct E as (E & _). pose proof (rising_sorted _ _ E) as S0. clear -S0.
    induction S0 as [|a l S0 IH F]; constructor; auto. eapply Forall_impl; [|exact F]. intros x X. apply Nat.ltb_lt in X. lia.
  - intros op fill bs. destruct E as (_ & E). fold bs in E.
    change (w_breaks (w_op s op fill) bs) with (w_op (w_breaks s bs) op fill). rewrite break_all_op.
    destruct (break_all (length bs) (w_breaks s bs) bs) as [s1| | |]; try discriminate. exists (w_op s1 op fill). rewrite !andb_true_iff in E.
    destruct E as ((E1 & E2) & E3). split; [reflexivity|]. split; [split; [now apply plains|cbn; destruct (edges s1); [constructor|discriminate]]|].
    unfold run_ok in E3. rewrite forallb_forall in E3. assert (Io : In op ops) by (destruct op; cbn; auto 8). specialize (E3 op Io).
    rewrite forallb_forall in E3. assert (If : In fill fills) by (destruct fill; cbn; auto 8). exact (E3 fill If).
Qed.
