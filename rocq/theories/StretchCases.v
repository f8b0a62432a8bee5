(** Polygons for the example beside the theorem on moved coordinates. *)
From Coq Require Import ZArith Bool List Reals Lra Lia Permutation.
From Verif Require Import Outcome Num Rmath RTac VLemmas Segment Path PathSpec VState VPath VBreak VAel VOut VMain RingSpec ClipSpec BreakSpec LineSpec LineR
  EquiSpec EquiMap EquiLoad EquiBreak BoxZ BoxMap BoxCases StretchSpec Stretch.
Import ListNotations.

(** An L-shaped subject and a square that crosses its inner corner *)
Definition ell {T} (f : Z -> T) : list (path_type * list (list (outline (T := T)))) :=
  let p x y := V2 (f x) (f y) in
  [(subject, [[(p 0 0, map PLine [p 7 0; p 7 2; p 3 2; p 3 7; p 0 7])]]); (clip, [[(p 1 1, map PLine [p 5 1; p 5 5; p 1 5])]])]%Z.
(** x^2 / 8 between 0 and 8 *)
Definition bend (x : R) : R := if Rltb 0 x && Rltb x 8 then (x * x / 8)%R else x.
Lemma huge_8 : (8 < R_huge)%R.
Proof. unfold R_huge. apply IZR_lt. vm_compute. reflexivity. Qed.
Lemma bend_stretch : stretch bend.
Proof.
  pose proof huge_8. unfold bend. split; [|split].
  - intros a b L. destruct (Rltb 0 a) eqn:A1, (Rltb a 8) eqn:A2, (Rltb 0 b) eqn:B1, (Rltb b 8) eqn:B2; cbn [andb]; rbool; try lra; nra.
  - replace (Rltb R_huge 8) with false by (symmetry; apply Rltb_false; lra). now rewrite andb_false_r.
  - replace (Rltb 0 (- R_huge)) with false by (symmetry; apply Rltb_false; lra). reflexivity.
Qed.
Definition plan : Z -> R := ext [0; 1; 2; 3; 4; 5; 6; 7; 8]%R.
Lemma plan_good : good plan.
Proof. apply ext_good. pose proof huge_8. cbn. lra. Qed.
Lemma bent_good : good (fun z => bend (plan z)).
Proof.
  destruct bend_stretch as (S & H & L). constructor; intros.
  - apply S, (g_lt _ plan_good); auto.
  - now rewrite (g_hi _ plan_good). - now rewrite (g_lo _ plan_good).
Qed.
Lemma ell_plan : ell plan = ell IZR.
Proof. reflexivity. Qed.

Definition ellz : clipper Z := match add_all clipper0 (ell (fun z => z)) with Ok s => s | _ => clipper0 end.
Lemma ell_load f : good f -> add_all clipper0 (ell f) = Ok (cm f f [] ellz).
Proof.
  intros G. destruct (add_all_cm f f [] (good_maps f f G G) (ell (fun z => z)) clipper0) as (K & _); [constructor| |].
  - repeat constructor.
  - change (cm f f [] clipper0) with (@clipper0 R) in K. change (fall f f (ell (fun z => z))) with (ell f) in K. rewrite K.
    unfold ellz. destruct (add_all clipper0 (ell (fun z => z))) as [s| | |] eqn:E; [reflexivity| | |]; vm_compute in E; discriminate.
Qed.

(** *** The edges and where they meet *)
Definition all_edges (vs : list (vertex Z)) : list (vec2 Z * vec2 Z) :=
  flat_map (fun i => match edge_of vs i with Some e => [e] | None => [] end) (seq 0 (length vs)).
Lemma all_edge vs i p q : edge_at vs i p q -> In (p, q) (all_edges vs).
Proof.
  intros (v & V & <- & S). unfold all_edges. apply in_flat_map. exists i. split; [apply in_seq; apply VLemmas.nth_lt in V; lia|].
  unfold edge_of. rewrite V, S. left; auto.
Qed.
Definition all_hits (vs : list (vertex Z)) : list (vec2 Z * vec2 Z * vec2 Z) :=
  flat_map (fun a => flat_map (fun b => map (pair a) (meets_at (fst a) (snd a) (fst b) (snd b))) (all_edges vs)) (all_edges vs).
Lemma meet_at p q u r P : meet (N := Z_num) p q u r P -> In P (meets_at p q u r).
Proof.
  unfold meet, meets_at. intros [(A & B & -> & C & D)|(A & B & -> & C & D)]; cbn [n_eqb Z_num] in A, B; apply in_or_app; [left|right]; rewrite A, B, C, D; left; auto.
Qed.
Lemma all_hit f (s : clipper Z) i P p q : good f -> broken (verts (cm f f [] s)) (everything (cm f f [] s)) i P -> edge_at (verts (cm f f [] s)) i p q ->
  exists p' q' P', p = fp f f p' /\ q = fp f f q' /\ P = fp f f P' /\ In (p', q', P') (all_hits (verts s)).
Proof.
  intros G (p1 & q1 & j & u & r & _ & _ & _ & Ei & Ej & M) E. cbn [verts cm] in *. destruct (edge_at_fun _ _ _ _ _ _ Ei E) as (-> & ->).
  apply edge_at_image in E as (p' & q' & -> & -> & E). apply edge_at_image in Ej as (u' & r' & -> & -> & Ej).
  apply (meet_image f f (good_maps f f G G)) in M as (P' & -> & M). exists p', q', P'. csplit; auto. unfold all_hits.
  apply in_flat_map. exists (p', q'). split; [eapply all_edge; eauto|]. apply in_flat_map. exists (u', r'). split; [eapply all_edge; eauto|].
  apply in_map. now apply meet_at.
Qed.
Lemma all_axial (s : clipper Z) f : forallb (fun e => (vx (fst e) =? vx (snd e))%Z || (vy (fst e) =? vy (snd e))%Z) (all_edges (verts s)) = true ->
  axial (verts (cm f f [] s)) (everything (cm f f [] s)).
Proof.
  intros H i p q _ E. cbn [verts cm] in E. apply edge_at_image in E as (p' & q' & -> & -> & E). apply all_edge in E. rewrite forallb_forall in H. specialize (H _ E).
  cbn in *. apply orb_true_iff in H as [H|H]; apply Z.eqb_eq in H; rewrite H; auto.
Qed.
Lemma all_unaligned (s : clipper Z) f : good f ->
  forallb (fun i => forallb (fun j => Nat.eqb i j || negb (alignedb (edge_of (verts s) i) (edge_of (verts s) j))) (seq 0 (length (verts s)))) (seq 0 (length (verts s))) = true ->
  unaligned (verts (cm f f [] s)) (everything (cm f f [] s)).
Proof.
  intros G H i j p q u r Hi Hj NE Ei Ej. unfold everything in Hi, Hj. cbn [verts cm] in *. rewrite map_length in Hi, Hj.
  apply edge_at_image in Ei as (p' & q' & -> & -> & v & V & <- & Sv). apply edge_at_image in Ej as (u' & r' & -> & -> & w & W & <- & Sw).
  rewrite forallb_forall in H. specialize (H i Hi). rewrite forallb_forall in H. specialize (H j Hj). apply Nat.eqb_neq in NE. rewrite NE in H. cbn [orb] in H.
  unfold edge_of in H. rewrite V, W, Sv, Sw in H. apply negb_true_iff in H. unfold alignedb in H. apply orb_false_iff in H as (H1 & H2).
  cbn [fp vx vy]. split; intros (A & B & C); apply (g_inj _ G) in A, B, C; rewrite A, B, C, !Z.eqb_refl in *; cbn in *; try discriminate; rewrite <- C, Z.eqb_refl in *; discriminate.
Qed.
Lemma ell_right f : good f -> right_angled (cm f f [] ellz).
Proof. intros G. split; [apply all_axial|apply all_unaligned; auto]; vm_compute; reflexivity. Qed.
Lemma ell_hits_are : all_hits (verts ellz) =
  [(V2 7 2, V2 3 2, V2 5 2); (V2 3 2, V2 3 7, V2 3 5); (V2 5 1, V2 5 5, V2 5 2); (V2 5 5, V2 1 5, V2 3 5)]%Z.
Proof. vm_compute. reflexivity. Qed.
Lemma ell_met f : good f ->
  (forall p q P t, In (p, q, P) (all_hits (verts ellz)) -> fp f f P = pt (fp f f p) (fp f f q) t -> well_inside t) -> well_met (cm f f [] ellz).
Proof. intros G H i P p q t BR E EQ. destruct (all_hit f ellz i P p q G BR E) as (p' & q' & P' & -> & -> & -> & IN). exact (H p' q' P' t IN EQ). Qed.
Lemma bend_in z : (0 < z < 8)%R -> bend z = (z * z / 8)%R.
Proof. intros H. unfold bend. replace (Rltb 0 z) with true by (symmetry; apply Rltb_true; lra). replace (Rltb z 8) with true by (symmetry; apply Rltb_true; lra). reflexivity. Qed.
Lemma plan_met : well_met (cm plan plan [] ellz).
Proof.
  apply ell_met; [apply plan_good|]. intros p q P t IN E. rewrite ell_hits_are in IN. unfold well_inside.
  destruct IN as [IN|[IN|[IN|[IN|[]]]]]; injection IN as <- <- <-; unfold fp, pt, plan, ext in E; cbn - [IZR Rplus Rmult Rminus] in E; injection E as E1 E2; lra.
Qed.
Lemma bent_met : well_met (cm (fun z => bend (plan z)) (fun z => bend (plan z)) [] ellz).
Proof.
  apply ell_met; [apply bent_good|]. intros p q P t IN E. rewrite ell_hits_are in IN. unfold well_inside.
  destruct IN as [IN|[IN|[IN|[IN|[]]]]]; injection IN as <- <- <-; unfold fp, pt in E; cbn [vx vy] in E;
    change (plan 1) with 1%R in E; change (plan 2) with 2%R in E; change (plan 3) with 3%R in E; change (plan 5) with 5%R in E; change (plan 7) with 7%R in E;
    rewrite !bend_in in E by lra; injection E as E1 E2; lra.
Qed.
Lemma ell_polygons : Forall polygon (all_outlines (ell IZR)).
Proof.
  pose proof huge_8. assert (FN : forall a b, (0 <= a <= 7)%Z -> (0 <= b <= 7)%Z -> fin (V2 (IZR a) (IZR b))).
  { intros a b (A1 & A2) (B1 & B2). apply IZR_le in A1, A2, B1, B2. unfold fin. cbn [vx vy]. lra. }
  cbn [ell all_outlines flat_map concat app snd map]. constructor; [|constructor; [|constructor]];
    (split; cbn [fst snd]; [apply FN; lia|]); repeat (apply Forall_cons; [apply FN; lia|]); apply Forall_nil.
Qed.
Lemma ell_case : stretch bend /\ Forall polygon (all_outlines (ell IZR)) /\
  exists s s2, add_all clipper0 (ell IZR) = Ok s /\ add_all clipper0 (moved_paths bend bend (ell IZR)) = Ok s2 /\ right_angled s /\ well_met s /\ well_met s2.
Proof.
  split; [apply bend_stretch|]. split; [apply ell_polygons|]. rewrite <- ell_plan. exists (cm plan plan [] ellz), (cm (fun z => bend (plan z)) (fun z => bend (plan z)) [] ellz).
  split; [apply ell_load, plan_good|]. split; [apply (ell_load _ bent_good)|]. split; [apply ell_right, plan_good|]. split; [apply plan_met|apply bent_met].
Qed.
