(** Loops of the sweep that end. *)
From Coq Require Import ZArith Bool List Permutation Sorted Lia.
From Verif Require Import Outcome Num Order Rmath Segment VState VPath VBreak VAel VOut VMain VLemmas VFrame ClipSpec AelSpec
  VAelProofs VEdges VAelRun VRun SortProofs ClimbSpec VClimb.
Import ListNotations.
Local Open Scope out.

(** *** Walks *)
(** Following [f] from [i] ends after [k] steps; all places are below [n]. *)
Inductive walk (f : nat -> option nat) (n : nat) : nat -> nat -> Prop :=
| walk_end i : f i = None -> i < n -> walk f n i 0
| walk_step i j k : f i = Some j -> i < n -> walk f n j k -> walk f n i (S k).
Lemma walk_fun f n i k : walk f n i k -> forall k', walk f n i k' -> k = k'.
Proof.
  induction 1 as [i E L|i j k E L W IH]; intros k' W'; inversion W' as [? E' L'|? j' k0 E' L' W0]; subst; try congruence.
  f_equal. apply IH. congruence.
Qed.
Lemma walk_trace f n i k : walk f n i k -> exists l, length l = S k /\ NoDup l /\ (forall j, In j l -> j < n /\ exists k', k' <= k /\ walk f n j k').
Proof.
  induction 1 as [i E L|i j k E L W (l & A & B & C)].
  - exists [i]. csplit; auto; [repeat constructor; auto|]. intros j [<-|[]]. split; auto. exists 0. split; auto. now constructor.
  - exists (i :: l). csplit; [simpl; congruence| |].
    + constructor; auto. intros H. apply C in H as (_ & k' & Lk & H). assert (H' : walk f n i (S k)) by (econstructor; eauto).
      pose proof (walk_fun _ _ _ _ H _ H'). lia.
    + intros x [<-|Hx]; [split; auto; exists (S k); split; auto; econstructor; eauto|].
      apply C in Hx as (H1 & k' & H2 & H3). split; auto. exists k'. split; auto.
Qed.
Lemma walk_length f n i k : walk f n i k -> k < n.
Proof.
  intros H. apply walk_trace in H as (l & A & B & C). assert (length l <= n) by (apply bounded_length; auto; intros j Hj; apply C; auto). lia.
Qed.

Section Fuel.
  Context {T : Type} {N : Num T} {O : OrdNum T}.
  Implicit Types s : clipper T.
  Implicit Types vs : list (vertex T).
  Definition flat_step vs (fwd : bool) (i : nat) : option nat :=
    match nth_error vs i with
    | Some v => match neighbour fwd v with
                | Some j => match nth_error vs j with Some w => if n_eqb (vy (v_pt v)) (vy (v_pt w)) then Some j else None | None => None end
                | None => None
                end
    | None => None
    end.
  Definition climb_step vs (fwd : bool) (i : nat) : option nat :=
    match nth_error vs i with Some v => if v_max v then None else neighbour fwd v | None => None end.
  Lemma leaves_walk vs fwd i : vs_valid vs -> leaves vs fwd i -> exists k, walk (flat_step vs fwd) (length vs) i k.
  Proof.
    intros V. induction 1 as [i v j w A1 A2 A3 A4 A5|i v j w A1 A2 A3 A4 A5 [k IH]].
    - exists 0. constructor; [|eapply nth_lt; eauto]. unfold flat_step. rewrite A1, A2, A3.
      rewrite lt_not_eq; auto; apply V; eapply nth_error_In; eauto.
    - exists (S k). econstructor; [|eapply nth_lt; eauto|exact IH]. unfold flat_step. now rewrite A1, A2, A3, A4.
  Qed.
  Lemma climbs_walk vs fwd i : climbs vs fwd i -> exists k, walk (climb_step vs fwd) (length vs) i k.
  Proof.
    induction 1 as [i v A1 A2|i v j w A1 A2 A3 A4 A5 A6 [k IH]].
    - exists 0. constructor; [|eapply nth_lt; eauto]. unfold climb_step. now rewrite A1, A2.
    - exists (S k). econstructor; [|eapply nth_lt; eauto|exact IH]. unfold climb_step. now rewrite A1, A2, A3.
  Qed.

  Lemma next_edge_fuel s i : next_edge s i <> NoFuel.
  Proof. unfold next_edge. nofuel. Qed.
  Lemma is_maxima_fuel s e : is_maxima s e <> NoFuel.
  Proof. unfold is_maxima. nofuel. Qed.
  Lemma delete_active_edge_fuel s i : delete_active_edge s i <> NoFuel.
  Proof. unfold delete_active_edge. nofuel. Qed.
  Hint Resolve next_edge_fuel is_maxima_fuel delete_active_edge_fuel edge_x_at_fuel get_polytype_fuel valid_order_fuel : fuel.
  Lemma do_maxima_fuel s i : do_maxima s i <> NoFuel.
  Proof. unfold do_maxima. nofuel. Qed.
  Lemma get_seg_fuel s e : get_seg s e <> NoFuel.
  Proof. unfold get_seg. nofuel. Qed.
  Hint Resolve do_maxima_fuel get_seg_fuel : fuel.
  Lemma copy_seg_fuel s e r : copy_seg s e r <> NoFuel.
  Proof. unfold copy_seg. nofuel. Qed.
  Hint Resolve copy_seg_fuel : fuel.
  Lemma extend_bound_fuel s i : extend_bound s i <> NoFuel.
  Proof. unfold extend_bound. nofuel. Qed.
  Lemma update_x_fuel s i y : update_x s i y <> NoFuel.
  Proof. unfold update_x. nofuel. Qed.
  Lemma is_same_fuel s a b : is_same s a b <> NoFuel.
  Proof. unfold is_same. nofuel. Qed.
  Lemma is_contributing_fuel s a : is_contributing s a <> NoFuel.
  Proof. unfold is_contributing. nofuel. Qed.
  Hint Resolve extend_bound_fuel update_x_fuel is_same_fuel is_contributing_fuel : fuel.

  Lemma next_edge_vtop s i e s' : nth_error (edges s) i = Some e -> next_edge s i = Ok s' ->
    exists v n w e', nth_error (verts s) (e_vtop e) = Some v /\ neighbour (edge_up e) v = Some n /\ nth_error (verts s) n = Some w /\
      nth_error (edges s') i = Some e' /\ e_vtop e' = n /\ e_dx e' = e_dx e /\ verts s' = verts s /\ e_bot e' = e_top e /\ e_top e' = v_pt w.
  Proof.
    intros E H. unfold next_edge in H. apply bind_ok in H as (x & Ex & H). apply at_ok in Ex. rewrite E in Ex. injection Ex as <-.
    apply bind_ok in H as (v & Ev & H). apply at_ok in Ev. apply bind_ok in H as (n & En & H). apply deref_ok in En.
    apply bind_ok in H as (w & Ew & H). apply at_ok in Ew. apply emod_ok in H as [_ ->].
    exists v, n, w. eexists. csplit; [exact Ev|exact En|exact Ew|cbn [edges w_edges]; rewrite nth_upd, Nat.eqb_refl, E; reflexivity|..]; reflexivity.
  Qed.
  Lemma climb_fuel vs fuel : forall k s i e, verts s = vs -> nth_error (edges s) i = Some e -> walk (climb_step vs (edge_up e)) (length vs) (e_vtop e) k ->
    k < fuel -> climb fuel s i <> NoFuel.
  Proof.
    induction fuel as [|fuel IH]; intros k s i e HV E W L; [lia|]. cbn [climb]. apply bind_fuel; auto with fuel. intros x Ex. apply at_ok in Ex.
    rewrite E in Ex. injection Ex as <-. destruct (is_horz e); [|discriminate].
    apply bind_fuel; auto with fuel. intros m M. destruct m; [apply do_maxima_fuel|]. apply bind_fuel; auto with fuel. intros s1 F.
    destruct (next_edge_vtop (push_change s (vx (e_top e))) i e s1 E F) as (v & n & w & e' & A1 & A2 & A3 & A4 & A5 & A6 & A7 & _).
    unfold is_maxima in M. apply bind_ok in M as (v' & V' & M). apply at_ok in V'. cbn [verts push_change w_changes] in *. rewrite A1 in V'. injection V' as <-. injection M as M.
    assert (ST : climb_step vs (edge_up e) (e_vtop e) = Some n) by (unfold climb_step; now rewrite <- HV, A1, M).
    inversion W as [? E0 ?|? j k0 E0 L0 W0]; subst; [congruence|]. rewrite ST in E0. injection E0 as <-.
    apply (IH k0 s1 i e'); auto; [|lia]. unfold edge_up in *. now rewrite A6.
  Qed.
  Lemma top_loop_fuel vs y fuel : vs_valid vs -> nvalid y -> forall s lx c a b, active s (a ++ b) -> c = hd_or b None -> verts s = vs ->
    edges_ok vs (edges s) -> queue_ok vs y (scans s) -> length b <= fuel -> top_loop fuel s y lx c <> NoFuel.
  Proof.
    intros V Vy. induction fuel as [|fuel IH]; intros s lx c a b HA Hc HV OK Q L; cbn [top_loop].
    { destruct b; [|simpl in L; lia]. subst c. discriminate. }
    destruct b as [|i b]; cbn [hd_or] in Hc; subst c; [discriminate|]. simpl in L.
    apply bind_fuel; auto with fuel. intros x E. apply at_ok in E. destruct (active_split s a i b HA) as (e & E1 & E2 & E3).
    rewrite E in E1. injection E1 as <-. destruct (n_eqb (vy (e_top x)) y) eqn:Ey.
    - apply bind_fuel; auto with fuel. intros s1 F1. apply bind_fuel; auto with fuel. intros s2 F2. apply bind_fuel; auto with fuel. intros m F3.
      pose proof (extend_bound_frame _ _ _ F2) as (G1 & _ & G3 & G4 & G5 & _).
      assert (A2 : active s2 (a ++ i :: b)).
      { pose proof F1 as F1'. apply (emod_active _ _ _ _ (a ++ i :: b)) in F1'; auto.
        eapply active_rel with (R := fun e f => e = f) (s := s1); [intros ? ? ->; auto| | |exact F1'].
        - rewrite G5. destruct (n_eqb (vx (e_top x)) lx); split; cbn; eauto.
        - rewrite G4. destruct (n_eqb (vx (e_top x)) lx); reflexivity. }
      apply emod_ok in F1 as [_ ->]. set (s1 := w_edges s _) in *.
      assert (B : edges s2 = edges s1 /\ verts s2 = vs /\ scans s2 = scans s).
      { unfold VFrame.fin, fq in *. destruct (n_eqb (vx (e_top x)) lx); cbn in *; csplit; congruence. }
      destruct B as (B1 & B2 & B3).
      assert (OK2 : edges_ok vs (edges s2)).
      { rewrite B1. eapply edges_ok_rel; [|exact OK]. cbn. apply erel_upd; [apply pre_way|]. intros []; repeat split. }
      assert (E2' : nth_error (edges s2) i = Some (set_ex (vx (e_top x)) x)).
      { rewrite B1. cbn. rewrite nth_upd, Nat.eqb_refl, E. reflexivity. }
      destruct m.
      + apply bind_fuel; auto with fuel. intros [n s3] F4. pose proof (do_maxima_way _ _ _ _ F4) as R.
        destruct (do_maxima_ok s2 a i b n s3 A2 F4) as (K1 & K2 & _).
        apply do_maxima_frame in F4 as (A1 & _ & _ & A3). unfold VFrame.fin, fq in *.
        apply (IH s3 _ n a b); auto; [congruence|eapply edges_ok_rel; eauto|congruence|lia].
      + apply bind_fuel; auto with fuel. intros s3 F4.
        assert (C : climbing vs (set_ex (vx (e_top x)) x)) by (eapply OK2; eauto).
        destruct (next_edge_climbs s2 i _ s3 vs B2 E2' C F3 OK2 F4) as (K1 & K2 & K3 & e' & K4 & K5 & K6 & K7).
        cbn in K5. destruct (climbs_walk _ _ _ (proj2 K6)) as [k W]. pose proof (walk_length _ _ _ _ W) as Lk.
        apply bind_fuel; [apply (climb_fuel vs _ k s3 i e'); auto; rewrite K2; lia|]. intros [n s4] F5.
        apply (next_edge_active _ _ _ (a ++ i :: b)) in F4; auto.
        destruct (climb_ok _ _ _ _ _ _ _ F4 F5) as (N1 & N2 & _).
        destruct (climb_climbs (S (length (verts s3))) s3 i e' n s4 vs y V Vy K2 K4 K6) as (W1 & W2 & W3); auto; try congruence.
        { rewrite K5. destruct C as [(v & ? & D) _]. cbn in D. rewrite D. apply V. eapply nth_error_In; eauto. }
        destruct N2 as [N2|N2].
        * apply (IH s4 _ n a b); auto; lia.
        * replace (a ++ i :: b) with ((a ++ [i]) ++ b) in N2 by (rewrite <- app_assoc; reflexivity).
          apply (IH s4 _ n (a ++ [i]) b); auto; lia.
    - apply bind_fuel; auto with fuel. intros s1 F1. apply bind_fuel; auto with fuel. intros e' F2. apply bind_fuel; [nofuel|]. intros s2 F3.
      pose proof (update_x_way _ _ _ _ F1) as R.
      assert (A1 : active s1 (a ++ i :: b)).
      { unfold update_x in F1. apply bind_ok in F1 as (? & ? & F1). apply bind_ok in F1 as (? & ? & F1). eapply emod_active; [|exact F1|exact HA]; auto. }
      apply update_x_frame in F1 as (U1 & _ & U2 & _).
      assert (B : edges s2 = edges s1 /\ verts s2 = verts s1 /\ scans s2 = scans s1).
      { destruct (e_bound e'); dmatch; auto. }
      destruct B as (B1 & B2 & B3). apply bmod_opt_edges in F3 as [G1 G2].
      apply at_ok in F2. destruct (active_split s1 a i b A1) as (e1 & N1 & N2 & N3). rewrite F2 in N1. injection N1 as <-.
      rewrite N3. replace (a ++ i :: b) with ((a ++ [i]) ++ b) in A1 by (rewrite <- app_assoc; reflexivity).
      unfold VFrame.fin, fq in *.
      assert (A3 : active (if n_eqb (e_x e') lx then push_change s2 lx else s2) ((a ++ [i]) ++ b)).
      { destruct A1 as (X1 & X2 & X3). destruct (n_eqb (e_x e') lx); (split; [cbn; congruence|split; auto]); cbn; rewrite G1; auto. }
      apply (IH _ _ _ (a ++ [i]) b A3); auto; [..|lia]; destruct (n_eqb (e_x e') lx); cbn;
        first [congruence|rewrite B1; eapply edges_ok_rel; eauto].
  Qed.

  (** *** New edges *)
  Lemma skip_horz_fuel vs fuel : vs_valid vs -> forall k s i e, verts s = vs -> nth_error (edges s) i = Some e ->
    (exists v, nth_error vs (e_vtop e) = Some v /\ e_top e = v_pt v) ->
    (is_horz e = true -> walk (flat_step vs (edge_up e)) (length vs) (e_vtop e) k /\ k < fuel) -> skip_horz fuel s i <> NoFuel.
  Proof.
    intros V. induction fuel as [|fuel IH]; intros k s i e HV E (v0 & P1 & P2) W; cbn [skip_horz]; apply bind_fuel; auto with fuel; intros x Ex; apply at_ok in Ex;
      rewrite E in Ex; injection Ex as <-; destruct (is_horz e); try discriminate; destruct W as [W L]; auto; [lia|].
    apply bind_fuel; auto with fuel. intros s1 F. apply bind_fuel; auto with fuel. intros x Ex. apply at_ok in Ex.
    destruct (next_edge_vtop s i e s1 E F) as (v & n & w & e' & A1 & A2 & A3 & A4 & A5 & A6 & A7 & A8 & A9).
    rewrite A4 in Ex. injection Ex as <-. rewrite HV, P1 in A1. injection A1 as <-.
    apply (IH (pred k) _ i e'); auto.
    - cbn. congruence.
    - exists w. rewrite A5. split; congruence.
    - intros Hz. unfold is_horz in Hz. rewrite A8, A9, P2 in Hz. rewrite HV in A3.
      assert (ST : flat_step vs (edge_up e) (e_vtop e) = Some n) by (unfold flat_step; now rewrite P1, A2, A3, Hz).
      inversion W as [? E0 ?|? j k0 E0 L0 W0]; subst; [congruence|]. rewrite ST in E0. injection E0 as <-.
      unfold edge_up in *. rewrite A6. cbn [pred]. split; auto. lia.
  Qed.
  Lemma start_edge_fuel vs s m v top dx : vs_valid vs -> verts s = vs -> In v vs ->
    (forall w, nth_error vs top = Some w ->
       (n_ltb (vy (v_pt v)) (vy (v_pt w)) = true /\ climbs vs (Z.ltb dx 0) top) \/
       (n_eqb (vy (v_pt v)) (vy (v_pt w)) = true /\ leaves vs (Z.ltb dx 0) top)) ->
    start_edge s m (v_pt v) top dx <> NoFuel.
  Proof.
    intros V HV Hv R. unfold start_edge. apply bind_fuel; auto with fuel. intros w Ew. apply at_ok in Ew. rewrite HV in Ew.
    apply bind_fuel; [|intros; apply bind_fuel; auto with fuel].
    set (e := Edge _ _ _ _ _ _ _ _ _ _ _).
    assert (NE : nth_error (edges s ++ [e]) (length (edges s)) = Some e) by (rewrite nth_error_app2, Nat.sub_diag by lia; reflexivity).
    cbn [verts w_edges]. rewrite HV. destruct (R w Ew) as [[L C]|[L C]].
    - apply (skip_horz_fuel vs (length vs) V 0 _ _ e); auto; [exists w; auto|]. intros Hz. unfold is_horz in Hz. cbn in Hz.
      rewrite lt_not_eq in Hz; auto; [discriminate|]. apply V. eapply nth_error_In; eauto.
    - destruct (leaves_walk _ _ _ V C) as [k W]. apply (skip_horz_fuel vs (length vs) V k _ _ e); auto; [exists w; auto|].
      intros _. split; [exact W|]. eapply walk_length; eauto.
  Qed.
  Lemma insert_minimum_fuel vs y s m l : vs_valid vs -> nvalid y -> verts s = vs -> active s l ->
    (exists x v, nth_error (lmins s) m = Some x /\ nth_error vs (lm_vert x) = Some v /\ n_eqb (vy (v_pt v)) y = true /\ valley vs (lm_vert x)) ->
    insert_minimum s m <> NoFuel.
  Proof.
    intros V Vy HV HA (lm & v & L1 & L2 & L3 & [Lf Lb]). unfold insert_minimum.
    apply bind_fuel; auto with fuel. intros x Ex. apply at_ok in Ex. rewrite L1 in Ex. injection Ex as <-.
    apply bind_fuel; auto with fuel. intros x Ex. apply at_ok in Ex. rewrite HV, L2 in Ex. injection Ex as <-.
    apply bind_fuel; auto with fuel. intros p Ep. apply deref_ok in Ep. apply bind_fuel; auto with fuel. intros n En. apply deref_ok in En.
    pose proof (nth_error_In _ _ L2) as Hv.
    apply bind_fuel; [apply (start_edge_fuel vs); auto; apply (leaves_first vs false (lm_vert lm)); auto|]. intros t1 F1.
    pose proof (start_edge_frame _ _ _ _ _ _ F1) as (A1 & _ & G1 & _). unfold VFrame.fin in A1.
    assert (HV1 : verts t1 = vs) by congruence.
    apply bind_fuel; [apply (start_edge_fuel vs); auto; apply (leaves_first vs true (lm_vert lm)); auto|]. intros t2 F2.
    pose proof (start_edge_frame _ _ _ _ _ _ F2) as (_ & _ & G2 & _).
    apply start_edge_last in F1 as (ea & M1 & M2). apply start_edge_last in F2 as (eb & B1 & B2).
    assert (EE : edges t2 = edges s ++ [ea; eb]) by (rewrite B1, M1, <- app_assoc; reflexivity).
    assert (T2 : active t2 l) by (apply (active_ext s); [auto|congruence|eauto]).
    assert (La : ~ In (length (edges s)) l) by (intros K; apply (active_bound_len s l _ HA) in K; lia).
    apply bind_fuel; [eapply insert_into_ael_fuel; eauto|]. intros t3 F3.
    destruct (insert_into_ael_ok t2 l _ t3 T2 La F3) as (l1 & l2 & nc & K1 & K2 & K3 & _).
    apply bind_fuel; auto with fuel. intros xa Na. apply at_ok in Na.
    destruct (active_split t3 l1 _ l2 K2) as (e & N1 & N2 & N3). rewrite Na in N1. injection N1 as <-. rewrite N2.
    apply bind_fuel; [|intros t4 F4; nofuel].
    destruct (snoc_cases l1) as [->|(a & q & ->)]; [cbn [last_or insert_into_ael_left]; eapply insert_into_ael_fuel; eauto|].
    rewrite last_or_snoc. cbn [insert_into_ael_left]. rewrite <- app_assoc in K2. eapply insert_after_fuel; eauto.
  Qed.
  Lemma insert_minima_fuel vs y rest : vs_valid vs -> nvalid y -> forall s l, good vs s -> queue_ok vs y (scans s) -> active s l ->
    (forall m, In m rest -> In m (minima s)) -> insert_minima s y rest <> NoFuel.
  Proof.
    intros V Vy. induction rest as [|m r IH]; intros s l G Q HA I; cbn [insert_minima]; [discriminate|].
    apply bind_fuel; auto with fuel. intros x Ex. apply at_ok in Ex. apply bind_fuel; auto with fuel. intros v Ev. apply at_ok in Ev.
    destruct (n_eqb (vy (v_pt v)) y) eqn:E; [|discriminate].
    pose proof G as (G1 & G2 & G3). destruct (G3 m) as (x' & X1 & X2); [apply I; now left|]. rewrite Ex in X1. injection X1 as <-. rewrite G1 in Ev, X2.
    apply bind_fuel.
    { apply (insert_minimum_fuel vs y _ m l); auto. exists x, v. auto. }
    intros s1 F. pose proof (insert_minimum_frame _ _ _ F) as (A1 & _ & _).
    destruct (insert_minimum_climbs vs y (w_minima s (minima s) (S (cur s))) m s1) as [K1 K2]; auto; [exists x, v; auto|].
    destruct (insert_minimum_ok (w_minima s (minima s) (S (cur s))) m l s1 HA F) as (l1 & ea & eb & P & HA1 & _).
    assert (G' : good vs s1) by (eapply good_frame; [exact A1|exact G|exact K1]).
    apply (IH s1 l1); auto. intros k Hk. unfold VFrame.fin in A1. injection A1 as A1 A2 A3 A4 A5 A6 A7. rewrite A3. apply I. now right.
  Qed.

  (** *** Counts *)
  Lemma find_left_fuel s t a : forall fuel i b, active s (a ++ i :: b) -> length a <= fuel -> find_left fuel s t (last_or None a) <> NoFuel.
  Proof.
    induction a as [|j a IH] using rev_ind; intros fuel i b HA L; [destruct fuel; discriminate|].
    rewrite last_or_snoc. rewrite app_length in L. simpl in L. destruct fuel as [|fuel]; [lia|].
    rewrite <- app_assoc in HA. cbn [app] in HA. destruct (active_split _ _ _ _ HA) as (e & E & P & _).
    cbn [find_left]. apply bind_fuel; auto with fuel. intros x Ex. apply at_ok in Ex. rewrite E in Ex. injection Ex as <-.
    apply bind_fuel; auto with fuel. intros u _. destruct (ptype_eqb u t); [discriminate|]. rewrite P. apply (IH fuel j (i :: b)); auto. lia.
  Qed.
  Lemma find_left_place s t a : forall fuel i b j, active s (a ++ i :: b) -> find_left fuel s t (last_or None a) = Ok (Some j) ->
    exists a1 a2, a = a1 ++ j :: a2.
  Proof.
    induction a as [|k a IH] using rev_ind; intros fuel i b j HA H; [destruct fuel; discriminate|].
    rewrite last_or_snoc in H. destruct fuel as [|fuel]; [discriminate|].
    rewrite <- app_assoc in HA. cbn [app] in HA. destruct (active_split _ _ _ _ HA) as (e & E & P & _).
    cbn [find_left] in H. apply bind_ok in H as (x & Ex & H). apply at_ok in Ex. rewrite E in Ex. injection Ex as <-.
    apply bind_ok in H as (u & _ & H). destruct (ptype_eqb u t).
    - injection H as <-. exists a, []. reflexivity.
    - rewrite P in H. destruct (IH fuel k (i :: b) j HA H) as (a1 & a2 & ->). exists a1, (a2 ++ [k]). now rewrite <- app_assoc.
  Qed.
  Lemma sum_other_fuel s t a2 : forall fuel a1 i b c, active s (a1 ++ a2 ++ i :: b) -> length a2 <= fuel ->
    sum_other fuel s t (hd_or (a2 ++ i :: b) None) i c <> NoFuel.
  Proof.
    induction a2 as [|j a2 IH]; intros fuel a1 i b c HA L.
    - cbn [app hd_or]. destruct fuel; cbn [sum_other]; rewrite (proj2 (ptr_eqb_eq (Some i) (Some i)) eq_refl); discriminate.
    - cbn [app hd_or]. simpl in L. destruct fuel as [|fuel]; [lia|]. cbn [sum_other]. destruct (ptr_eqb (Some j) (Some i)); [discriminate|].
      cbn [deref of_opt bind]. apply bind_fuel; auto with fuel. intros e E. apply at_ok in E. apply bind_fuel; auto with fuel. intros u _.
      cbn [app] in HA. destruct (active_split _ _ _ _ HA) as (e' & E' & _ & Q). rewrite E in E'. injection E' as <-. rewrite Q.
      apply (IH fuel (a1 ++ [j])); [rewrite <- app_assoc; exact HA|lia].
  Qed.
  Lemma calc_windcnt_fuel s a i b : active s (a ++ i :: b) -> calc_windcnt s i <> NoFuel.
  Proof.
    intros HA. destruct (active_split _ _ _ _ HA) as (e & E & P & Q). pose proof (active_length _ _ HA) as L. rewrite app_length in L. simpl in L.
    unfold calc_windcnt. apply bind_fuel; auto with fuel. intros x Ex. apply at_ok in Ex. rewrite E in Ex. injection Ex as <-.
    apply bind_fuel; auto with fuel. intros pt _. rewrite P. apply bind_fuel; [eapply find_left_fuel; eauto; lia|]. intros lft F.
    apply bind_fuel; [nofuel|]. intros [c [c2 from]] R. apply bind_fuel; auto with fuel.
    destruct lft as [j|].
    - destruct (find_left_place _ _ _ _ _ _ _ HA F) as (a1 & a2 & ->). rewrite <- app_assoc in HA. cbn [app] in HA.
      destruct (active_split _ _ _ _ HA) as (ej & Ej & _ & Qj). apply bind_ok in R as (x & Ex & R). apply at_ok in Ex.
      rewrite Ej in Ex. injection Ex as <-. injection R as _ _ <-. rewrite Qj. apply (sum_other_fuel s pt a2 _ (a1 ++ [j])).
      + rewrite <- app_assoc. exact HA.
      + rewrite app_length in L. simpl in L. lia.
    - injection R as _ _ <-. destruct HA as (HA1 & HA2). rewrite HA1. apply (sum_other_fuel s pt a _ []); [split; auto|lia].
  Qed.
  Lemma recalc_at_fuel fuel : forall s x a b, active s (a ++ b) -> length b <= fuel -> recalc_at fuel s x (hd_or b None) <> NoFuel.
  Proof.
    induction fuel as [|fuel IH]; intros s x a b HA L; (destruct b as [|i b]; cbn [hd_or recalc_at]; [discriminate|]); simpl in L; [lia|].
    destruct (active_split s a i b HA) as (e & E & P & Q). apply bind_fuel; auto with fuel. intros e' Ee. apply at_ok in Ee. rewrite E in Ee. injection Ee as <-.
    assert (NX : forall s', active s' (a ++ i :: b) -> recalc_at fuel s' x (hd_or b None) <> NoFuel).
    { intros s' HA'. apply (IH s' x (a ++ [i]) b); [rewrite <- app_assoc; exact HA'|lia]. }
    destruct (n_ltb (e_x e) x); [rewrite Q; auto|]. destruct (n_ltb x (e_x e)); [discriminate|].
    apply bind_fuel; [nofuel|]. intros s1 F1. apply bind_fuel; auto with fuel. intros s2 F2.
    apply bmod_opt_edges in F1 as [G1 G2]. apply emod_ok in F2 as [_ ->].
    assert (A2 : active (w_edges s1 (upd (edges s1) i (set_ebound None))) (a ++ i :: b)).
    { apply (active_bound s); auto. cbn. rewrite G1. apply erel_upd; [apply pre_bound|intros []; reflexivity]. }
    apply bind_fuel; [eapply calc_windcnt_fuel; eauto|]. intros s3 F3. apply bind_fuel; auto with fuel. intros e3 E3. apply at_ok in E3.
    assert (A3 : active s3 (a ++ i :: b)).
    { eapply active_count; [eapply calc_windcnt_ec; eauto| |exact A2]. apply calc_windcnt_frame in F3. tauto. }
    destruct (active_split s3 a i b A3) as (e4 & E4 & _ & Q4). rewrite E3 in E4. injection E4 as <-. rewrite Q4. auto.
  Qed.
  Lemma recalc_at_place fuel : forall s x a b c s', active s (a ++ b) -> recalc_at fuel s x (hd_or b None) = Ok (c, s') ->
    active s' (a ++ b) /\ exists b1 b2, b = b1 ++ b2 /\ c = hd_or b2 None.
  Proof.
    induction fuel as [|fuel IH]; intros s x a b c s' HA H; (destruct b as [|i b]; cbn [hd_or recalc_at] in H; [injection H as <- <-; split; auto; exists [], []; auto|]); [discriminate|].
    destruct (active_split s a i b HA) as (e & E & P & Q). apply bind_ok in H as (e' & Ee & H). apply at_ok in Ee. rewrite E in Ee. injection Ee as <-.
    assert (NX : forall s1, active s1 (a ++ i :: b) -> recalc_at fuel s1 x (hd_or b None) = Ok (c, s') ->
      active s' (a ++ i :: b) /\ exists b1 b2, i :: b = b1 ++ b2 /\ c = hd_or b2 None).
    { intros s1 HA' H'. destruct (IH s1 x (a ++ [i]) b c s') as (K1 & b1 & b2 & K2 & K3); auto; [rewrite <- app_assoc; exact HA'|].
      rewrite <- app_assoc in K1. split; auto. exists (i :: b1), b2. split; auto. now rewrite K2. }
    destruct (n_ltb (e_x e) x); [rewrite Q in H; eauto|].
    destruct (n_ltb x (e_x e)); [injection H as <- <-; split; auto; exists [], (i :: b); auto|].
    apply bind_ok in H as (s1 & F1 & H). apply bind_ok in H as (s2 & F2 & H). apply bind_ok in H as (s3 & F3 & H). apply bind_ok in H as (e3 & E3 & H).
    apply bmod_opt_edges in F1 as [G1 G2]. apply emod_ok in F2 as [_ ->].
    assert (A2 : active (w_edges s1 (upd (edges s1) i (set_ebound None))) (a ++ i :: b)).
    { apply (active_bound s); auto. cbn. rewrite G1. apply erel_upd; [apply pre_bound|intros []; reflexivity]. }
    apply at_ok in E3.
    assert (A3 : active s3 (a ++ i :: b)).
    { eapply active_count; [eapply calc_windcnt_ec; eauto| |exact A2]. apply calc_windcnt_frame in F3. tauto. }
    destruct (active_split s3 a i b A3) as (e4 & E4 & _ & Q4). rewrite E3 in E4. injection E4 as <-. rewrite Q4 in H. eauto.
  Qed.
  Lemma recalc_all_fuel xs : forall s a b, active s (a ++ b) -> recalc_all s xs (hd_or b None) <> NoFuel.
  Proof.
    induction xs as [|x xs IH]; intros s a b HA; cbn [recalc_all]; [discriminate|]. pose proof (active_length _ _ HA) as L. rewrite app_length in L.
    apply bind_fuel; [eapply recalc_at_fuel; eauto; lia|]. intros [c s'] F.
    destruct (recalc_at_place _ _ _ _ _ _ _ HA F) as (A & b1 & b2 & -> & ->). rewrite app_assoc in A. apply (IH s' (a ++ b1) b2). exact A.
  Qed.
  Lemma recalc_windcnt_fuel s l : active s l -> recalc_windcnt s <> NoFuel.
  Proof.
    intros HA. unfold recalc_windcnt. assert (HA' : active (w_changes s (tidy_changes (changes s))) ([] ++ l)) by exact HA.
    pose proof (recalc_all_fuel (changes (w_changes s (tidy_changes (changes s)))) _ [] l HA') as K. rewrite <- (proj1 HA : _ = hd_or l None) in K. exact K.
  Qed.

  (** *** Output bounds *)
  Lemma collect_fuel fuel : forall s a b acc, active s (a ++ b) -> length b <= fuel -> collect fuel s (hd_or b None) acc <> NoFuel.
  Proof.
    induction fuel as [|fuel IH]; intros s a b acc HA L; (destruct b as [|i b]; cbn [hd_or collect]; [discriminate|]); simpl in L; [lia|].
    destruct (active_split s a i b HA) as (e & E & P & Q). apply bind_fuel; auto with fuel. intros e' Ee. apply at_ok in Ee. rewrite E in Ee. injection Ee as <-.
    apply bind_fuel; auto with fuel. intros k _. apply bind_fuel; [nofuel|]. intros acc' _. rewrite Q.
    apply (IH s (a ++ [i]) b); [rewrite <- app_assoc; exact HA|lia].
  Qed.
  Lemma new_output_fuel s a b : new_output s a b <> NoFuel.
  Proof. unfold new_output. nofuel. Qed.
  Lemma delete_obl_bound_fuel s b : delete_obl_bound s b <> NoFuel.
  Proof. unfold delete_obl_bound. nofuel. Qed.
  Lemma absorb_fuel s a b u : absorb s a b u <> NoFuel.
  Proof. unfold absorb. nofuel. Qed.
  Hint Resolve new_output_fuel delete_obl_bound_fuel absorb_fuel : fuel.
  Lemma join_output_fuel s a b y : join_output s a b y <> NoFuel.
  Proof. unfold join_output. nofuel. Qed.
  Lemma update_bound_fuel s a b : update_bound s a b <> NoFuel.
  Proof. unfold update_bound. nofuel. Qed.
  Hint Resolve join_output_fuel update_bound_fuel : fuel.
  Lemma connect_fuel s a b y : connect s a b y <> NoFuel.
  Proof. unfold connect. nofuel. Qed.
  Hint Resolve connect_fuel : fuel.
  Lemma open_pairs_fuel k : forall s l, length l <= k -> open_pairs s l <> NoFuel.
  Proof.
    induction k as [|k IH]; intros s [|a [|b l]] L; try discriminate; [simpl in L; lia|]. cbn [open_pairs]. simpl in L.
    apply bind_fuel; auto with fuel. intros ea _. apply bind_fuel; auto with fuel. intros eb _. destruct (n_eqb (e_x ea) (e_x eb)).
    - apply bind_fuel; auto with fuel. intros s' _. apply IH. lia.
    - apply bind_fuel; [apply IH; lia|]. intros [s' l'] _. discriminate.
  Qed.
  Lemma new_output_bounds s a b s' : new_output s a b = Ok s' -> (exists x, bounds s' = bounds s ++ x) /\ obl s' = obl s.
  Proof. unfold new_output. intros H. dmatch; cbn; eauto. Qed.
  Lemma open_pairs_bounds k : forall s l s' l', length l <= k -> open_pairs s l = Ok (s', l') -> (exists x, bounds s' = bounds s ++ x) /\ obl s' = obl s.
  Proof.
    induction k as [|k IH]; intros s [|a [|b l]] s' l' L H; cbn [open_pairs] in H;
      try (injection H as <- <-; split; [exists []; now rewrite app_nil_r|reflexivity]); simpl in L; [lia|].
    apply bind_ok in H as (ea & _ & H). apply bind_ok in H as (eb & _ & H). destruct (n_eqb (e_x ea) (e_x eb)).
    - apply bind_ok in H as (s1 & F & H). apply new_output_bounds in F as [[x F1] F2]. apply IH in H as [[x' H1] H2]; [|lia].
      split; [|congruence]. exists (x ++ x'). now rewrite H1, F1, app_assoc.
    - apply bind_ok in H as ([s1 l1] & F & H). injection H as <- <-. apply IH in F; auto. lia.
  Qed.
  Lemma sbl_edges_fuel s l : forall k, sbl_edges s l k <> NoFuel.
  Proof. induction l as [|i l IH]; intros k; cbn [sbl_edges]; [discriminate|]. apply bind_fuel; auto with fuel. intros e _. apply bind_fuel; auto with fuel. Qed.
  Lemma sbl_bounds_far n : forall s c k, sbl_bounds n s c k = NoFuel -> far (bounds s) n c.
  Proof.
    induction n as [|n IH]; intros s [i|] k H; cbn [sbl_bounds] in H; try discriminate; [constructor|].
    destruct (at_ (bounds s) i) as [b| | |] eqn:E; cbn [bind] in H; try discriminate; [|exfalso; eapply at_fuel; eauto].
    apply at_ok in E. apply (far_next _ n i b E). apply (IH s _ (S k)). destruct (sbl_bounds n s (ob_next b) (S k)); cbn [bind] in H; congruence.
  Qed.
  Lemma find_other_length x k : forall (l : list (bd (T := T))) o r, find_other x k l = Some (o, r) -> length l = S (length r).
  Proof.
    induction l as [|h l IH]; intros o r H; cbn [find_other] in H; [discriminate|]. destruct (n_eqb (bd_x h) x); [|discriminate].
    destruct (Bool.eqb (is_edge h) k).
    - destruct (find_other x k l) as [[o' r']|]; [|discriminate]. injection H as <- <-. simpl. f_equal. eapply IH; eauto.
    - now injection H as <- <-.
  Qed.
  Lemma match_up_fuel y k : forall s l, length l <= k -> match_up k s y l <> NoFuel.
  Proof.
    induction k as [|k IH]; intros s [|h l] L; cbn [match_up]; try discriminate; simpl in L; [lia|].
    destruct (find_other (bd_x h) (is_edge h) l) as [[o r]|] eqn:F.
    - apply find_other_length in F. apply bind_fuel; auto with fuel. intros s' _. apply IH. lia.
    - destruct l as [|n l]; [discriminate|]. apply bind_fuel; auto with fuel. intros s' _. apply IH. simpl in L. lia.
  Qed.
  Lemma link_obl_fuel l : forall s c, link_obl s c l <> NoFuel.
  Proof. induction l as [|i l IH]; intros s c; cbn [link_obl]; [discriminate|]. nofuel. Qed.
  Hint Resolve link_obl_fuel : fuel.
  Lemma rebuild_obl_fuel s l : rebuild_obl s l <> NoFuel.
  Proof. unfold rebuild_obl. nofuel. Qed.
  Lemma bind_out {A B} (o : outcome A) (f : A -> outcome B) : bind o f = NoFuel -> o = NoFuel \/ exists x, o = Ok x /\ f x = NoFuel.
  Proof. destruct o; cbn; try discriminate; eauto. Qed.
  (** Inner runs that end leave only [H]. *)
  Ltac out H := let x := fresh "x" in let E := fresh "E" in apply bind_out in H as [H|(x & E & H)].
  Lemma update_output_bound_far n s y l : active s l -> update_output_bound n s y = NoFuel -> exists more, far (bounds s ++ more) n (obl s).
  Proof.
    intros HA H. unfold update_output_bound in H. destruct (changes s) as [|c cs]; [discriminate|].
    assert (HA' : active (w_changes s []) ([] ++ l)) by exact HA.
    out H.
    { exfalso. pose proof (collect_fuel (length (edges s)) (w_changes s []) [] l [] HA') as K. rewrite <- (proj1 HA : _ = hd_or l None) in K. apply K; auto.
      apply active_length in HA. exact HA. }
    out H; [exfalso; eapply open_pairs_fuel; eauto|]. destruct x0 as [s1 lft].
    apply (open_pairs_bounds (length (rev x))) in E0 as [[more B1] B2]; auto. cbn [bounds obl w_changes] in B1, B2.
    out H; [exfalso; eapply sbl_edges_fuel; eauto|]. out H.
    - exists more. apply sbl_bounds_far in H. now rewrite B1, B2 in H.
    - out H; [exfalso; eapply match_up_fuel; eauto|]. exfalso. eapply rebuild_obl_fuel; eauto.
  Qed.

  (** *** The main loop *)
  Definition sound vs y s : Prop := good vs s /\ queue_ok vs y (scans s) /\ has_list s.
  Lemma scan_at_stuck vs n s y : vs_valid vs -> nvalid y -> sound vs y s -> scan_at n s y = NoFuel ->
    exists s1 s2 more, insert_local_minima_to_ael s y = Ok s1 /\ recalc_windcnt s1 = Ok s2 /\ update_output_bound n s2 y = NoFuel /\
      far (bounds s2 ++ more) n (obl s2).
  Proof.
    intros V Vy (G & Q & l & HA) H. unfold scan_at in H. out H.
    { exfalso. revert H. apply (insert_minima_fuel vs y _ V Vy s l G Q HA). intros m. apply in_skipn. }
    destruct (insert_minima_ok _ _ _ _ _ HA E) as (l' & z & _ & A1 & _).
    out H; [exfalso; eapply recalc_windcnt_fuel; eauto|].
    assert (A2 : active x0 l').
    { eapply active_count; [eapply recalc_windcnt_ec; eauto| |exact A1]. apply recalc_windcnt_frame in E0. tauto. }
    destruct (update_output_bound_far _ _ _ _ A2 H) as [more F]. exists x, x0, more. auto.
  Qed.
  Lemma beam_stuck vs n s y : vs_valid vs -> nvalid y -> sound vs y s -> beam n s y = NoFuel ->
    exists s1, do_top_of_scanbeam s y = Ok s1 /\ close_output n s1 y = NoFuel.
  Proof.
    intros V Vy ((G1 & G2 & G3) & Q & l & HA) H. unfold beam in H.
    assert (HA0 : active (w_changes s []) ([] ++ l)) by exact HA.
    out H.
    { exfalso. unfold do_top_of_scanbeam in H. revert H. apply (top_loop_fuel vs y _ V Vy (w_changes s []) _ _ [] l HA0); auto; [apply HA|].
      apply active_length in HA. exact HA. }
    pose proof E as E'. unfold do_top_of_scanbeam in E. destruct (top_loop_ok _ _ _ _ _ _ _ _ HA0 (proj1 HA0) E) as (l1 & _ & A1 & _).
    out H; [exists x; auto|].
    assert (A2 : active x0 ([] ++ l1)).
    { eapply active_bound; [eapply close_output_eb; eauto| |exact A1]. apply close_output_frame in E0. tauto. }
    exfalso. eapply resort_ael_fuel; eauto.
  Qed.
  Lemma visits_list en n s0 op fill ys s : visits en n s0 op fill ys s -> has_list (s : clipper T).
  Proof.
    induction 1 as [s1' s2 s3 y P1 P2 P3|y ys s s2 s3 s4 y' H IH P1 P2 P3].
    - eapply pop_scanline_list; [|eassumption]. eapply reset_list; eauto.
    - eapply beam_list; [|eassumption]. eapply pop_scanline_list; [|eassumption]. eapply scan_at_list; eauto.
  Qed.
  Lemma reset_fuel s : reset s <> NoFuel.
  Proof.
    unfold reset. apply bind_fuel; [|discriminate]. generalize (w_minima s (sort_by (min_ltb s) (minima s)) 0) as t.
    induction (rev _) as [|m r IH]; intros t; cbn [push_minima]; [discriminate|]. nofuel.
  Qed.
  Section Run.
    Variables (en : env) (n : nat) (s0 : clipper T) (op : clip_type) (fill : fill_rule) (s1 : clipper T).
    Hypothesis HP : process_intersect en (w_op s0 op fill) = Ok s1.
    Hypothesis HE : edges s1 = [].
    Hypothesis HQ : scans s1 = [].
    Hypothesis HV : vs_valid (verts s1).
    Hypothesis HL : all_valleys s1.
    Lemma visits_sound y ys s : visits en n s0 op fill (y :: ys) s -> sound (verts s1) y s /\ nvalid y.
    Proof.
      intros H. pose proof (visits_list _ _ _ _ _ _ _ H) as L. destruct (visits_climb _ _ _ _ _ _ _ _ HP HE HQ HV HL H) as (y' & r & E & G & Q & _ & F).
      injection E as <- <-. split; [split; auto|]. apply Forall_cons_iff in F as [F _]. eapply height_valid; eauto.
    Qed.
    Lemma sweep_stuck fuel : forall y ys s, visits en n s0 op fill (y :: ys) s -> sweep n fuel s y = NoFuel ->
      stuck en n s0 op fill \/ exists zs s', visits en n s0 op fill zs s' /\ length zs = fuel + length (y :: ys).
    Proof.
      induction fuel as [|fuel IH]; intros y ys s H F; [right; exists (y :: ys), s; auto|].
      destruct (visits_sound _ _ _ H) as [S Vy]. cbn [sweep] in F. out F.
      { left. exists y, ys, s. split; auto. left. eapply scan_at_stuck; eauto. }
      destruct S as (G & Q & L). destruct (scan_at_climbs _ _ _ _ _ HV Vy G Q E) as [G1 Q1]. pose proof (scan_at_list _ _ _ _ L E) as L1.
      destruct (pop_scanline x y) as [[y'|] s2] eqn:P; [|discriminate].
      destruct (pop_climbs _ _ _ _ _ HV G1 Q1 Vy P) as (G2 & Q2 & _ & Hh). pose proof (pop_scanline_list _ _ _ _ L1 P) as L2.
      out F.
      { left. exists y, ys, s. split; auto. right.
        destruct (beam_stuck (verts s1) n s2 y' HV (height_valid _ _ HV Hh)) as (s3 & B1 & B2); auto; [split; auto|].
        exists x, y', s2, s3. auto. }
      destruct (IH y' (y :: ys) x0) as [K|(zs & s' & K1 & K2)]; auto; [econstructor; eauto|]. right. exists zs, s'. split; auto. rewrite K2. simpl. lia.
    Qed.
    Lemma process_stuck : length (verts s1) <= n -> process en n s0 op fill = NoFuel -> stuck en n s0 op fill.
    Proof.
      intros Ln H. unfold process in H. rewrite HP in H. cbn [bind] in H. out H; [exfalso; eapply reset_fuel; eauto|].
      destruct (pop_scanline x (n_neg n_huge)) as [[y|] s3] eqn:P; [|discriminate]. out H; [|discriminate].
      destruct (sweep_stuck n y [] s3) as [K|(zs & s' & K1 & K2)]; auto; [econstructor; eauto|]. exfalso.
      destruct (scanlines_lemma en n s0 op fill s1 zs s' HP HE HQ) as (_ & _ & K3); auto; [apply Forall_forall; exact HV|]. cbn [length] in K2. lia.
    Qed.
  End Run.
End Fuel.
