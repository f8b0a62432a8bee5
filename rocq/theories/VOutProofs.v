(** Proofs about the output stream and clip_type::none. *)
From Coq Require Import ZArith Bool List Lia.
From Verif Require Import Outcome Num Rmath Segment Path PathSpec ScanLine VState VPath VBreak VAel VOut VMain
  VLemmas VFrame ClipSpec.
Import ListNotations.
Local Open Scope out.

Section Out.
  Context {T : Type} {N : Num T}.
  Implicit Types s : clipper T.

  Lemma write_path_connected (l : list (seg T)) : forall p cs q, write_path p l = (cs, q) ->
    connected p cs /\ length cs = length l /\
    forall r, connected q r -> connected p (cs ++ r).
  Proof.
    induction l; intros p cs q H; simpl in H.
    - injection H; intros; subst. simpl. auto.
    - destruct (write_path (seg_target a) l) as [cs' q'] eqn:E.
      injection H; intros; subst. apply IHl in E as (A & B & C).
      destruct a; simpl in *; repeat split; auto.
  Qed.

  Lemma write_poly_contour o : write_poly o = [] \/ contour (write_poly (T := T) o).
  Proof.
    unfold write_poly. destruct (o_complete o); auto.
    assert (A : forall up down, up <> [] \/ down <> [] ->
      contour (let '(c1, p) := write_path (o_origin o) up in
               let '(c2, _) := write_path p (rev down) in
               MoveTo (V2 (n_ofZ 0) (n_ofZ 0)) (o_origin o) :: c1 ++ c2)).
    { intros up down Hne.
      destruct (write_path (o_origin o) up) as [c1 p] eqn:E1.
      destruct (write_path p (rev down)) as [c2 q] eqn:E2.
      apply write_path_connected in E1 as (A1 & L1 & C1). apply write_path_connected in E2 as (A2 & L2 & C2).
      simpl. split; auto. intros H. apply app_eq_nil in H as [-> ->]. simpl in *. rewrite rev_length in L2.
      destruct up, down; simpl in *; try lia. destruct Hne; congruence. }
    destruct (o_up o) eqn:U, (o_down o) eqn:D; auto; right;
      rewrite <- ?U, <- ?D; apply A; rewrite ?U, ?D; auto; try (left; congruence); right; congruence.
  Qed.

  Lemma build_output_contours s : exists cs, contours (build_output s) cs.
  Proof.
    unfold build_output. induction (polys s) as [|o l IH]; simpl.
    - exists []. split; simpl; auto.
    - destruct IH as (cs & A & B). destruct (write_poly_contour o) as [E|E].
      + exists cs. rewrite E. split; auto.
      + exists (write_poly o :: cs). split; auto. simpl. congruence.
  Qed.

  Lemma process_contours en fuel s op fill s' l :
    process en fuel s op fill = Ok (s', l) -> exists cs, contours l cs.
  Proof.
    unfold process. intros H. binv H. binv H. destruct (pop_scanline x0 (n_neg n_huge)) as [[y|] s1].
    - binvs. apply build_output_contours.
    - binvs. exists []. split; simpl; auto.
  Qed.

  (** The writing callbacks *)
  Lemma write_calls_app (l1 : list (call (T := T))) : forall out l2,
    write_calls (T := T) out (l1 ++ l2) = (do o <- write_calls out l1 ;; write_calls o l2).
  Proof.
    induction l1; intros; simpl; auto. rewrite bind_assoc.
    destruct (write_call out a); simpl; auto.
  Qed.
  Lemma write_calls_drawn (l : list (call (T := T))) : forall out p q, connected q l ->
    write_calls (T := T) (out ++ [p]) l = Ok (out ++ [fold_left do_call (map as_pcall l) p]).
  Proof.
    induction l; intros out p q H; simpl; auto.
    destruct H as (_ & M & H). destruct a; try discriminate; simpl; rewrite rev_app_distr; simpl;
      rewrite rev_involutive; eapply IHl; eauto.
  Qed.
  Lemma write_calls_contour (c : list (call (T := T))) out : contour c ->
    write_calls (T := T) out c = Ok (out ++ [as_path c]).
  Proof.
    destruct c as [|[a p|a p|a c1 c2 p] r]; simpl; try tauto. intros [_ H].
    rewrite (write_calls_drawn _ _ _ _ H). reflexivity.
  Qed.
  Lemma write_calls_contours (cs : list (list (call (T := T)))) : forall out, Forall contour cs ->
    write_calls (T := T) out (concat cs) = Ok (out ++ map as_path cs).
  Proof.
    induction cs; intros out H; simpl.
    - now rewrite app_nil_r.
    - inversion H; subst. rewrite write_calls_app, write_calls_contour; auto. simpl.
      rewrite IHcs; auto. now rewrite <- app_assoc.
  Qed.

  Lemma C33_lemma en fuel s op fill out :
    match process en fuel s op fill with
    | Ok (s', l) => exists cs, contours l cs /\
        process_paths en fuel s op fill out = Ok (s', out ++ map as_path cs)
    | UB w => process_paths en fuel s op fill out = UB w
    | NoFuel => process_paths en fuel s op fill out = NoFuel
    | Throw => process_paths en fuel s op fill out = Throw
    end.
  Proof.
    unfold process_paths. destruct (process en fuel s op fill) as [[s' l]| | |] eqn:E; simpl; auto.
    destruct (process_contours _ _ _ _ _ _ _ E) as (cs & C & F). exists cs. split; [split; auto|].
    rewrite C, write_calls_contours; auto.
  Qed.

  (** *** clip_type::none *)
  Definition quiet s := polys s = [] /\ obl s = None.

  Lemma set_segment_quiet s p m g s' : set_segment s p m g = Ok s' ->
    polys s' = polys s /\ obl s' = obl s /\ cop s' = cop s.
  Proof. unfold set_segment. intros H. dmatch; auto. Qed.
  Lemma add_local_min_quiet s v p s' : add_local_min s v p = Ok s' -> polys s' = polys s /\ obl s' = obl s.
  Proof. unfold add_local_min. intros H. dmatch; auto. Qed.
  Lemma mark_extrema_quiet fuel : forall s pt f p c g s' r, mark_extrema fuel s pt f p c g = Ok (s', r) ->
    polys s' = polys s /\ obl s' = obl s.
  Proof.
    induction fuel; intros s pt f p c g s' r H; simpl in H.
    - destruct (Nat.eqb c f); binvs; auto; discriminate.
    - destruct (Nat.eqb c f); binvs; auto. apply IHfuel in H as [A B]. rewrite A, B. clear A B.
      destruct (_ && _).
      + binvs. use add_local_min_quiet. auto.
      + destruct (_ && _); binvs; mods; auto.
  Qed.
  Lemma insert_vertex_list_quiet s f e pt s' : insert_vertex_list s f e pt = Ok s' ->
    polys s' = polys s /\ obl s' = obl s.
  Proof.
    unfold insert_vertex_list. intros H. destruct f, e; binvs; auto.
    destruct (v_next x) eqn:Nx; binvs; auto. destruct (Nat.eqb n1 n); binvs; auto.
    assert (A : polys x1 = polys s /\ obl x1 = obl s).
    { destruct (vneqb _ _); binvs; use set_segment_quiet; auto. }
    destruct (Nat.eqb x3 n); binvs; auto. destruct x4; binvs; auto.
    use mark_extrema_quiet.
    assert (B : polys x4 = polys c /\ obl x4 = obl c).
    { destruct (Bool.eqb _ _); binvs; auto. destruct b; mods; auto. eapply add_local_min_quiet; eauto. }
    cbn. intuition congruence.
  Qed.

  Lemma append_seg_quiet r g r' : append_seg (T := T) r g = Ok r' ->
    polys (rd_clip r') = polys (rd_clip r) /\ obl (rd_clip r') = obl (rd_clip r).
  Proof. unfold append_seg. intros H. simpl in H. binvs. use set_segment_quiet. auto. Qed.
  Lemma read_moveto_quiet a b r r' : read_moveto (T := T) a b r = Ok r' ->
    polys (rd_clip r') = polys (rd_clip r) /\ obl (rd_clip r') = obl (rd_clip r).
  Proof.
    unfold read_moveto. intros H. binv H. simpl in H. binvs. mods. cbn.
    destruct (rd_first r); binvs; auto. use insert_vertex_list_quiet. auto.
  Qed.
  Lemma read_lineto_quiet a b r r' : read_lineto (T := T) a b r = Ok r' ->
    polys (rd_clip r') = polys (rd_clip r) /\ obl (rd_clip r') = obl (rd_clip r).
  Proof. unfold read_lineto. intros H. destruct (vneqb a b); binvs; auto. now apply append_seg_quiet in H. Qed.
  Lemma read_cubicto_quiet a b c d r r' : read_cubicto (T := T) a b c d r = Ok r' ->
    polys (rd_clip r') = polys (rd_clip r) /\ obl (rd_clip r') = obl (rd_clip r).
  Proof.
    unfold read_cubicto. intros H. destruct (_ && _ && _); [now apply read_lineto_quiet in H|].
    destruct (bsplit_many _ _) as [|z0 [|z1 [|z2 [|z3 zs]]]]; binvs; repeat use append_seg_quiet;
      intuition congruence.
  Qed.

  (** Whatever the callbacks preserve, traverse preserves. *)
  Lemma traverse_loop_inv {S} (P : S -> Prop) (m l : vec2 T -> vec2 T -> S -> outcome S) c data :
    (forall a b u u', m a b u = Ok u' -> P u -> P u') ->
    (forall a b u u', l a b u = Ok u' -> P u -> P u') ->
    (forall a b d e u u', c a b d e u = Ok u' -> P u -> P u') ->
    forall types i lp cp u u',
    traverse_loop (Funcs (Some m) (Some l) (Some c)) data types i lp cp u = Ok u' -> P u -> P u'.
  Proof.
    intros Hm Hl Hc types. induction types as [|e types IH]; intros i lp cp u u' H HP; simpl in H.
    - binvs; auto.
    - destruct (Z.eqb e ty_moveto); [binvs; eapply IH; eauto|].
      destruct (Z.eqb e ty_lineto); [binvs; eapply IH; eauto|].
      destruct (Z.eqb e ty_arcto); [eapply IH; eauto|].
      destruct (Z.eqb e ty_cubicto); [binvs; eapply IH; eauto|eapply IH; eauto].
  Qed.

  Lemma add_one_path_quiet s p pt s' : add_one_path s p pt = Ok s' -> quiet s -> quiet s'.
  Proof.
    unfold add_one_path, traverse. intros H HQ. binvs.
    apply (traverse_loop_inv (fun r => quiet (rd_clip r))) in E; auto.
    - apply insert_vertex_list_quiet in H as [A B]. unfold quiet in *. rewrite A, B. auto.
    - intros a b r r' H1 [A B]. apply read_moveto_quiet in H1 as [C D]. unfold quiet. rewrite C, D; auto.
    - intros a b r r' H1 [A B]. apply read_lineto_quiet in H1 as [C D]. unfold quiet. rewrite C, D; auto.
    - intros a b c d r r' H1 [A B]. apply read_cubicto_quiet in H1 as [C D]. unfold quiet. rewrite C, D; auto.
  Qed.
  Lemma add_paths_quiet ps pt : forall s s', add_paths s ps pt = Ok s' -> quiet s -> quiet s'.
  Proof.
    induction ps; intros s s' H HQ; simpl in H; binvs; auto.
    eapply IHps; eauto. destruct (Nat.ltb _ _); binvs; auto. eapply add_one_path_quiet; eauto.
  Qed.
  Lemma loaded_quiet s : loaded s -> quiet s.
  Proof. induction 1; [split; auto|]. eapply add_paths_quiet; eauto. Qed.

  Lemma chain_quiet gs : forall s c s' n, chain s c gs = Ok (s', n) -> polys s' = polys s /\ obl s' = obl s /\ cop s' = cop s.
  Proof.
    induction gs; intros s c s' n H; simpl in H; binvs; auto.
    apply IHgs in H as (A & B & C). use set_segment_quiet. cbn in *. intuition congruence.
  Qed.
  Lemma relink_quiet s st gs l s' : relink s st gs l = Ok s' -> polys s' = polys s /\ obl s' = obl s /\ cop s' = cop s.
  Proof.
    unfold relink. intros H. binvs. mods. use chain_quiet. use set_segment_quiet. cbn. intuition congruence.
  Qed.
  Lemma break_vertex_quiet s st bs s' : break_vertex s st bs = Ok s' -> polys s' = polys s /\ obl s' = obl s /\ cop s' = cop s.
  Proof.
    unfold break_vertex. intros H. binvs. destruct x0; binvs; auto; now apply relink_quiet in H.
  Qed.
  Lemma break_all_quiet fuel : forall s l s', break_all fuel s l = Ok s' -> polys s' = polys s /\ obl s' = obl s /\ cop s' = cop s.
  Proof.
    induction fuel; intros s l s' H; simpl in H; (destruct l; [binvs; auto|]); [discriminate|].
    destruct (take_run (br_vert b) (b :: l)) as [r1 r2].
    binvs. use break_vertex_quiet. apply IHfuel in H. intuition congruence.
  Qed.
  Lemma process_intersect_quiet en s s' : process_intersect en s = Ok s' -> polys s' = polys s /\ obl s' = obl s /\ cop s' = cop s.
  Proof. unfold process_intersect. intros H. binvs. now apply break_all_quiet in H. Qed.
  Lemma push_minima_quiet l : forall s s', push_minima s l = Ok s' -> polys s' = polys s /\ obl s' = obl s /\ cop s' = cop s.
  Proof. induction l; intros s s' H; simpl in H; binvs; auto. apply IHl in H. auto. Qed.

  Lemma collect_none fuel : forall s c acc r, cop s = op_none -> collect fuel s c acc = Ok r -> r = acc.
  Proof.
    induction fuel; intros s c acc r Hop H; simpl in H; (destruct c; [|binvs; auto]); [discriminate|].
    binvs. unfold is_contributing in E0. binvs. unfold contributing in E1. rewrite Hop, andb_false_r in E1.
    binvs. eauto.
  Qed.
  Lemma update_none n s y s' : cop s = op_none -> quiet s -> update_output_bound n s y = Ok s' -> quiet s'.
  Proof.
    unfold update_output_bound, quiet. intros Hop [Hp Ho] H. destruct (changes s); binvs; auto.
    apply collect_none in E; auto. subst x. simpl in *. binvs. simpl in *. rewrite Ho in E2.
    destruct n; simpl in E2; binvs; simpl in *; binvs; auto.
  Qed.
  Lemma extend_bound_quiet s i s' : extend_bound s i = Ok s' -> quiet s -> quiet s'.
  Proof.
    intros H [A B]. apply extend_bound_frame in H as (? & ? & ? & ? & ? & L). split; [|congruence].
    rewrite A in L. destruct (polys s'); auto; discriminate.
  Qed.
  Lemma sweep_none n fuel : forall s y s', cop s = op_none -> quiet s -> sweep n fuel s y = Ok s' -> quiet s'.
  Proof.
    assert (Z0 : forall s s' : clipper T, length (polys s') = length (polys s) -> polys s = [] -> polys s' = []).
    { intros s s' L E. rewrite E in L. destruct (polys s'); auto; discriminate. }
    assert (SC : forall s y s', cop s = op_none -> quiet s -> scan_at n s y = Ok s' -> quiet s' /\ cop s' = op_none).
    { intros s y s' Hop HQ H. pose proof (scan_at_frame _ _ _ _ H) as F. unfold scan_at in H. binvs.
      apply insert_local_minima_frame in E as (F1 & F2). apply recalc_windcnt_frame in E0 as (G1 & G2 & G3 & G4 & G5 & G6).
      split; [|unfold fin in F; cbn in F; congruence].
      apply update_none in H; auto.
      - unfold fin in *; cbn in *; congruence.
      - unfold quiet, fout in *. destruct HQ. cbn in *. split; congruence. }
    induction fuel; intros s y s' Hop HQ H; simpl in H; [discriminate|].
    apply bind_ok in H as (x & E & H). apply SC in E as [Q1 O1]; auto.
    destruct (pop_scanline x y) as [[y'|] s1] eqn:P; apply pop_scanline_frame in P as (P1 & P2 & P3 & P4 & P5 & P6).
    - binvs. pose proof (beam_frame _ _ _ _ E) as [F _]. unfold beam in E. binvs.
      apply do_top_frame in E0 as (? & ? & ? & ?).
      assert (Q2 : polys x1 = []). { eapply Z0; eauto. destruct Q1. unfold fout in P2. cbn in *. congruence. }
      assert (Q3 : obl x1 = None). { destruct Q1. unfold fout in P2. cbn in *. congruence. }
      unfold close_output in E1. rewrite Q3 in E1. binvs.
      apply resort_ael_frame in E as (? & ? & ? & ? & ?).
      eapply IHfuel; [| |exact H].
      + unfold fin in *; cbn in *; congruence.
      + split; congruence.
    - binvs. unfold quiet, fout in *. destruct Q1. cbn in *. split; congruence.
  Qed.

  Lemma C30_lemma en fuel s fill s' l :
    loaded s -> process en fuel s op_none fill = Ok (s', l) -> l = [].
  Proof.
    intros HL H. apply loaded_quiet in HL as [Hp Ho]. unfold process in H. binv H. binv H.
    pose proof (process_intersect_quiet _ _ _ E) as (A & B & C). cbn in A, B, C.
    assert (Q : quiet x0 /\ cop x0 = op_none).
    { unfold reset in E0. binvs. apply push_minima_quiet in E1 as (F & G & I). cbn in *. repeat split; cbn; congruence. }
    destruct Q as [[Q1 Q2] Q3].
    destruct (pop_scanline x0 (n_neg n_huge)) as [[y|] s1] eqn:P; [|now binvs].
    apply pop_scanline_frame in P as (P1 & P2 & P3 & P4 & P5 & P6).
    binvs. apply sweep_none in E1 as [K _].
    - unfold build_output. now rewrite K.
    - unfold fin in P1. cbn in *. congruence.
    - unfold fout in P2. cbn in *. split; congruence.
  Qed.
End Out.
