(** Proofs about struct path. *)
From Coq Require Import ZArith Bool List Lia.
From Verif Require Import Outcome Num Rmath Path PathSpec.
Import ListNotations.

Section Proofs.
  Context {T : Type} {N : Num T}.

  (** The events of a path and whether its data sufficed. *)
  Fixpoint decode (types : list Z) (data : list T) (last cur : vec2 T)
    : list (event T) * bool :=
    match types with
    | [] => ([], true)
    | e :: types =>
      if Z.eqb e ty_moveto then
        match data with
        | x :: y :: data =>
          let (l, b) := decode types data (V2 x y) (V2 x y) in (EMove last (V2 x y) :: l, b)
        | _ => ([], false)
        end
      else if Z.eqb e ty_lineto then
        match data with
        | x :: y :: data =>
          let (l, b) := decode types data (V2 x y) (V2 x y) in (ELine last (V2 x y) :: l, b)
        | _ => ([], false)
        end
      else if Z.eqb e ty_arcto then decode types data cur cur
      else if Z.eqb e ty_cubicto then
        match data with
        | a :: b :: c :: d :: x :: y :: data =>
          let (l, ok) := decode types data (V2 x y) (V2 x y) in
          (ECubic last (V2 a b) (V2 c d) (V2 x y) :: l, ok)
        | _ => ([], false)
        end
      else decode types data cur cur
    end.

  Lemma rd_skip (d : list T) i j : rd d (i + j) = rd (skipn i d) j.
  Proof.
    unfold rd. f_equal.
    revert d; induction i; intros d; simpl; auto.
    destruct d; simpl; auto. destruct j; auto.
  Qed.

  Lemma skipn_add {A} (d : list A) i j : skipn (i + j) d = skipn j (skipn i d).
  Proof.
    revert d; induction i; intros d; simpl; auto.
    destruct d; simpl; auto. destruct j; auto.
  Qed.

  Lemma traverse_decode {S} (fs : funcs T S) types : forall data d i last cur s,
    skipn i data = d ->
    traverse_loop fs data types i last cur s =
    let (l, ok) := decode types d last cur in
    bind (deliver fs l s) (fun s => if ok then Ok s else UB OobRead).
  Proof.
    induction types as [|e types IH]; intros data d i last cur s Hd; [reflexivity|].
    cbn [traverse_loop decode].
    rewrite !rd_skip, !Hd.
    assert (K2 : skipn (i + 2) data = skipn 2 d) by (rewrite skipn_add, Hd; auto).
    assert (K6 : skipn (i + 6) data = skipn 6 d) by (rewrite skipn_add, Hd; auto).
    destruct (Z.eqb e ty_moveto).
    { destruct d as [|x [|y d]]; try reflexivity.
      cbn [rd of_opt nth_error bind skipn] in *.
      specialize (IH data d (i+2) (V2 x y) (V2 x y)).
      destruct (decode types d (V2 x y) (V2 x y)) as [l ok].
      cbn [deliver deliver1]. unfold act_move.
      rewrite bind_assoc.
      destruct (f_move fs) as [f|]; cbn [bind]; [destruct (f last (V2 x y) s); cbn [bind]; auto | auto]. }
    destruct (Z.eqb e ty_lineto).
    { destruct d as [|x [|y d]]; try reflexivity.
      cbn [rd of_opt nth_error bind skipn] in *.
      specialize (IH data d (i+2) (V2 x y) (V2 x y)).
      destruct (decode types d (V2 x y) (V2 x y)) as [l ok].
      cbn [deliver deliver1]. unfold act_line.
      rewrite bind_assoc.
      destruct (f_line fs) as [f|]; cbn [bind]; [destruct (f last (V2 x y) s); cbn [bind]; auto | auto]. }
    destruct (Z.eqb e ty_arcto); [apply IH; auto|].
    destruct (Z.eqb e ty_cubicto); [|apply IH; auto].
    destruct d as [|a [|b [|c [|g [|x [|y d]]]]]]; try reflexivity.
    cbn [rd of_opt nth_error bind skipn] in *.
    specialize (IH data d (i+6) (V2 x y) (V2 x y)).
    destruct (decode types d (V2 x y) (V2 x y)) as [l ok].
    cbn [deliver deliver1]. unfold act_cubic.
    rewrite bind_assoc.
    destruct (f_cubic fs) as [f|]; cbn [bind];
      [destruct (f last (V2 a b) (V2 c g) (V2 x y) s); cbn [bind]; auto | auto].
  Qed.

  (** Encoding of a list of calls. *)
  Definition call_data (c : pcall T) : list T :=
    match c with
    | PMove q | PLine q => [vx q; vy q]
    | PCubic a b q => [vx a; vy a; vx b; vy b; vx q; vy q]
    end.
  Definition call_type (c : pcall T) : Z :=
    match c with PMove _ => 0 | PLine _ => 1 | PCubic _ _ _ => 3 end.
  Lemma run_calls_layout cs : forall p,
    fold_left do_call cs p =
    Path (p_data p ++ flat_map call_data cs) (p_types p ++ map call_type cs).
  Proof.
    induction cs as [|c cs IH]; intros p; cbn [fold_left flat_map map].
    - rewrite !app_nil_r. destruct p; reflexivity.
    - rewrite IH. destruct c; cbn; rewrite <- !app_assoc; reflexivity.
  Qed.

  Fixpoint events_of (o : vec2 T) (cs : list (pcall T)) : list (event T) :=
    match cs with
    | [] => []
    | PMove q :: cs => EMove o q :: events_of q cs
    | PLine q :: cs => ELine o q :: events_of q cs
    | PCubic a b q :: cs => ECubic o a b q :: events_of q cs
    end.

  Lemma decode_calls cs : forall o rest,
    decode (map call_type cs) (flat_map call_data cs ++ rest) o o = (events_of o cs, true).
  Proof.
    induction cs as [|c cs IH]; intros o rest; [reflexivity|].
    destruct c as [[x y]|[x y]|[a b] [c d] [x y]];
      cbn -[ty_moveto]; cbn; rewrite IH; reflexivity.
  Qed.

  Lemma traverse_run_calls {S} (fs : funcs T S) cs s :
    traverse (run_calls cs) fs s = deliver fs (events_of origin cs) s.
  Proof.
    unfold traverse, run_calls. rewrite run_calls_layout. cbn [path_empty p_data p_types app].
    rewrite (traverse_decode _ _ _ (flat_map call_data cs ++ [])) by (rewrite app_nil_r; reflexivity).
    change (V2 (n_ofZ 0) (n_ofZ 0)) with (@origin T N). rewrite decode_calls.
    destruct (deliver fs (events_of origin cs) s); reflexivity.
  Qed.

  Lemma deliver_recorder (l : list (event T)) : forall s, deliver recorder l s = Ok (s ++ l).
  Proof.
    induction l as [|e l IH]; intros s; cbn [deliver]; [rewrite app_nil_r; auto|].
    destruct e; cbn; rewrite IH, <- app_assoc; reflexivity.
  Qed.

  Lemma events_calls cs : forall o, map ev_call (events_of o cs) = cs.
  Proof. induction cs as [|c cs IH]; intros o; auto. destruct c; cbn; rewrite IH; auto. Qed.

  Lemma events_chained cs : forall o, chained o (events_of o cs).
  Proof. induction cs as [|c cs IH]; intros o; cbn; auto. destruct c; cbn; split; auto. Qed.

  Lemma chained_unique o l : chained o l -> l = events_of o (map ev_call l).
  Proof.
    revert o; induction l as [|e l IH]; intros o H; auto.
    destruct H as [H1 H2]. apply IH in H2. destruct e; cbn in *; subst; f_equal; auto.
  Qed.

  Lemma deliver_app {S} (fs : funcs T S) a b s :
    deliver fs (a ++ b) s = bind (deliver fs a s) (deliver fs b).
  Proof.
    revert s; induction a as [|e a IH]; intros s; [reflexivity|].
    cbn [app deliver]. rewrite bind_assoc. destruct (deliver1 fs e s); cbn; auto.
  Qed.

  Lemma deliver_only {S} (fs : funcs T S) m l c evs : forall s,
    deliver (only m l c fs) evs s = deliver fs (filter (ev_kept m l c) evs) s.
  Proof.
    induction evs as [|e evs IH]; intros s; [reflexivity|].
    cbn [deliver filter].
    destruct e; cbn [ev_kept].
    - destruct m; cbn; [|apply IH].
      destruct (f_move fs) as [f|]; cbn; [destruct (f from to s); cbn; auto|auto].
    - destruct l; cbn; [|apply IH].
      destruct (f_line fs) as [f|]; cbn; [destruct (f from to s); cbn; auto|auto].
    - destruct c; cbn; [|apply IH].
      destruct (f_cubic fs) as [f|]; cbn; [destruct (f from c1 c2 to s); cbn; auto|auto].
  Qed.

  Lemma recorder_total (p : path T) :
    exists (evs : list (event T)) (ok : bool), forall (S : Type) (fs : funcs T S) (s : S),
      traverse p fs s = bind (deliver fs evs s) (fun s => if ok then Ok s else UB OobRead).
  Proof.
    destruct (decode (p_types p) (p_data p) origin origin) as [l ok] eqn:E.
    exists l, ok; intros S fs s. unfold traverse.
    rewrite (traverse_decode _ _ _ (p_data p)); auto. change (V2 (n_ofZ 0) (n_ofZ 0)) with (@origin T N). rewrite E. reflexivity.
  Qed.

  (** C01 *)
  Lemma C01_lemma cs :
    exists evs, traverse (run_calls cs) recorder [] = Ok evs /\ map ev_call evs = cs.
  Proof.
    exists (events_of origin cs). rewrite traverse_run_calls, deliver_recorder.
    split; auto using events_calls.
  Qed.

  Lemma C01_any_callback {S} (fs : funcs T S) cs s :
    exists evs : list (event T), map ev_call evs = cs /\ chained origin evs /\
      traverse (run_calls cs) fs s = deliver fs evs s.
  Proof.
    exists (events_of origin cs). rewrite traverse_run_calls.
    auto using events_calls, events_chained.
  Qed.

  Lemma C01_move_lemma (p : path T) {S} (fs : funcs T S) (s : S) :
    traverse (fst (path_move p)) fs s = traverse p fs s /\
    traverse (snd (path_move p)) fs s = Ok s.
  Proof. destruct p; split; reflexivity. Qed.

  (** C02 *)
  Lemma decode_chained types : forall data o,
    chained o (fst (decode types data o o)).
  Proof.
    induction types as [|e types IH]; intros data o; [exact I|].
    cbn [decode].
    destruct (Z.eqb e ty_moveto).
    { destruct data as [|x [|y d]]; try exact I.
      specialize (IH d (V2 x y)). destruct (decode types d _ _). cbn in *; auto. }
    destruct (Z.eqb e ty_lineto).
    { destruct data as [|x [|y d]]; try exact I.
      specialize (IH d (V2 x y)). destruct (decode types d _ _). cbn in *; auto. }
    destruct (Z.eqb e ty_arcto); [apply IH|].
    destruct (Z.eqb e ty_cubicto); [|apply IH].
    destruct data as [|a [|b [|c [|g [|x [|y d]]]]]]; try exact I.
    specialize (IH d (V2 x y)). destruct (decode types d _ _). cbn in *; auto.
  Qed.

  Lemma C02_chain_lemma (p : path T) evs :
    traverse p recorder [] = Ok evs -> chained origin evs.
  Proof.
    unfold traverse. rewrite (traverse_decode _ _ _ (p_data p)); auto. change (V2 (n_ofZ 0) (n_ofZ 0)) with (@origin T N).
    pose proof (decode_chained (p_types p) (p_data p) origin) as H.
    destruct (decode (p_types p) (p_data p) origin origin) as [l ok].
    rewrite deliver_recorder. cbn in *. destruct ok; intros E; inversion E; subst; auto.
  Qed.

  Lemma C02_null_lemma (p : path T) m l c {S} (fs : funcs T S) s evs :
    traverse p recorder [] = Ok evs ->
    traverse p (only m l c fs) s = deliver fs (filter (ev_kept m l c) evs) s.
  Proof.
    destruct (recorder_total p) as (l' & ok & H). rewrite !H, deliver_recorder. cbn.
    destruct ok; intros E; inversion E; subst.
    rewrite deliver_only. destruct (deliver _ _ _); reflexivity.
  Qed.

  (** C03 *)
  Lemma decode_ok types : forall data last cur,
    snd (decode types data last cur) = true <-> needed types <= length data.
  Proof.
    induction types as [|e types IH]; intros data last cur; [cbn; split; auto; lia|].
    cbn [decode needed fold_right]. fold (needed types).
    unfold ty_moveto, ty_lineto, ty_arcto, ty_cubicto.
    destruct (Z.eqb_spec e 0); [subst|].
    { cbn [elt_size]. destruct data as [|x [|y d]]; try (cbn; split; [discriminate|lia]).
      specialize (IH d (V2 x y) (V2 x y)).
      destruct (decode types d (V2 x y) (V2 x y)). cbn in *. rewrite IH; lia. }
    destruct (Z.eqb_spec e 1); [subst|].
    { cbn [elt_size]. destruct data as [|x [|y d]]; try (cbn; split; [discriminate|lia]).
      specialize (IH d (V2 x y) (V2 x y)).
      destruct (decode types d (V2 x y) (V2 x y)). cbn in *. rewrite IH; lia. }
    destruct (Z.eqb_spec e 2); [subst; cbn [elt_size]; apply IH|].
    destruct (Z.eqb_spec e 3); [subst|].
    { cbn [elt_size].
      destruct data as [|a [|b [|c [|g [|x [|y d]]]]]];
        try (cbn; split; [discriminate|lia]).
      specialize (IH d (V2 x y) (V2 x y)).
      destruct (decode types d (V2 x y) (V2 x y)). cbn in *. rewrite IH; lia. }
    rewrite IH.
    assert (elt_size e = 0) as ->; [|reflexivity].
    unfold elt_size. destruct e as [|[[?|?|]|[?|?|]|]|]; try reflexivity; try lia.
  Qed.

  Lemma C03_lemma (p : path T) :
    (exists evs, traverse p recorder [] = Ok evs) <->
    needed (p_types p) <= length (p_data p).
  Proof.
    unfold traverse. rewrite (traverse_decode _ _ _ (p_data p)); auto. change (V2 (n_ofZ 0) (n_ofZ 0)) with (@origin T N).
    pose proof (decode_ok (p_types p) (p_data p) origin origin) as H.
    destruct (decode (p_types p) (p_data p) origin origin) as [l ok].
    rewrite deliver_recorder. cbn in *. rewrite <- H. split.
    - intros [? E]. destruct ok; auto; discriminate.
    - intros ->; eauto.
  Qed.

  Lemma C03_api_lemma cs {S} (fs : funcs T S) s w :
    traverse (run_calls cs) fs s = UB w ->
    exists e s', In (ev_call e) cs /\ deliver1 fs e s' = UB w.
  Proof.
    rewrite traverse_run_calls.
    assert (G : forall l s, deliver fs l s = UB w ->
              exists e s', In e l /\ deliver1 fs e s' = UB w).
    { induction l as [|e l IH]; intros s0 H; [discriminate|]. cbn in H.
      destruct (deliver1 fs e s0) eqn:E; cbn in H; try discriminate.
      - apply IH in H as (e' & s' & H1 & H2). exists e', s'; cbn; auto.
      - inversion H; subst. exists e, s0; cbn; auto. }
    intros H; apply G in H as (e & s' & H1 & H2).
    exists e, s'; split; auto.
    rewrite <- (events_calls cs origin). apply in_map; auto.
  Qed.
End Proofs.
