(** The marks are the extrema. *)
From Coq Require Import ZArith Bool List Lia.
From Verif Require Import Outcome Num Order Rmath Segment Path PathSpec VState VPath VLemmas AelSpec VAelRun RingSpec MarkProofs VRing VBuild.
Import ListNotations.

Section Ordered.
  Context {T : Type} {N : Num T} {O : OrdNum T}.
  Variable Y : nat -> T.
  Notation ok l := (forall i, In i l -> nvalid (Y i)).
  Notation cmpk k x c := ((if k then n_ltb (Y x) (Y c) else n_ltb (Y c) (Y x)) = true).

  Lemma neq_refl a : nvalid a -> n_eqb a a = true.
  Proof. intros A. rewrite neq_le by auto. rewrite nle_refl by auto. reflexivity. Qed.
  Lemma arrives_prefix k x q : forall p, forallb (fun i => n_eqb (Y i) (Y x)) p = false -> arrives Y k x (p ++ q) -> arrives Y k x p.
  Proof.
    induction p as [|w p IH]; intros F (e & y & t & E & Fe & L); [discriminate|].
    destruct e as [|z e]; simpl in E; injection E as E1 E2; subst.
    - exists [], y, p. auto.
    - inversion Fe as [|? ? Z Fe']; subst. simpl in F. rewrite Z in F. simpl in F.
      destruct IH as (e' & y' & t' & -> & F' & L'); auto; [exists e, y, t; auto|].
      exists (z :: e'), y', t'. simpl. auto.
  Qed.
  Lemma arrives_cut k x p q : nvalid (Y x) -> ok p -> (forall i, In i q -> i = x \/ In i p) ->
    arrives Y k x (p ++ q) -> arrives Y k x p.
  Proof.
    intros V P Q A. destruct (forallb (fun i => n_eqb (Y i) (Y x)) p) eqn:F; [|now apply (arrives_prefix k x q)].
    apply (arrives_less Y k x p q); auto.
    - apply Forall_forall. intros i Hi. destruct (Q i Hi) as [->|Hp]; [now apply neq_refl|]. rewrite forallb_forall in F. auto.
    - intros i Hi. destruct (Q i Hi) as [->|Hp]; auto.
  Qed.
  Lemma marks_spec cs : forall g v pre m d, arrives Y g v pre -> ok (v :: cs) -> ok pre -> marks Y g v cs = (m, d) ->
    (forall x k, In (x, k) m <-> exists a c b, v :: cs = a ++ x :: c :: b /\ cmpk k x c /\ arrives Y k x (rev a ++ pre)) /\
    exists pre', rev (v :: cs) ++ pre = last cs v :: pre' /\ arrives Y d (last cs v) pre'.
  Proof.
    induction cs as [|c cs IH]; intros g v pre m d A V P M.
    - injection M as <- <-. split; [|exists pre; auto]. intros x k. split; [contradiction|].
      intros (a & c & b & E & _). destruct a as [|? [|? ?]]; discriminate.
    - assert (Vv : nvalid (Y v)) by (apply V; now left). assert (Vc : nvalid (Y c)) by (apply V; right; now left).
      pose proof (arrives_step Y g v c pre Vv Vc P A) as A'.
      set (g' := if n_ltb (Y v) (Y c) && g then false else if n_ltb (Y c) (Y v) && negb g then true else g) in *.
      set (x0 := if n_ltb (Y v) (Y c) && g then [(v, true)] else if n_ltb (Y c) (Y v) && negb g then [(v, false)] else []).
      assert (exists m', marks Y g' c cs = (m', d) /\ m = x0 ++ m') as (m' & M' & Em).
      { cbn [marks] in M. unfold g', x0. destruct (n_ltb (Y v) (Y c) && g).
        - destruct (marks Y false c cs) as [m' d']. injection M as <- <-. eauto.
        - destruct (n_ltb (Y c) (Y v) && negb g); [|eauto]. destruct (marks Y true c cs) as [m' d']. injection M as <- <-. eauto. }
      destruct (IH g' c (v :: pre) m' d A') as [IH1 (pre' & IH2 & IH3)]; auto.
      { intros i Hi. apply V. now right. } { intros i [<-|Hi]; auto. }
      rewrite last_cons. split.
      2: { exists pre'. split; auto. cbn [rev] in *. rewrite <- !app_assoc in *. exact IH2. }
      assert (X0 : forall x k, In (x, k) x0 <-> x = v /\ k = g /\ cmpk k v c).
      { intros x k. unfold x0. destruct g.
        - rewrite andb_true_r, andb_false_r. destruct (n_ltb (Y v) (Y c)) eqn:L; simpl.
          + split; [intros [E|[]]; injection E as <- <-; auto|intros (-> & -> & _); auto].
          + split; [contradiction|]. intros (-> & -> & K). congruence.
        - rewrite andb_true_r, andb_false_r. destruct (n_ltb (Y c) (Y v)) eqn:L; simpl.
          + split; [intros [E|[]]; injection E as <- <-; auto|intros (-> & -> & _); auto].
          + split; [contradiction|]. intros (-> & -> & K). congruence. }
      intros x k. rewrite Em, in_app_iff, X0, IH1. split.
      + intros [(-> & -> & K)|(a & c0 & b & E & K & A0)].
        * exists [], c, cs. auto.
        * exists (v :: a), c0, b. split; [simpl; now rewrite <- E|]. split; auto. cbn [rev]. now rewrite <- app_assoc.
      + intros ([|w a] & c0 & b & E & K & A0); simpl in E; injection E as E1 E2.
        * subst. left. csplit; auto. apply (arrives_fun Y k g x pre); auto.
        * subst w. right. exists a, c0, b. csplit; auto. cbn [rev] in A0. now rewrite <- app_assoc in A0.
  Qed.
  Lemma back_arrives ps : forall e d, ok (e :: ps) -> back Y e ps = Some d -> arrives Y d e ps.
  Proof.
    induction ps as [|p ps IH]; intros e d V B; [discriminate|]. cbn [back] in B.
    assert (Ve : nvalid (Y e)) by (apply V; now left). assert (Vp : nvalid (Y p)) by (apply V; right; now left).
    destruct (n_eqb (Y e) (Y p)) eqn:E.
    - apply IH in B; [|intros i Hi; apply V; now right]. destruct B as (l & q & t & -> & F & L).
      assert (Vq : nvalid (Y q)) by (apply V; right; right; apply in_or_app; right; now left).
      exists (p :: l), q, t. split; auto. assert (E' : n_eqb (Y p) (Y e) = true) by now rewrite neq_sym.
      split.
      + constructor; auto. rewrite Forall_forall in *. intros i Hi.
        assert (nvalid (Y i)) by (apply V; right; right; apply in_or_app; now left).
        eapply neq_trans; [..|exact E']; auto.
      + destruct d; [eapply neq_lt_trans; [..|exact L]|eapply nlt_eq_trans; [..|exact L|]]; eauto.
    - injection B as <-. exists [], p, ps. split; auto. split; auto.
      destruct (n_ltb (Y e) (Y p)) eqn:L; auto. destruct (cmp (Y e) (Y p) Ve Vp) as [K|[K|K]]; congruence.
  Qed.
  (** The code's rule for the last vertex is one more step of the pass. *)
  Lemma extremes_pass f r m : r <> [] -> ok (f :: r) -> extremes Y f r m ->
    exists d0, arrives Y d0 f (rev r) /\ marks Y d0 f (r ++ [f]) = (m, d0).
  Proof.
    intros NE V (d0 & m0 & d & B & M & ->).
    assert (Vf : nvalid (Y f)) by (apply V; now left).
    assert (A : arrives Y d0 f (rev r)).
    { apply (arrives_cut d0 f (rev r) [f]); auto.
      - intros i Hi. apply V. right. now apply in_rev.
      - intros i [->|[]]. auto.
      - apply back_arrives; auto. intros i [<-|Hi]; auto. apply in_app_or in Hi as [Hi|[<-|[]]]; auto. apply V. right. now apply in_rev. }
    exists d0. split; auto.
    assert (Pr : ok (rev r)) by (intros i Hi; apply V; right; now apply in_rev).
    destruct (marks_spec r d0 f (rev r) m0 d A V Pr M) as [_ (pre' & E & A1)].
    rewrite marks_app, M. set (z := last r f) in *.
    assert (Vz : nvalid (Y z)) by (apply V; apply last_in).
    assert (Pp : ok pre').
    { intros i Hi. assert (K : In i (rev (f :: r) ++ rev r)) by (rewrite E; now right).
      apply in_app_or in K as [K|K]; [|auto]. apply V. now apply in_rev. }
    pose proof (arrives_step Y d z f pre' Vz Vf Pp A1) as A2. rewrite <- E in A2.
    set (g' := if n_ltb (Y z) (Y f) && d then false else if n_ltb (Y f) (Y z) && negb d then true else d) in *.
    assert (Eg : g' = d0).
    { apply (arrives_fun Y g' d0 f (rev (f :: r) ++ rev r)); auto.
      - rewrite E. intros i [<-|Hi]; auto.
      - cbn [rev]. rewrite <- !app_assoc. now apply arrives_more. }
    cbn [marks]. unfold g' in Eg. destruct (n_ltb (Y z) (Y f) && d) eqn:K1.
    - apply andb_prop in K1 as [_ ->]. subst d0. reflexivity.
    - destruct (n_ltb (Y f) (Y z) && negb d) eqn:K2.
      + apply andb_prop in K2 as [_ K2]. destruct d; [discriminate|]. subst d0. reflexivity.
      + subst d0. rewrite eqb_reflx. reflexivity.
  Qed.
  Lemma app_cons_cases {A} (a : list A) x c b l y : l ++ [y] = a ++ x :: c :: b ->
    (b = [] /\ c = y /\ l = a ++ [x]) \/ exists b0, b = b0 ++ [y] /\ l = a ++ x :: c :: b0.
  Proof.
    intros E. destruct (list_eq_nil b) as [->|NE].
    - left. replace (a ++ [x; c]) with ((a ++ [x]) ++ [c]) in E by now rewrite <- app_assoc. apply app_inj_tail in E as [-> ->]. auto.
    - right. destruct (exists_last NE) as (b0 & y' & ->). exists b0.
      replace (a ++ x :: c :: b0 ++ [y']) with ((a ++ x :: c :: b0) ++ [y']) in E by (rewrite <- app_assoc; reflexivity).
      apply app_inj_tail in E as [-> ->]. auto.
  Qed.
  Lemma pass_extreme f r m d0 : r <> [] -> ok (f :: r) -> arrives Y d0 f (rev r) -> marks Y d0 f (r ++ [f]) = (m, d0) ->
    forall x k, In (x, k) m <-> exists n q, turned (f :: r) x (n :: q) /\ cmpk k x n /\ arrives Y k x (rev (n :: q)).
  Proof.
    intros NE V A M x k.
    assert (Pr : ok (rev r)) by (intros i Hi; apply V; right; now apply in_rev).
    destruct (marks_spec (r ++ [f]) d0 f (rev r) m d0 A) as [H _]; auto.
    { intros i [<-|Hi]; [apply V; now left|]. apply in_app_or in Hi as [Hi|[<-|[]]]; apply V; [now right|now left]. }
    rewrite H. clear H. 
    (* the vertices before [x] on the way round *)
    assert (K : forall a b, f :: r = a ++ x :: b -> (arrives Y k x (rev a ++ rev r) <-> arrives Y k x (rev (b ++ a)))).
    { intros a b E. rewrite rev_app_distr. destruct a as [|f' a]; simpl in E; injection E as <- E.
      - subst b. reflexivity.
      - rewrite E, rev_app_distr. cbn [rev]. rewrite <- !app_assoc. split; intros H.
        + apply (arrives_cut k x _ (x :: rev a)).
          * apply V. right. rewrite E. apply in_or_app. right. now left.
          * intros i Hi. apply V. rewrite E. rewrite !in_app_iff, <- !in_rev in Hi. simpl in *. rewrite in_app_iff. simpl. tauto.
          * intros i [<-|Hi]; auto. right. apply in_or_app. now left.
          * rewrite <- !app_assoc in *. simpl app in *. exact H.
        + replace (rev a ++ [f] ++ rev b ++ [x] ++ rev a) with ((rev a ++ [f] ++ rev b) ++ x :: rev a) by (rewrite <- !app_assoc; reflexivity).
          now apply arrives_more. }
    split.
    - intros (a & c & b & E & C & A1). change (f :: r ++ [f]) with ((f :: r) ++ [f]) in E.
      apply app_cons_cases in E as [(-> & -> & E)|(b0 & -> & E)].
      + destruct a as [|f' a]; [simpl in E; injection E as -> E; congruence|].
        pose proof E as E'. simpl in E'. injection E' as <- E'. exists f, a. split; [|split; auto].
        * exists (f :: a), []. auto.
        * apply (K (f :: a) []) in A1; auto.
      + exists c, (b0 ++ a). split; [|split; auto].
        * exists a, (c :: b0). auto.
        * apply (K a (c :: b0)) in A1; auto.
    - intros (n & q & (a & b & E & Q) & C & A1). rewrite Q in A1. apply (K a b E) in A1.
      destruct b as [|n' b]; simpl in Q.
      + subst a. simpl in E. injection E as -> E. exists (n :: q), n, []. csplit; auto. simpl. rewrite E, <- app_assoc. reflexivity.
      + injection Q as <- Q. exists a, n, (b ++ [f]). csplit; auto.
        change (f :: r ++ [f]) with ((f :: r) ++ [f]). rewrite E, <- app_assoc. reflexivity.
  Qed.
  Lemma no_marks cs : forall g v d, ok (v :: cs) -> marks Y g v cs = ([], d) ->
    forall x, In x cs -> (if g then n_leb (Y x) (Y v) else n_leb (Y v) (Y x)) = true.
  Proof.
    induction cs as [|c cs IH]; intros g v d V M x Hx; [contradiction|].
    assert (Vv : nvalid (Y v)) by (apply V; now left). assert (Vc : nvalid (Y c)) by (apply V; right; now left).
    assert (Vx : nvalid (Y x)) by (apply V; now right).
    cbn [marks] in M. destruct (n_ltb (Y v) (Y c) && g) eqn:K1; [destruct (marks Y false c cs); discriminate|].
    destruct (n_ltb (Y c) (Y v) && negb g) eqn:K2; [destruct (marks Y true c cs); discriminate|].
    assert (S1 : (if g then n_leb (Y c) (Y v) else n_leb (Y v) (Y c)) = true).
    { destruct g; rewrite ?andb_true_r in *; apply nle_not_lt; auto. }
    destruct Hx as [->|Hx]; auto.
    assert (S2 := IH g c d (fun i Hi => V i (or_intror Hi)) M x Hx). destruct g; [apply (nle_trans (Y x) (Y c) (Y v))|apply (nle_trans (Y v) (Y c) (Y x))]; auto.
  Qed.
  Lemma alternate_count l : forall b, alternate b l -> Nat.odd (length l) = false ->
    length (filter (fun x => x) l) = length (filter negb l).
  Proof.
    assert (K : forall n l b, length l <= n -> alternate b l -> Nat.odd (length l) = false ->
      length (filter (fun x => x) l) = length (filter negb l)).
    { induction n as [|n IH]; intros l' b L A E; [destruct l'; [reflexivity|simpl in L; lia]|].
      destruct l' as [|x [|y l']]; [reflexivity|discriminate|]. simpl in A. destruct A as (-> & -> & A). rewrite negb_involutive in A.
      simpl in L. specialize (IH l' b ltac:(lia) A). destruct b; simpl; f_equal; apply IH; exact E. }
    intros b. now apply (K (length l)).
  Qed.
  Lemma filter_map {A B} (f : A -> B) p l : length (filter p (map f l)) = length (filter (fun x => p (f x)) l).
  Proof. induction l as [|x l IH]; simpl; auto. destruct (p (f x)); simpl; auto. Qed.
  Lemma extremes_extrema f r m : r <> [] -> ok (f :: r) -> extremes Y f r m -> extrema Y (f :: r) m.
  Proof.
    intros NE V E. pose proof (extremes_sub Y f r m NE E) as SUB.
    destruct (extremes_pass f r m NE V E) as (d0 & A & M).
    pose proof (pass_extreme f r m d0 NE V A M) as H.
    destruct (marks_alternate Y _ _ _ _ _ M) as [AL TG].
    split; auto. split; [exact (fun v => H v true)|]. split; [exact (fun v => H v false)|]. split; [eauto|]. split.
    - rewrite <- (filter_map snd negb), <- (filter_map snd (fun x => x)). apply (alternate_count _ d0); auto.
      rewrite map_length. unfold toggled in TG. destruct d0, (Nat.odd (length m)); simpl in TG; congruence.
    - intros ->. destruct A as (e & p & q & R & Fe & L).
      assert (Hp : In p r). { apply in_rev. rewrite R. apply in_or_app. right. now left. }
      assert (Vp : nvalid (Y p)) by (apply V; now right). assert (Vf : nvalid (Y f)) by (apply V; now left).
      assert (K := no_marks (r ++ [f]) d0 f d0). destruct d0.
      + assert (n_leb (Y p) (Y f) = true) as K1.
        { apply K with (x := p) in M; auto; [|apply in_or_app; now left].
          intros i [<-|Hi]; auto. apply in_app_or in Hi as [Hi|[<-|[]]]; auto. apply V. now right. }
        apply nle_not_lt in K1; auto. congruence.
      + assert (n_leb (Y f) (Y p) = true) as K1.
        { apply K with (x := p) in M; auto; [|apply in_or_app; now left].
          intros i [<-|Hi]; auto. apply in_app_or in Hi as [Hi|[<-|[]]]; auto. apply V. now right. }
        apply nle_not_lt in K1; auto. congruence.
  Qed.
End Ordered.
