(** Sorting the active edges again and counting them again only clears links between edges and bounds. *)
From Coq Require Import ZArith Bool List Reals Lra Lia Permutation Sorted.
From Verif Require Import Outcome Num Order OrdTac Rmath RTac Segment VState VAel VOut VMain VLemmas VFrame RingSpec LineSpec ClimbSpec AelSpec VAelProofs VEdges VAelRun VRun VClimb
  SortProofs PlaneSpec PlaneGeo PlaneSort PlaneTop PlaneCount OutSpec OutPath OutAlt OutList OutClose OutTop.
Import ListNotations.
Local Open Scope Z_scope.
Local Open Scope out.
Implicit Types s : clipper R.

Definition quiet (e f : edge R) : Prop := e_x f = e_x e /\ e_bound f = e_bound e.
Lemma pre_quiet : pre quiet.
Proof. split; unfold quiet; intuition congruence. Qed.
Ltac quiets :=
  repeat first [apply (erel_refl _ _ pre_quiet)
               |apply erel_upd; [apply pre_quiet|intros []; split; reflexivity]
               |eapply erel_trans; [apply pre_quiet| |apply erel_upd; [apply pre_quiet|intros []; split; reflexivity]]].
Lemma take_quiet s n s' : take_from_ael s n = Ok s' -> erel quiet (edges s) (edges s').
Proof. unfold take_from_ael, emod_opt. intros H. dmatch; cbn [edges w_edges w_ael]; quiets. Qed.
Lemma after_quiet s l n s' : insert_after s l n = Ok s' -> erel quiet (edges s) (edges s').
Proof. unfold insert_after, emod_opt. intros H. dmatch; cbn [edges w_edges]; quiets. Qed.
Lemma into_quiet s n s' : insert_into_ael s n = Ok s' -> erel quiet (edges s) (edges s').
Proof. unfold insert_into_ael. intros H. dmatch; cbn [edges w_edges w_ael]; quiets. now apply after_quiet in H. Qed.
Lemma calc_quiet s n s' : calc_windcnt s n = Ok s' -> erel quiet (edges s) (edges s').
Proof. unfold calc_windcnt. intros H. dmatch; cbn; quiets. Qed.
Lemma quiet_ebof (es es' : list (edge R)) : erel quiet es es' -> forall i, ebof es' i = ebof es i.
Proof.
  intros [L H] i. unfold ebof. destruct (nth_error es i) as [e|] eqn:E.
  - destruct (H i e E) as (f & -> & _ & B). exact B.
  - apply nth_error_None in E. rewrite <- L in E. apply nth_error_None in E. now rewrite E.
Qed.

(** Only links at the positions in [C] are cleared. *)
Record drops (C : R -> Prop) s s' pos bl : Prop := {
  dr_outs : outs s' pos bl [];
  dr_polys : polys s' = polys s;
  dr_stop : forall c x, nth_error (bounds s) c = Some x -> exists x', nth_error (bounds s') c = Some x' /\ ob_stop_x x' = ob_stop_x x /\ ob_dx x' = ob_dx x;
  dr_less : forall i c, ebof (edges s') i = Some c -> ebof (edges s) i = Some c;
  dr_same : forall i e, nth_error (edges s) i = Some e -> ~ C (e_x e) -> ebof (edges s') i = ebof (edges s) i;
  dr_x : forall i e, nth_error (edges s) i = Some e -> exists f, nth_error (edges s') i = Some f /\ e_x f = e_x e }.
Lemma drops_quiet C s s' pos bl : outs s pos bl [] -> fout s' = fout s -> erel quiet (edges s) (edges s') -> drops C s s' pos bl.
Proof.
  intros O F Q. unfold fout in F. injection F as F1 F2 F3. pose proof (quiet_ebof _ _ Q) as EB. constructor; auto.
  - eapply outs_less; eauto; rewrite ?F1; auto.
    + intros c x E. exists x. unfold still. auto.
    + eapply linked_ext; [apply (os_link _ _ _ _ O)|exact EB|reflexivity].
    + intros i c. now rewrite EB.
  - rewrite F1. eauto.
  - intros i c. now rewrite EB.
  - intros i e E. destruct (proj2 Q i e E) as (f & F & X & _). eauto.
Qed.
Lemma drops_refl C s pos bl : outs s pos bl [] -> drops C s s pos bl.
Proof. intros O. apply drops_quiet; auto. apply erel_refl, pre_quiet. Qed.
Lemma drops_trans C s s1 s2 pos bl : drops C s s1 pos bl -> drops C s1 s2 pos bl -> drops C s s2 pos bl.
Proof.
  intros [A1 A2 A3 A4 A5 A6] [B1 B2 B3 B4 B5 B6]. constructor; auto; try congruence.
  - intros c x E. destruct (A3 c x E) as (x1 & E1 & P & Q). destruct (B3 c x1 E1) as (x2 & E2 & P2 & Q2). exists x2. csplit; auto; congruence.
  - intros i e E N. destruct (A6 i e E) as (f & F & X). rewrite (B5 i f F), (A5 i e E); auto. now rewrite X.
  - intros i e E. destruct (A6 i e E) as (f & F & X). destruct (B6 i f F) as (g & G & Z). exists g. split; auto. congruence.
Qed.
Lemma drops_mono (C D : R -> Prop) s s' pos bl : (forall x, C x -> D x) -> drops C s s' pos bl -> drops D s s' pos bl.
Proof. intros M [A1 A2 A3 A4 A5 A6]. constructor; auto. intros i e E N. apply (A5 i e); auto. Qed.
Lemma drops_clear (C : R -> Prop) s s1 s2 pos bl i e : outs s pos bl [] -> nth_error (edges s) i = Some e -> C (e_x e) ->
  (match e_bound e with Some b => bmod s b (set_bedge None) | None => Ok s end) = Ok s1 -> emod s1 i (set_ebound None) = Ok s2 -> drops C s s2 pos bl.
Proof.
  intros O E HC H1 H2. destruct (clear_run _ _ _ _ _ _ _ O E H1 H2) as (A & B & P & Q & D). constructor; auto.
  - intros j c. rewrite B. destruct (Nat.eqb j i); [discriminate|auto].
  - intros j f F N. rewrite B. destruct (Nat.eqb_spec j i) as [->|]; auto. rewrite E in F. injection F as <-. contradiction.
  - assert (ES : edges s1 = edges s) by (destruct (e_bound e); [apply bmod_ok in H1 as [_ ->]|injection H1 as <-]; auto).
    apply emod_ok in H2 as [_ ->]. cbn [edges w_edges]. rewrite ES. intros j f F. rewrite nth_upd, F. destruct (Nat.eqb i j); cbn; eexists; split; eauto.
Qed.

Lemma take_changed_drops (C : R -> Prop) fuel : forall s xs c acc s' r pos bl, outs s pos bl [] -> (forall x, In x xs -> C x) ->
  take_changed fuel s xs c acc = Ok (s', r) -> drops C s s' pos bl.
Proof.
  induction fuel as [|fuel IH]; intros s xs c acc s' r pos bl O HX H; cbn [take_changed] in H; destruct xs as [|x xs];
    try (injection H as <- <-; now apply drops_refl); (destruct c as [i|]; [|injection H as <- <-; now apply drops_refl]); [discriminate|].
  apply bind_ok in H as (e & E & H). apply at_ok in E. destruct (n_eqb (e_x e) x) eqn:Q; rops.
  - apply bind_ok in H as (s1 & F1 & H). apply bind_ok in H as (s2 & F2 & H). apply bind_ok in H as (s3 & F3 & H).
    assert (D1 : drops C s s2 pos bl) by (eapply drops_clear; eauto; apply HX; left; rbool; congruence).
    eapply drops_trans; [exact D1|].
    assert (D2 : drops C s2 s3 pos bl) by (apply drops_quiet; [apply D1|apply take_from_ael_frame in F3 as (_ & K & _); exact K|now apply take_quiet in F3]).
    eapply drops_trans; [exact D2|]. eapply IH; [apply D2| |exact H]. auto.
  - destruct (Rltb x (e_x e)); [|eapply IH; [exact O|exact HX|exact H]]. eapply IH; [exact O| |exact H]. intros z Hz. apply HX. now right.
Qed.
Lemma insert_all_drops C l : forall s s' pos bl, outs s pos bl [] -> insert_all s l = Ok s' -> drops C s s' pos bl.
Proof.
  induction l as [|i l IH]; intros s s' pos bl O H; cbn [insert_all] in H; [injection H as <-; now apply drops_refl|].
  apply bind_ok in H as (s1 & F & H). assert (D : drops C s s1 pos bl) by (apply drops_quiet; auto; [apply insert_into_ael_frame in F as (_ & K & _); exact K|now apply into_quiet in F]).
  eapply drops_trans; [exact D|]. apply IH; auto. apply D.
Qed.
Lemma changes_outs s pos bl nb c : outs s pos bl nb -> outs (w_changes s c) pos bl nb.
Proof. intros [A B D E F G]. constructor; auto. Qed.
Lemma tidy_sub x (l : list R) : In x (tidy_changes l) -> In x l.
Proof. unfold tidy_changes. intros H. apply unique_by_sub in H. eapply Permutation_in; [symmetry; apply sort_by_perm|eauto]. Qed.
Lemma tidy_sup x (l : list R) : In x l -> In x (tidy_changes l).
Proof.
  unfold tidy_changes. intros H. destruct (unique_by_rep n_eqb (fun z => z = x) (sort_by n_ltb l) x) as (z & Z1 & ->); auto.
  - intros p q Hpq ->. rops. rbool. auto.
  - eapply Permutation_in; [apply sort_by_perm|auto].
Qed.
Lemma resort_drops s s' pos bl : outs s pos bl [] -> resort_ael s = Ok s' -> drops (fun x => In x (changes s)) s s' pos bl.
Proof.
  intros O H. unfold resort_ael in H. apply bind_ok in H as ((s1 & r) & F & H).
  assert (D0 : drops (fun x => In x (changes s)) s (w_changes s (tidy_changes (changes s))) pos bl) by (apply drops_quiet; auto; apply erel_refl, pre_quiet).
  eapply drops_trans; [exact D0|].
  assert (D1 : drops (fun x => In x (changes s)) (w_changes s (tidy_changes (changes s))) s1 pos bl).
  { eapply take_changed_drops; [apply D0| |exact F]. cbn. intros x. apply tidy_sub. }
  eapply drops_trans; [exact D1|]. eapply insert_all_drops; eauto. apply D1.
Qed.

(** *** Counting again *)
Lemma recalc_at_drops (C : R -> Prop) fuel : forall s x c c' s' pos bl, outs s pos bl [] -> C x -> recalc_at fuel s x c = Ok (c', s') -> drops C s s' pos bl.
Proof.
  induction fuel as [|fuel IH]; intros s x c c' s' pos bl O HX H; cbn [recalc_at] in H; (destruct c as [i|]; [|injection H as <- <-; now apply drops_refl]); [discriminate|].
  apply bind_ok in H as (e & E & H). apply at_ok in E. destruct (n_ltb (e_x e) x) eqn:Q1; [eapply IH; eauto|]. destruct (n_ltb x (e_x e)) eqn:Q2; [injection H as <- <-; now apply drops_refl|].
  rops. apply bind_ok in H as (s1 & F1 & H). apply bind_ok in H as (s2 & F2 & H). apply bind_ok in H as (s3 & F3 & H). apply bind_ok in H as (e3 & _ & H).
  assert (D1 : drops C s s2 pos bl) by (eapply drops_clear; eauto; replace (e_x e) with x by (rbool; lra); auto).
  eapply drops_trans; [exact D1|].
  assert (D2 : drops C s2 s3 pos bl) by (apply drops_quiet; [apply D1|apply calc_windcnt_frame in F3 as (_ & K & _); exact K|now apply calc_quiet in F3]).
  eapply drops_trans; [exact D2|]. eapply IH; [apply D2| |exact H]. auto.
Qed.
Lemma recalc_all_drops (C : R -> Prop) xs : forall s c s' pos bl, outs s pos bl [] -> (forall x, In x xs -> C x) -> recalc_all s xs c = Ok s' -> drops C s s' pos bl.
Proof.
  induction xs as [|x xs IH]; intros s c s' pos bl O HX H; cbn [recalc_all] in H; [injection H as <-; now apply drops_refl|].
  apply bind_ok in H as ((c1 & s1) & F & H). assert (D : drops C s s1 pos bl) by (eapply recalc_at_drops; eauto; apply HX; now left).
  eapply drops_trans; [exact D|]. eapply IH; [apply D| |exact H]. intros z Hz. apply HX. now right.
Qed.
Lemma recalc_drops s s' pos bl : outs s pos bl [] -> recalc_windcnt s = Ok s' -> drops (fun x => In x (changes s)) s s' pos bl.
Proof.
  intros O H. unfold recalc_windcnt in H.
  assert (D0 : drops (fun x => In x (changes s)) s (w_changes s (tidy_changes (changes s))) pos bl) by (apply drops_quiet; auto; apply erel_refl, pre_quiet).
  eapply drops_trans; [exact D0|]. eapply recalc_all_drops; [apply D0| |exact H]. cbn. intros x. apply tidy_sub.
Qed.

(** Every link at a counted position is cleared. *)
Lemma ordered_same (es es' : list (edge R)) l : (forall i e, nth_error es i = Some e -> exists f, nth_error es' i = Some f /\ e_x f = e_x e) -> (forall i, In i l -> exists e, nth_error es i = Some e) -> ordered es l -> ordered es' l.
Proof.
  intros H D O. unfold ordered in *. induction O as [|i l O1 O2 IH]; constructor.
  - apply Forall_forall. intros j Hj e' f' E' F'. destruct (D i) as (e & E); [now left|]. destruct (D j) as (f & F); [now right|].
    rewrite Forall_forall in O1. specialize (O1 j Hj e f E F). destruct (H i e E) as (e1 & E1 & X1), (H j f F) as (f1 & F1 & X2).
    rewrite E' in E1. rewrite F' in F1. injection E1 as <-. injection F1 as <-. now rewrite X1, X2.
  - apply IH. intros j Hj. apply D. now right.
Qed.
Lemma recalc_at_clears fuel : forall s x a b c' s' pos bl, outs s pos bl [] -> active s (a ++ b) -> ordered (edges s) b -> recalc_at fuel s x (hd_or b None) = Ok (c', s') ->
  exists a' b', b = a' ++ b' /\ c' = hd_or b' None /\
    (forall i e, In i a' -> nth_error (edges s) i = Some e -> (e_x e <= x)%R /\ (e_x e = x -> ebof (edges s') i = None)) /\
    (forall i e, In i b' -> nth_error (edges s) i = Some e -> (x < e_x e)%R).
Proof.
  induction fuel as [|fuel IH]; intros s x a b c' s' pos bl O A OR H; destruct b as [|i b]; cbn [hd_or recalc_at] in H; try discriminate.
  1,2: injection H as <- <-; exists [], []; csplit; simpl; tauto.
  destruct (active_split _ _ _ _ A) as (e & E & _ & Q). unfold at_ in H. rewrite E in H. cbn [bind of_opt] in H.
  assert (AA : (a ++ [i]) ++ b = a ++ i :: b) by (rewrite <- app_assoc; reflexivity). rewrite <- AA in A.
  inversion OR as [|? ? O1 O2]; subst. rewrite Forall_forall in O1.
  destruct (n_ltb (e_x e) x) eqn:L1.
  - rewrite Q in H. destruct (IH s x (a ++ [i]) b c' s' pos bl O A O2 H) as (a' & b' & -> & -> & P1 & P2). exists (i :: a'), b'. csplit; auto.
    intros j f [<-|Hj] F; [|eauto]. rewrite E in F. injection F as <-. rops. rbool. split; [lra|intros; lra].
  - destruct (n_ltb x (e_x e)) eqn:L2.
    + injection H as <- <-. exists [], (i :: b). csplit; auto; [intros ? ? []|]. rops. rbool. intros j f [<-|Hj] F; [rewrite E in F; injection F as <-; lra|].
      specialize (O1 j Hj e f E F). rops. rbool. lra.
    + apply bind_ok in H as (s1 & F1 & H). apply bind_ok in H as (s2 & F2 & H). apply bind_ok in H as (s3 & F3 & H). apply bind_ok in H as (e3 & F4 & H). apply at_ok in F4.
      assert (EX : e_x e = x) by (rops; rbool; lra).
      assert (D1 : drops (eq x) s s2 pos bl) by (eapply drops_clear; eauto).
      assert (D2 : drops (eq x) s2 s3 pos bl) by (apply drops_quiet; [apply D1|apply calc_windcnt_frame in F3 as (_ & K & _); exact K|now apply calc_quiet in F3]).
      pose proof (drops_trans _ _ _ _ _ _ D1 D2) as D3.
      assert (R3 : erel same_but_count (edges s) (edges s3)).
      { eapply erel_trans; [apply pre_count| |eapply calc_windcnt_ec; eauto]. apply emod_ok in F2 as [_ ->]. cbn [edges w_edges].
        replace (edges s1) with (edges s) by (destruct (e_bound e); [apply bmod_ok in F1 as [_ ->]|injection F1 as <-]; auto). apply erel_upd; [apply pre_count|intros []; reflexivity]. }
      assert (AE : ael s3 = ael s).
      { apply calc_windcnt_frame in F3 as (_ & _ & _ & ->). apply emod_ok in F2 as [_ ->]. cbn. destruct (e_bound e); [apply bmod_ok in F1 as [_ ->]|injection F1 as <-]; auto. }
      destruct (proj2 R3 i e E) as (f3 & G3 & SB). rewrite F4 in G3. injection G3 as <-. replace (e_next e3) with (e_next e) in H by (rewrite SB; destruct e; reflexivity). rewrite Q in H.
      assert (A3 : active s3 ((a ++ [i]) ++ b)) by (eapply active_count; eauto).
      assert (DF : forall j, In j b -> exists e, nth_error (edges s) j = Some e) by (intros j Hj; eapply active_in; [exact A|]; apply in_or_app; now right).
      assert (O3 : ordered (edges s3) b) by (eapply ordered_same; [apply D3|exact DF|exact O2]).
      destruct (IH s3 x (a ++ [i]) b c' s' pos bl (dr_outs _ _ _ _ _ D3) A3 O3 H) as (a' & b' & EB & -> & P1 & P2).
      assert (D4 : drops (eq x) s3 s' pos bl) by (eapply recalc_at_drops; [apply D3|reflexivity|exact H]).
      exists (i :: a'), b'. csplit; auto; [now rewrite EB| |].
      * intros j f [<-|Hj] F.
        -- rewrite E in F. injection F as <-. split; [lra|]. intros _. destruct (ebof (edges s') i) as [c|] eqn:K; auto.
           apply (dr_less _ _ _ _ _ D4), (dr_less _ _ _ _ _ D2) in K. destruct (clear_run _ _ _ _ _ _ _ O E F1 F2) as (_ & B & _). rewrite B, Nat.eqb_refl in K. discriminate.
        -- destruct (dr_x _ _ _ _ _ D3 j f F) as (g & G & X). rewrite <- X. eauto.
      * intros j f Hj F. destruct (dr_x _ _ _ _ _ D3 j f F) as (g & G & X). rewrite <- X. eauto.
Qed.
Lemma recalc_all_clears xs : forall s a b s' pos bl, outs s pos bl [] -> active s (a ++ b) -> ordered (edges s) b -> StronglySorted Rle xs -> recalc_all s xs (hd_or b None) = Ok s' ->
  forall i e, In i b -> nth_error (edges s) i = Some e -> In (e_x e) xs -> ebof (edges s') i = None.
Proof.
  induction xs as [|x xs IH]; intros s a b s' pos bl O A OR ST H i e Hi E HX; [destruct HX|]. cbn [recalc_all] in H.
  apply bind_ok in H as ((c1 & s1) & F & H). inversion ST as [|? ? S1 S2]; subst. rewrite Forall_forall in S2.
  assert (D : drops (eq x) s s1 pos bl) by (eapply recalc_at_drops; eauto).
  assert (D' : drops (fun z => In z xs) s1 s' pos bl) by (eapply recalc_all_drops; [apply D| |exact H]; auto).
  pose proof (recalc_at_ec _ _ _ _ _ _ F) as R1. pose proof (recalc_at_frame _ _ _ _ _ _ F) as (_ & _ & _ & _ & AE).
  destruct (recalc_at_clears _ _ _ _ _ _ _ _ _ O A OR F) as (a' & b' & -> & -> & P1 & P2).
  assert (DF : forall j, In j (a' ++ b') -> exists e, nth_error (edges s) j = Some e) by (intros j Hj; eapply active_in; [exact A|]; apply in_or_app; now right).
  apply in_app_or in Hi as [Hi|Hi].
  - destruct (P1 i e Hi E) as [L N]. assert (EX : e_x e = x) by (destruct HX as [->|HX]; auto; apply S2 in HX; lra).
    destruct (ebof (edges s') i) as [c|] eqn:K; auto. apply (dr_less _ _ _ _ _ D') in K. rewrite N in K; [discriminate|auto].
  - pose proof (P2 i e Hi E) as L. destruct HX as [->|HX]; [lra|]. destruct (dr_x _ _ _ _ _ D i e E) as (f & Ff & X).
    apply (IH s1 (a ++ a') b' s' pos bl) with (e := f); auto.
    + apply D.
    + rewrite <- app_assoc. eapply active_count; eauto.
    + apply fop_app in OR as (_ & OR & _). eapply ordered_same; [apply D| |exact OR]. intros j Hj. apply DF. apply in_or_app. now right.
    + now rewrite X.
Qed.
Lemma recalc_clears s l s' pos bl : outs s pos bl [] -> active s l -> ordered (edges s) l -> recalc_windcnt s = Ok s' ->
  forall i e, In i l -> nth_error (edges s) i = Some e -> In (e_x e) (changes s) -> ebof (edges s') i = None.
Proof.
  intros O A OR H i e Hi E HX. unfold recalc_windcnt in H. cbn [changes w_changes ael] in H.
  assert (Q : ael (w_changes s (tidy_changes (changes s))) = hd_or l None) by (destruct A as (Q & _); cbn in Q; exact Q).
  cbn in Q. rewrite Q in H.
  eapply (recalc_all_clears _ (w_changes s (tidy_changes (changes s))) []); [apply changes_outs; exact O|exact A|exact OR| |exact H|exact Hi|exact E|now apply tidy_sup].
  assert (K : StronglySorted nle (tidy_changes (changes s))) by (unfold tidy_changes; apply unique_by_sorted, sort_num_sorted; apply Forall_forall; intros; exact I).
  clear -K. induction K as [|x xs K1 IH K2]; constructor; auto. apply Forall_forall. intros z Hz. rewrite Forall_forall in K2. specialize (K2 z Hz). unfold nle in K2. rops. rbool. exact K2.
Qed.
