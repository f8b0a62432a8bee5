(** The statements of Props_Wind.v from the lemmas of VKept.v and VPairs.v. *)
From Coq Require Import ZArith Bool List.
From Verif Require Import Outcome Num Order Rmath Segment VState VAel VOut VMain VLemmas VFrame ClipSpec AelSpec
  VAelProofs VEdges VAelRun VRun WindSpec SortProofs VWind VKept VPairs.
Import ListNotations.
Section Statements.
  Context {T : Type}.
  Implicit Types s : clipper T.
  Lemma parity_lemma s l1 l2 : directed s (l1 ++ l2) -> all_counted (cfill s) s (l1 ++ l2) ->
    exists k, kept s l1 k /\ in_result (cop s) (cfill s) s l1 (Nat.odd (length k)).
  Proof. intros D C. apply directed_app in D as [D _]. apply kept_parity; auto. eapply all_counted_prefix; eauto. Qed.
  Context {N : Num T}.
  Lemma collect_lemma s l r : active s l -> directed s l -> all_counted (cfill s) s l ->
    collect (length (edges s)) s (ael s) [] = Ok r -> exists k, kept s l k /\ cancels s k (rev r) /\ no_twins s (rev r).
  Proof.
    intros A D C H. destruct (kept_parity s l D C) as (k & K & _). exists k. split; auto. split; [|refine (collect_lone _ s (ael s) [] r _ H); apply no_twins_nil].
    refine (collect_ok _ s (ael s) [] r [] l k A _ H K). destruct A as (A & _). destruct l; simpl in *; auto; exact A.
  Qed.
  Context {O : OrdNum T}.
  Lemma pairs_lemma n s y l s' : (cop s = op_union \/ cop s = op_intersection) -> (cfill s = positive \/ cfill s = negative) ->
    active s l -> directed s l -> ordered (edges s) l -> xvalid (edges s) l -> all_counted (cfill s) s l ->
    update_output_bound n s y = Ok s' ->
    exists ds, map ob_dx (bounds s') = map ob_dx (bounds s) ++ ds /\ opposite_pairs ds.
  Proof. intros A B. apply pairs_ok. split; auto. Qed.
End Statements.
