(** What the steps of the sweep do to the edges. *)
From Coq Require Import ZArith Bool List Permutation Lia.
From Verif Require Import Outcome Num Rmath Segment VState VAel VOut VMain VLemmas VFrame AelSpec.
Import ListNotations.
Local Open Scope out.

Section Edges.
  Context {T : Type} {N : Num T}.
  Implicit Types s : clipper T.
  Implicit Types es : list (edge T).
  Implicit Types R : edge T -> edge T -> Prop.

  Definition pre R := (forall e, R e e) /\ (forall e f g, R e f -> R f g -> R e g).
  Lemma pre_bound : pre same_but_bound.
  Proof. split; unfold same_but_bound; [intros []; reflexivity|]. intros e f g -> ->. reflexivity. Qed.
  Lemma pre_count : pre same_but_count.
  Proof. split; unfold same_but_count; [intros []; reflexivity|]. intros e f g -> ->. reflexivity. Qed.
  Lemma pre_links : pre same_but_links.
  Proof. split; unfold same_but_links; [intros []; reflexivity|]. intros e f g -> ->. reflexivity. Qed.
  Lemma erel_refl R es : pre R -> erel R es es.
  Proof. intros [H _]. split; auto. eauto. Qed.
  Lemma erel_trans R a b c : pre R -> erel R a b -> erel R b c -> erel R a c.
  Proof.
    intros [_ P] [L1 H1] [L2 H2]. split; [congruence|]. intros i e H.
    apply H1 in H as (f & Hf & S1). apply H2 in Hf as (g & Hg & S2). eauto.
  Qed.
  Lemma erel_mono R R' es fs : (forall e f, R e f -> R' e f) -> erel R es fs -> erel R' es fs.
  Proof. intros M [L H]. split; auto. intros i e E. apply H in E as (f & A & B). eauto. Qed.
  Lemma erel_upd R es i f : pre R -> (forall e, R e (f e)) -> erel R es (upd es i f).
  Proof.
    intros [P _] H. split; [apply length_upd|]. intros j e Hj. rewrite nth_upd, Hj.
    destruct (Nat.eqb i j); simpl; eauto.
  Qed.
  Lemma erel_back R es fs i f : erel R es fs -> nth_error fs i = Some f ->
    exists e, nth_error es i = Some e /\ R e f.
  Proof.
    intros [L H] F. destruct (nth_some es i) as [e E]; [rewrite <- L; eapply nth_lt; eauto|].
    exists e. split; auto. destruct (H i e E) as (g & G & K). congruence.
  Qed.
  Lemma bound_links e f : same_but_bound e f -> same_but_links (T := T) e f.
  Proof. unfold same_but_bound, same_but_links. intros ->. reflexivity. Qed.
  Lemma bound_count e f : same_but_bound e f -> same_but_count (T := T) e f.
  Proof. unfold same_but_bound, same_but_count. intros ->. destruct e; reflexivity. Qed.
  Lemma edge_links e f : same_edge e f -> same_but_links (T := T) e f.
  Proof. unfold same_edge, same_but_links. intros ->. reflexivity. Qed.

  (** *** Building the output touches only the bound pointers *)
  Notation eb s s' := (erel same_but_bound (edges s) (edges s')).
  Ltac eb_refl := apply erel_refl, pre_bound.
  Ltac eb_trans := eapply erel_trans; [apply pre_bound| |].
  Ltac eb_upd := apply erel_upd; [apply pre_bound|intros []; reflexivity].

  Lemma emod_opt_eb s p b s' : emod_opt s p (set_ebound b) = Ok s' -> eb s s'.
  Proof. unfold emod_opt. intros H. dmatch; [cbn; eb_upd|eb_refl]. Qed.
  Lemma extend_bound_eb s i s' : extend_bound s i = Ok s' -> edges s' = edges s.
  Proof. intros H. apply extend_bound_frame in H. tauto. Qed.
  Lemma join_output_eb s a b y s' : join_output s a b y = Ok s' -> eb s s'.
  Proof.
    unfold join_output. intros H. binvs.
    apply emod_opt_eb in E1. apply emod_opt_eb in E2. mods.
    apply delete_obl_bound_frame in E9 as (_ & _ & _ & A & _).
    apply delete_obl_bound_frame in H as (_ & _ & _ & B & _).
    assert (C : edges x7 = edges x2).
    { destruct (n_eqb (ob_stop_x x) (ob_stop_x x0)); binvs; [reflexivity|].
      destruct (bound_up x); mods; reflexivity. }
    assert (D : edges x8 = edges x7).
    { destruct (Nat.eqb x5 x6); [mods; reflexivity|].
      destruct (Nat.ltb x6 x5); match goal with K : absorb _ _ _ _ = Ok _ |- _ => apply absorb_frame in K end; tauto. }
    rewrite B, A, D, C. eb_trans; eauto.
  Qed.
  Lemma close_loop_eb fuel : forall s y c n s', close_loop fuel s y c n = Ok s' -> eb s s'.
  Proof.
    induction fuel; intros s y c n s' H; simpl in H; (destruct n; [|binvs; eb_refl]); [discriminate|]. binvs.
    assert (B : eb s x1).
    { destruct (n_eqb (ob_stop_x x0) (ob_stop_x x)); binvs; [|eb_refl]. now apply join_output_eb in E1. }
    destruct (ob_next x); binvs; auto. apply IHfuel in H. eb_trans; eauto.
  Qed.
  Lemma close_output_eb n s y s' : close_output n s y = Ok s' -> eb s s'.
  Proof. unfold close_output. destruct (obl s); intros H; binvs; [|eb_refl]. now apply close_loop_eb in H. Qed.
  Lemma new_output_eb s a b s' : new_output s a b = Ok s' -> eb s s'.
  Proof.
    unfold new_output. intros H. dmatch. destruct (edge_up x); binvs; cbn;
      (eapply erel_trans; [apply pre_bound| |eb_upd]); eb_upd.
  Qed.
  Lemma open_pairs_eb k : forall l s s' l', length l <= k -> open_pairs s l = Ok (s', l') -> eb s s'.
  Proof.
    induction k; intros l s s' l' Hk H.
    - destruct l; [|simpl in Hk; lia]. simpl in H. binvs; eb_refl.
    - destruct l as [|a [|b l]]; simpl in H; binvs; try eb_refl. simpl in Hk.
      destruct (n_eqb (e_x x) (e_x x0)); binvs.
      + apply IHk in H; [|lia]. use new_output_eb. eb_trans; eauto.
      + apply IHk in E1; [auto|lia].
  Qed.
  Lemma update_bound_eb s b e s' : update_bound s b e = Ok s' -> eb s s'.
  Proof.
    unfold update_bound. intros H. binvs. mods.
    assert (B : edges x1 = edges s).
    { destruct (n_eqb (e_x x0) (ob_stop_x x)); dmatch; auto. }
    cbn. rewrite B. eb_upd.
  Qed.
  Lemma connect_eb s a b y s' : connect s a b y = Ok s' -> eb s s'.
  Proof.
    unfold connect. intros H. destruct (bd_what a), (bd_what b);
      eauto using new_output_eb, update_bound_eb, join_output_eb.
  Qed.
  Lemma match_up_eb fuel : forall s y l s', match_up fuel s y l = Ok s' -> eb s s'.
  Proof.
    induction fuel; intros s y l s' H; simpl in H; (destruct l; [binvs; eb_refl|]); [discriminate|].
    destruct (find_other (bd_x b) (is_edge b) l) as [[o r]|]; binvs.
    - apply IHfuel in H. use connect_eb. eb_trans; eauto.
    - destruct l; [discriminate|]. binvs. apply IHfuel in H. use connect_eb. eb_trans; eauto.
  Qed.
  Lemma update_output_bound_eb n s y s' : update_output_bound n s y = Ok s' -> eb s s'.
  Proof.
    unfold update_output_bound. intros H. destruct (changes s) eqn:C; binvs; [eb_refl|].
    apply (open_pairs_eb _ _ _ _ _ (le_n _)) in E0. use match_up_eb.
    apply rebuild_obl_frame in H as (_ & _ & _ & A & _). rewrite A. eb_trans; eauto.
  Qed.

  (** *** Counting *)
  Notation ec s s' := (erel same_but_count (edges s) (edges s')).
  Lemma calc_windcnt_ec s n s' : calc_windcnt s n = Ok s' -> ec s s'.
  Proof.
    unfold calc_windcnt. intros H. dmatch; cbn; apply erel_upd; try apply pre_count; intros []; reflexivity.
  Qed.
  Lemma recalc_at_ec fuel : forall s x c p s', recalc_at fuel s x c = Ok (p, s') -> ec s s'.
  Proof.
    induction fuel; intros s x c p s' H; simpl in H; destruct c; dmatch; auto; try (apply erel_refl, pre_count); eauto.
    - apply IHfuel in H. use calc_windcnt_ec. eapply erel_trans; [apply pre_count| |exact H].
      eapply erel_trans; [apply pre_count| |eassumption]. cbn. apply erel_upd; [apply pre_count|intros []; reflexivity].
    - apply IHfuel in H. use calc_windcnt_ec. eapply erel_trans; [apply pre_count| |exact H].
      eapply erel_trans; [apply pre_count| |eassumption]. cbn. apply erel_upd; [apply pre_count|intros []; reflexivity].
  Qed.
  Lemma recalc_all_ec xs : forall s c s', recalc_all s xs c = Ok s' -> ec s s'.
  Proof.
    induction xs; intros s c s' H; simpl in H; dmatch; [apply erel_refl, pre_count|].
    apply IHxs in H. use recalc_at_ec. eapply erel_trans; [apply pre_count| |]; eauto.
  Qed.
  Lemma recalc_windcnt_ec s s' : recalc_windcnt s = Ok s' -> ec s s'.
  Proof. apply recalc_all_ec. Qed.
End Edges.
