(** C61: half edges join neighbours. *)
From Coq Require Import ZArith Bool List Reals Lra Lia Permutation.
From Verif Require Import Outcome Num Order Rmath RTac RectSpec VState VLemmas LineSpec LineR.
From Verif Require Import Dcel DcelSpec DcelBase DcelBreak DcelStatements DcelInv DcelR DcelLaySpec DcelKept DcelPieces DcelCut DcelLay DcelLayMain DcelNextSpec.
Import ListNotations.

Lemma parallel_flip a b a' b' : parallel a b a' b' -> parallel a b b' a'.
Proof. unfold parallel. lra. Qed.
Lemma parallel_two s q a b a' b' : s <> q -> parallel s q a b -> parallel s q a' b' -> parallel a b a' b'.
Proof.
  unfold parallel. destruct s as [sx sy], q as [qx qy], a as [ax ay], b as [bx by_], a' as [cx cy], b' as [ex ey]. cbn. intros NE P1 P2.
  set (u := (qx - sx)%R) in *. set (v := (qy - sy)%R) in *. assert (NZ : u <> 0%R \/ v <> 0%R).
  { destruct (Req_dec u 0) as [U|U]; auto. destruct (Req_dec v 0) as [V|V]; auto. elim NE. unfold u, v in *. f_equal; lra. }
  destruct NZ as [Z|Z]; apply (Rmult_eq_reg_l _ _ _) with (2 := Z).
  - replace (u * ((bx - ax) * (ey - cy)))%R with ((bx - ax) * (u * (ey - cy)))%R by ring. rewrite P2.
    replace (u * ((by_ - ay) * (ex - cx)))%R with ((u * (by_ - ay)) * (ex - cx))%R by ring. rewrite P1. ring.
  - replace (v * ((bx - ax) * (ey - cy)))%R with ((v * (bx - ax)) * (ey - cy))%R by ring. rewrite <- P1.
    replace (v * ((by_ - ay) * (ex - cx)))%R with ((by_ - ay) * (v * (ex - cx)))%R by ring. rewrite <- P2. ring.
Qed.
Lemma neighbours_sym ls a b : neighbours ls a b -> neighbours ls b a.
Proof.
  intros (NE & A & B & (t & s & q & I & O1 & O2) & F). split; [auto|]. split; [auto|]. split; [auto|]. split; [exists t, s, q; auto|]. intros p Np O. destruct (F p Np (on_flip _ _ _ O)); auto.
Qed.

Section Next.
  Context (l : list (dcall R)) (d d1 d' : dcel R).
  Hypothesis H : drawn l d d1 d'.
  Notation ls := (lines_given subject l).
  Hypothesis NL : no_lap ls.

  Lemma node_break i p : In i (d_edges d) -> node ls p -> on_segment p (sa d i) (sb d i) -> p = sa d i \/ p = sb d i \/ has d1 i p.
  Proof.
    intros I Np O. pose proof H as (_ & _ & _ & _ & _ & _ & (BR1 & BR2 & BR3) & _).
    destruct (per_line l d d1 d' H i I) as (bs & ps & _ & NE & _ & _). destruct (edge_line l d d1 d' H i I) as (ti & LI).
    assert (Z : forall j, In j (d_edges d) -> on_segment p (sa d j) (sb d j) -> ~ parallel (sa d i) (sb d i) (sa d j) (sb d j) -> has d1 i p).
    { intros j J Oj NP. apply (BR2 i j); auto. intros <-. apply NP. unfold parallel. lra. }
    destruct Np as [(t & a & b & K & E)|(t & a & b & t' & a' & b' & K & K' & NP & O1 & O2)].
    - apply (line_in l d d1 d' H) in K as (j & J & EJ). assert (EA : sa d j = a) by (unfold sa; now rewrite EJ). assert (EB : sb d j = b) by (unfold sb; now rewrite EJ).
      assert (Oj : on_segment p (sa d j) (sb d j)).
      { rewrite EA, EB. destruct E as [->| ->]; [exists 0%R|exists 1%R]; (split; [lra|]); [now rewrite pt_0|now rewrite pt_1]. }
      destruct (parallel_dec (sa d i) (sb d i) (sa d j) (sb d j)) as [P|P]; [|right; right; exact (Z j J Oj P)].
      destruct (Nat.eq_dec i j) as [<-|NE']; [rewrite EA, EB; tauto|]. destruct (edge_line l d d1 d' H j J) as (tj & LJ).
      destruct (NL i j _ _ _ _ _ _ p NE' LI LJ P O Oj) as ([D|D] & _); auto.
    - apply (line_in l d d1 d' H) in K as (j & J & EJ). apply (line_in l d d1 d' H) in K' as (k & K & EK).
      assert (EA : sa d j = a) by (unfold sa; now rewrite EJ). assert (EB : sb d j = b) by (unfold sb; now rewrite EJ).
      assert (FA : sa d k = a') by (unfold sa; now rewrite EK). assert (FB : sb d k = b') by (unfold sb; now rewrite EK). subst a b a' b'. right. right.
      destruct (parallel_dec (sa d i) (sb d i) (sa d j) (sb d j)) as [P|P]; [|exact (Z j J O1 P)].
      destruct (parallel_dec (sa d i) (sb d i) (sa d k) (sb d k)) as [Q|Q]; [|exact (Z k K O2 Q)]. elim NP. exact (parallel_two _ _ _ _ _ _ NE P Q).
  Qed.
  Lemma break_node i p : In i (d_edges d) -> has d1 i p -> node ls p.
  Proof.
    intros I K. apply (drawn_points l d d1 d' H). destruct H as (_ & _ & _ & _ & _ & _ & _ & _ & _ & PT). apply PT. eauto.
  Qed.
  Lemma end_node i z : In i (d_edges d) -> (z = 0 \/ z = 1)%R -> node ls (pt (sa d i) (sb d i) z).
  Proof.
    intros I D. destruct (edge_line l d d1 d' H i I) as (ti & LI). left. exists ti, (sa d i), (sb d i). split; [eapply nth_error_In; exact LI|].
    destruct D as [->| ->]; [left; apply pt_0|right; apply pt_1].
  Qed.
  (** A piece with length joins neighbours, *)
  Lemma piece_next i t a b : In i (d_edges d) -> In (t, (a, b)) (pieces_at d1 i) -> a <> b -> neighbours ls a b.
  Proof.
    intros I J NE. destruct (per_line l d d1 d' H i I) as (bs & ps & (S1 & S2 & S3 & S4) & N1 & HB & PC). rewrite PC in J. apply in_map_iff in J as ((x & y) & E & J).
    unfold piece in E. cbn [fst snd] in E. injection E as _ <- <-. destruct (S1 x y J) as ((X1 & X2) & X3 & X4 & X5 & _). destruct (edge_line l d d1 d' H i I) as (ti & LI).
    split; [auto|]. split; [|split; [|split]].
    - destruct X3 as [->|X3]; [apply end_node; auto|eapply break_node; eauto; now apply HB].
    - destruct X4 as [->|X4]; [apply end_node; auto|eapply break_node; eauto; now apply HB].
    - exists ti, (sa d i), (sb d i). csplit; [eapply nth_error_In; exact LI|exists x; split; [lra|reflexivity]|exists y; split; [lra|reflexivity]].
    - intros p Np O. apply (proj1 (on_piece p _ _ x y X1 X2)) in O as (z & Hz & ->).
      assert (D : (z <= x \/ y <= z)%R).
      { apply X5; [lra|]. destruct (node_break i (pt (sa d i) (sb d i) z) I Np) as [D|[D|D]]; [exists z; split; [lra|reflexivity]|left|right; left|right; right; now apply HB].
        - apply (pt_inj _ _ _ _ N1). now rewrite pt_0.
        - apply (pt_inj _ _ _ _ N1). now rewrite pt_1. }
      destruct D; [left|right]; f_equal; lra.
  Qed.
  (** and neighbours are joined by a piece, this way round or the other. *)
  Lemma next_piece a b : neighbours ls a b -> exists i t, In i (d_edges d) /\ (In (t, (a, b)) (pieces_at d1 i) \/ In (t, (b, a)) (pieces_at d1 i)).
  Proof.
    intros (NE & Na & Nb & (t & s & q & K & Oa & Ob) & F). apply (line_in l d d1 d' H) in K as (i & I & E).
    assert (EA : sa d i = s) by (unfold sa; now rewrite E). assert (EB : sb d i = q) by (unfold sb; now rewrite E). subst s q.
    assert (Z : forall u v, (0 <= u <= 1)%R -> (0 <= v <= 1)%R -> (u < v)%R -> node ls (pt (sa d i) (sb d i) u) -> node ls (pt (sa d i) (sb d i) v) ->
      (forall p, node ls p -> on_segment p (pt (sa d i) (sb d i) u) (pt (sa d i) (sb d i) v) -> p = pt (sa d i) (sb d i) u \/ p = pt (sa d i) (sb d i) v) ->
      exists t, In (t, (pt (sa d i) (sb d i) u, pt (sa d i) (sb d i) v)) (pieces_at d1 i)).
    { intros u v U V UV Nu Nv G. destruct (per_line l d d1 d' H i I) as (bs & ps & (S1 & S2 & S3 & S4) & N1 & HB & PC).
      destruct (S2 ((u + v) / 2)%R ltac:(lra)) as (x & y & J & XY). destruct (S1 x y J) as ((X1 & X2) & X3 & X4 & X5 & _).
      assert (C : forall w, (0 <= w <= 1)%R -> node ls (pt (sa d i) (sb d i) w) -> (w <= x \/ y <= w)%R).
      { intros w W Nw. apply X5; auto. destruct (node_break i (pt (sa d i) (sb d i) w) I Nw) as [D|[D|D]]; [exists w; split; [lra|reflexivity]|left|right; left|right; right; now apply HB].
        - apply (pt_inj _ _ _ _ N1). now rewrite pt_0.
        - apply (pt_inj _ _ _ _ N1). now rewrite pt_1. }
      assert (Nx : node ls (pt (sa d i) (sb d i) x)) by (destruct X3 as [->|X3]; [apply end_node; auto|eapply break_node; eauto; now apply HB]).
      assert (Ny : node ls (pt (sa d i) (sb d i) y)) by (destruct X4 as [->|X4]; [apply end_node; auto|eapply break_node; eauto; now apply HB]).
      assert (G' : forall w, (u <= w <= v)%R -> node ls (pt (sa d i) (sb d i) w) -> w = u \/ w = v).
      { intros w W Nw. destruct (G _ Nw) as [D|D]; [apply (on_piece _ _ _ u v); [lra|lra|]; exists w; auto|left|right]; now apply (pt_inj _ _ _ _ N1). }
      destruct (C u U Nu) as [Cu|Cu]; [|lra]. destruct (C v V Nv) as [Cv|Cv]; [lra|].
      assert (x = u) by (destruct (G' x ltac:(lra) Nx); lra). assert (y = v) by (destruct (G' y ltac:(lra) Ny); lra). subst x y.
      eexists. rewrite PC. apply in_map_iff. exists (u, v). split; [reflexivity|exact J]. }
    destruct Oa as (u & U & ->), Ob as (v & V & ->). destruct (Rtotal_order u v) as [L|[->|L]]; [|congruence|].
    - destruct (Z u v U V L Na Nb F) as (t' & K). exists i, t'. auto.
    - destruct (Z v u V U L Nb Na) as (t' & K); [|exists i, t'; auto]. intros p Np O. destruct (F p Np (on_flip _ _ _ O)); auto.
  Qed.
  Lemma drawn_next a b : a <> b -> (exists e t, half_from d' e t a b) <-> neighbours ls a b.
  Proof.
    intros NE. split.
    - intros (e & t & K). destruct (proj1 (final_in l d d1 d' H t a b) (ex_intro _ e K)) as (i & I & [D|(_ & t' & D)]); [eapply piece_next; eauto|apply neighbours_sym; eapply piece_next; eauto].
    - intros K. destruct (next_piece a b K) as (i & t & I & [D|D]).
      + destruct (proj2 (final_in l d d1 d' H t a b)) as (e & E); [exists i; auto|]. eauto.
      + destruct (proj2 (final_in l d d1 d' H (type_after subject l) a b)) as (e & E); [exists i; split; auto; right; split; eauto|]. eauto.
  Qed.
  Lemma drawn_once e e' t t' a b : a <> b -> half_from d' e t a b -> half_from d' e' t' a b -> e = e'.
  Proof.
    intros NE K K'. destruct (Nat.eq_dec e e') as [E|E]; auto. exfalso. pose proof (drawn_apart l d d1 d' H NL e e' t a b t' a b (pt a b (1 / 2)%R) E K K') as A.
    assert (O : on_segment (pt a b (1 / 2)%R) a b) by (exists (1 / 2)%R; split; [lra|reflexivity]). destruct (A O O) as [(D & _)|(-> & _)]; [|congruence].
    destruct (end_param a b _ NE D); lra.
  Qed.
End Next.
Lemma C61_next_lemma en l d d' : (forall l, Permutation (de_order en l) l) -> Forall dcall_fin l ->
  dcalls_run dcel0 l = Ok d -> dcel_process en d = Ok d' -> no_lap (lines_given subject l) ->
  forall a b, a <> b -> (neighbours (lines_given subject l) a b -> exists e, (exists t, half_from d' e t a b) /\ forall e', (exists t, half_from d' e' t a b) -> e' = e) /\
    ((exists e t, half_from d' e t a b) -> neighbours (lines_given subject l) a b).
Proof.
  intros PO FI HC HP NL a b NE. destruct (lay_parts en l d d' PO FI HC HP) as (d1 & D). split.
  - intros K. apply (drawn_next l d d1 d' D NL a b NE) in K as (e & t & K). exists e. split; [eauto|]. intros e' (t' & K'). eapply drawn_once; eauto.
  - apply (drawn_next l d d1 d' D NL a b NE).
Qed.

(** *** The same lines *)
Lemma same_sym ls ls' : same_lines ls ls' -> same_lines ls' ls.
Proof. intros S a b. symmetry. apply S. Qed.
Lemma same_in ls ls' t a b : same_lines ls ls' -> In (t, (a, b)) ls -> exists t', In (t', (a, b)) ls' \/ In (t', (b, a)) ls'.
Proof. intros S I. apply S. eauto. Qed.
Lemma same_node ls ls' p : same_lines ls ls' -> node ls p -> node ls' p.
Proof.
  intros S [(t & a & b & I & D)|(t & a & b & t' & a' & b' & I & I' & NP & O & O')].
  - left. destruct (same_in _ _ _ _ _ S I) as (u & [J|J]); [exists u, a, b|exists u, b, a]; tauto.
  - right. destruct (same_in _ _ _ _ _ S I) as (u & J), (same_in _ _ _ _ _ S I') as (u' & J').
    destruct J as [J|J], J' as [J'|J']; [exists u, a, b, u', a', b'|exists u, a, b, u', b', a'|exists u, b, a, u', a', b'|exists u, b, a, u', b', a']; csplit; auto using on_flip;
    intros P; apply NP; unfold parallel in *; lra.
Qed.
Lemma same_next ls ls' a b : same_lines ls ls' -> neighbours ls a b -> neighbours ls' a b.
Proof.
  intros S (NE & A & B & (t & s & q & I & O & O') & F). split; [auto|]. split; [eauto using same_node|]. split; [eauto using same_node|]. split.
  - destruct (same_in _ _ _ _ _ S I) as (u & [J|J]); [exists u, s, q|exists u, q, s]; csplit; auto using on_flip.
  - intros p Np. apply F. eapply same_node; [apply same_sym; exact S|exact Np].
Qed.
Lemma C61_order_lemma en en' l l' d d' g g' : (forall l, Permutation (de_order en l) l) -> (forall l, Permutation (de_order en' l) l) -> Forall dcall_fin l -> Forall dcall_fin l' ->
  dcalls_run dcel0 l = Ok d -> dcel_process en d = Ok d' -> dcalls_run dcel0 l' = Ok g -> dcel_process en' g = Ok g' ->
  no_lap (lines_given subject l) -> no_lap (lines_given subject l') -> same_lines (lines_given subject l) (lines_given subject l') ->
  (forall p, (exists q, In q (d_points d') /\ p_at q = p) <-> exists q, In q (d_points g') /\ p_at q = p) /\
  forall a b, a <> b -> (exists e t, half_from d' e t a b) <-> exists e t, half_from g' e t a b.
Proof.
  intros PO PO' FI FI' HC HP HC' HP' NL NL' S. destruct (lay_parts en l d d' PO FI HC HP) as (d1 & D). destruct (lay_parts en' l' g g' PO' FI' HC' HP') as (g1 & G). split.
  - intros p. assert (Q : forall x : dcel R, (exists q, In q (d_points x) /\ p_at q = p) <-> In p (map p_at (d_points x))).
    { intros x. rewrite in_map_iff. split; intros (q & A & B); exists q; auto. }
    rewrite !Q, (drawn_points l d d1 d' D), (drawn_points l' g g1 g' G). split; apply same_node; auto using same_sym.
  - intros a b NE. rewrite (drawn_next l d d1 d' D NL a b NE), (drawn_next l' g g1 g' G NL' a b NE). split; apply same_next; auto using same_sym.
Qed.
