(** What becomes of the half edges: pieces, twins, and nothing else. *)
From Coq Require Import ZArith Bool List Permutation Sorted Lia.
From Verif Require Import Outcome Num Order Rmath RectSpec ScanLine VState VLemmas SortProofs.
From Verif Require Import Dcel DcelSpec DcelBase DcelBreak DcelFace DcelLink DcelSplit DcelUnique DcelProcess DcelLaySpec.
Import ListNotations.
Local Open Scope out.

Section Kept.
  Context {T : Type} {N : Num T}.
  Implicit Types d : dcel T.
  Definition tseg d (h : half T) : path_type * (vec2 T * vec2 T) := (h_type h, (coord d (h_start h), coord d (h_end h))).
  (** Ends and types of the half edges and the places of the points stay. *)
  Definition fixed (h : half T) := (h_start h, h_end h, h_type h).
  Definition kept d d' : Prop :=
    map p_at (d_points d') = map p_at (d_points d) /\ map (option_map fixed) (d_halves d') = map (option_map fixed) (d_halves d) /\
    d_edges d' = d_edges d /\ d_type d' = d_type d.
  Lemma kept_refl d : kept d d.
  Proof. unfold kept; auto. Qed.
  Lemma kept_trans d1 d2 d3 : kept d1 d2 -> kept d2 d3 -> kept d1 d3.
  Proof. intros (A & B & C & D) (E & F & G & H). unfold kept. csplit; congruence. Qed.
  Lemma hmod_kept d e f d' : (forall h, fixed (f h) = fixed h) -> hmod d e f = Ok d' -> kept d d'.
  Proof. intros F H. apply hmod_inv in H as (_ & ->). unfold kept; cbn. csplit; auto. apply map_upd_keep. intros [h|]; cbn; auto. now rewrite F. Qed.
  Lemma dpmod_kept d i f d' : (forall p, p_at (f p) = p_at p) -> dpmod d i f = Ok d' -> kept d d'.
  Proof. intros F H. apply dpmod_inv in H as (_ & ->). unfold kept; cbn. csplit; auto. now apply map_upd_keep. Qed.
  Variable en : denv.
  Lemma sort_points_kept l : forall d d', sort_points en d l = Ok d' -> kept d d'.
  Proof.
    induction l as [|i r IH]; cbn; intros d d' H; [injection H as <-; apply kept_refl|]. apply bind_ok in H as (d1 & H1 & H). eapply kept_trans; [|eapply IH; exact H].
    unfold sort_point in H1. apply bind_ok in H1 as (p & _ & H1). apply bind_ok in H1 as (v & _ & H1). eapply dpmod_kept; [|exact H1]. reflexivity.
  Qed.
  Lemma walk_kept f e st : forall fuel d c d', walk_face fuel d f e st c = Ok d' -> kept d d'.
  Proof.
    induction fuel as [|fuel IH]; cbn; intros d c d' H; [discriminate|]. apply bind_ok in H as (h & _ & H). destruct (h_next h); [injection H as <-; apply kept_refl|].
    apply bind_ok in H as (d1 & H1 & H). apply bind_ok in H as (p & _ & H). apply bind_ok in H as (o & _ & H). apply bind_ok in H as (d2 & H2 & H).
    apply bind_ok in H as (n & _ & H). apply bind_ok in H as (d3 & H3 & H). apply bind_ok in H as (hn & _ & H).
    apply hmod_kept in H1, H2, H3; try reflexivity. assert (K : kept d d3) by eauto using kept_trans.
    destruct (Nat.eqb (h_end hn) st); [|eapply kept_trans; [exact K|eapply IH; exact H]].
    apply bind_ok in H as (d4 & H4 & H). apply hmod_kept in H4, H; try reflexivity. eauto using kept_trans.
  Qed.
  Lemma link_faces_kept l : forall d d', link_faces d l = Ok d' -> kept d d'.
  Proof.
    induction l as [|e r IH]; cbn; intros d d' H; [injection H as <-; apply kept_refl|]. apply bind_ok in H as (d1 & H1 & H). eapply kept_trans; [|eapply IH; exact H].
    unfold start_face in H1. apply bind_ok in H1 as (h & _ & H1). destruct (h_next h); [injection H1 as <-; apply kept_refl|]. apply walk_kept in H1. exact H1.
  Qed.
  Lemma split_walk_kept st : forall fuel d c idx d' o, split_walk fuel d st c idx = Ok (d', o) -> kept d d'.
  Proof.
    induction fuel as [|fuel IH]; cbn; intros d c idx d' o H; [discriminate|]. apply bind_ok in H as (h & _ & H). destruct (idx_find (h_end h) idx) as [e1|].
    - apply bind_ok in H as (h1 & _ & H). apply bind_ok in H as (e2 & _ & H). apply bind_ok in H as (e4 & _ & H). apply bind_ok in H as (d1 & H1 & H). apply bind_ok in H as (d2 & H2 & H).
      apply bind_ok in H as (d3 & H3 & H). apply bind_ok in H as (d4 & H4 & H). injection H as <- _. apply hmod_kept in H1, H2, H3, H4; try reflexivity.
      eapply kept_trans; [exact H1|]. eapply kept_trans; [exact H2|]. eapply kept_trans; [exact H3|exact H4].
    - apply bind_ok in H as (n & _ & H). destruct (Nat.eqb n st); [injection H as <- _; apply kept_refl|eauto].
  Qed.
  Lemma split_faces_kept : forall fuel d old d', split_faces fuel d old = Ok d' -> kept d d'.
  Proof.
    induction fuel as [|fuel IH]; cbn; intros d old d' H; [discriminate|]. destruct old as [|f r]; [injection H as <-; apply kept_refl|].
    apply bind_ok in H as ((d1 & o) & H1 & H). unfold split_face in H1. apply bind_ok in H1 as (st & _ & H1). apply split_walk_kept in H1.
    eapply kept_trans; [exact H1|]. destruct o; apply IH in H; exact H.
  Qed.
  Lemma build_face_kept d d' : build_face en d = Ok d' -> kept d d'.
  Proof.
    unfold build_face. intros H. apply bind_ok in H as (d1 & H1 & H). apply bind_ok in H as (d2 & H2 & H).
    apply sort_points_kept in H1. apply link_faces_kept in H2. apply split_faces_kept in H. eapply kept_trans; [exact H1|]. eapply kept_trans; [exact H2|exact H].
  Qed.

  (** The half edges there are *)
  Definition seg_at d (e : nat) : path_type * (vec2 T * vec2 T) :=
    match nth_error (d_halves d) e with Some (Some h) => tseg d h | _ => (subject, (coord d 0, coord d 0)) end.
  Definition segs d := map (seg_at d) (d_edges d).
  Lemma seg_at_live d e h : live d e h -> seg_at d e = tseg d h.
  Proof. unfold seg_at, live. now intros ->. Qed.
  Lemma kept_at d d' : kept d d' -> forall e, seg_at d' e = seg_at d e.
  Proof.
    intros (A & B & C & _) e. pose proof (f_equal (fun l => nth_error l e) B) as K. cbn in K. rewrite !nth_error_map in K.
    unfold seg_at. destruct (nth_error (d_halves d') e) as [[h'|]|], (nth_error (d_halves d) e) as [[h|]|]; cbn in K; try discriminate; unfold tseg; rewrite ?(coord_map d d' A); auto.
    injection K as -> -> ->. reflexivity.
  Qed.
  Lemma kept_segs d d' : kept d d' -> segs d' = segs d.
  Proof. intros K. unfold segs. destruct (K) as (_ & _ & -> & _). apply map_ext, kept_at, K. Qed.
  Lemma half_from_seg d e t a b : wf d -> half_from d e t a b <-> In e (d_edges d) /\ seg_at d e = (t, (a, b)).
  Proof.
    intros ((R1 & R2 & R3) & _). split.
    - intros (h & p & q & L & <- & P & Q & <- & <-). split; [apply R2; eauto|]. rewrite (seg_at_live d e h L). unfold tseg, coord. now rewrite P, Q.
    - intros [I E]. apply R2 in I as (h & L). rewrite (seg_at_live d e h L) in E. injection E as E1 E2 E3. destruct (R3 e h L) as (A & B).
      destruct (nth_some _ _ A) as (p & P). destruct (nth_some _ _ B) as (q & Q). exists h, p, q. unfold coord in E2, E3. rewrite P in E2. rewrite Q in E3. csplit; auto.
  Qed.

  (** Growing points *)
  Lemma grow_at d d' i : points_grow d d' -> i < length (d_points d) -> coord d' i = coord d i.
  Proof.
    intros (l & E) L. unfold coord. pose proof (f_equal (fun l => nth_error l i) E) as K. cbn in K.
    rewrite nth_error_app1 in K by (now rewrite map_length). rewrite !nth_error_map in K.
    destruct (nth_error (d_points d') i), (nth_error (d_points d) i); cbn in K; congruence.
  Qed.
  Lemma grow_tseg d d' e h : wf d -> points_grow d d' -> live d e h -> tseg d' h = tseg d h.
  Proof. intros ((_ & _ & R3) & _) G L. destruct (R3 e h L). unfold tseg. now rewrite !(grow_at d d' _ G) by auto. Qed.

  (** Twins *)
  Definition flip (t : path_type) (x : path_type * (vec2 T * vec2 T)) := (t, (snd (snd x), fst (snd x))).
  Lemma build_twin_segs d e h d' : wf d -> live d e h -> build_twin d e = Ok d' ->
    wf d' /\ d_edges d' = d_edges d ++ [length (d_halves d)] /\ d_type d' = d_type d /\ (forall i x, live d i x -> seg_at d' i = seg_at d i /\ exists x', live d' i x') /\
    seg_at d' (length (d_halves d)) = flip (d_type d) (seg_at d e) /\ map p_at (d_points d') = map p_at (d_points d).
  Proof.
    intros W L H. pose proof W as ((R1 & R2 & R3) & _). destruct (R3 e h L) as (Ls & Le). unfold build_twin in H. rewrite (proj2 (half_at_ok d e h) L) in H. cbn [bind] in H.
    destruct (new_line_run d _ _ W Le Ls) as (d1 & R & W1 & C1 & C2 & C3 & C4 & C5 & _ & C6). rewrite R in H. cbn [bind] in H.
    apply bind_ok in H as (d2 & H2 & H).
    assert (K : kept d1 d') by (eapply kept_trans; [eapply hmod_kept; [|exact H2]; reflexivity|]; eapply hmod_kept; [|exact H]; reflexivity).
    pose proof (kept_at _ _ K) as S.
    csplit.
    - apply hmod_inv in H2 as (_ & ->). apply hmod_inv in H as (_ & ->). apply wf_upd; [auto|]. apply wf_upd; auto.
    - destruct K as (_ & _ & -> & _). exact C2.
    - destruct K as (_ & _ & _ & ->). exact C5.
    - intros i x Li. split.
      + rewrite S. unfold seg_at. rewrite C1. pose proof (nth_lt _ _ _ Li). rewrite nth_error_app1 by auto. rewrite Li. unfold tseg. now rewrite !(coord_map d d1 C6).
      + destruct K as (_ & B & _). pose proof (f_equal (fun l => nth_error l i) B) as K. cbn beta in K. rewrite !nth_error_map in K. rewrite C1 in K.
        rewrite nth_error_app1 in K by (eapply nth_lt; exact Li). rewrite Li in K. cbn in K. unfold live. destruct (nth_error (d_halves d') i) as [[x'|]|]; try discriminate. eauto.
    - rewrite S. unfold seg_at. rewrite C1, nth_snoc_last. rewrite L. unfold tseg, flip. cbn. now rewrite !(coord_map d d1 C6).
    - destruct K as (-> & _). exact C6.
  Qed.
  Lemma build_twins_segs l : forall d d', wf d -> (forall e, In e l -> In e (d_edges d)) -> build_twins_of d l = Ok d' ->
    wf d' /\ segs d' = segs d ++ map (fun e => flip (d_type d) (seg_at d e)) l /\ map p_at (d_points d') = map p_at (d_points d) /\ d_type d' = d_type d.
  Proof.
    induction l as [|e r IH]; cbn; intros d d' W I H; [injection H as <-; rewrite app_nil_r; auto|]. apply bind_ok in H as (d1 & H1 & H).
    pose proof W as ((R1 & R2 & R3) & _). destruct (proj1 (R2 e) (I e (or_introl eq_refl))) as (h & L).
    destruct (build_twin_segs d e h d1 W L H1) as (W1 & E1 & E2 & E3 & E4 & E5).
    destruct (IH d1 d' W1) as (W' & S & P & TY); auto.
    { intros i Hi. rewrite E1. apply in_or_app. left. apply I. now right. }
    csplit; auto; try congruence. rewrite S. unfold segs at 1. rewrite E1, map_app, <- app_assoc. cbn. rewrite E4. f_equal.
    - unfold segs. apply map_ext_in. intros i Hi. apply R2 in Hi as (x & Lx). now apply (E3 i x).
    - f_equal. rewrite E2. apply map_ext_in. intros i Hi. f_equal. destruct (proj1 (R2 i) (I i (or_intror Hi))) as (x & Lx). now apply (E3 i x).
  Qed.
End Kept.
