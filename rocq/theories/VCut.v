(** Breaking segments keeps the rings. *)
From Coq Require Import ZArith Bool List Lia.
From Verif Require Import Outcome Num Order Rmath Segment Path PathSpec VState VPath VBreak VLemmas AelSpec VAelProofs VAelRun
  SortProofs RingSpec BreakSpec MarkProofs VRing VBuild VAdd.
Import ListNotations.
Local Open Scope out.

Section VCut.
  Context {T : Type} {N : Num T}.
  Implicit Types vs : list (vertex T).
  Implicit Types s : clipper T.

  Definition trail vs (L : list nat) (gs : list (seg T)) : Prop :=
    match L with [] => gs = [] | x :: l => strand vs x l gs end.
  Lemma ring_trail vs l gs : ring vs l gs <-> l <> [] /\ NoDup l /\ trail vs (l ++ [hd 0 l]) gs.
  Proof. destruct l as [|i r]; simpl; [tauto|]. split; [|tauto]. intros [A B]. csplit; auto. discriminate. Qed.
  Lemma trail_app vs a x c ga gc : length ga = length a ->
    trail vs (a ++ x :: c) (ga ++ gc) <-> trail vs (a ++ [x]) ga /\ trail vs (x :: c) gc.
  Proof.
    intros L. destruct a as [|y a].
    - destruct ga; [|discriminate]. simpl. tauto.
    - cbn [app trail]. replace (a ++ x :: c) with ((a ++ [x]) ++ c) by (now rewrite <- app_assoc).
      rewrite strand_app by (rewrite app_length; simpl in *; lia). now rewrite last_last.
  Qed.
  Lemma trail_frame vs vs' L gs : (forall i, In i (removelast L) -> out_eq vs vs' i) ->
    (forall i, In i (tl L) -> in_eq vs vs' i) -> trail vs L gs -> trail vs' L gs.
  Proof. destruct L as [|x l]; auto. apply strand_frame. Qed.
  Lemma trail_len vs x l gs : trail vs (x :: l) gs -> length l = length gs.
  Proof. apply strand_len. Qed.

  (** Same point and flags *)
  Definition stays (v w : vertex T) : Prop := v_pt w = v_pt v /\ v_min w = v_min v /\ v_max w = v_max v.

  Lemma chain_run gs : forall s c vc, nth_error (verts s) c = Some vc ->
    exists vs' c', let n := length (verts s) in
      chain s c gs = Ok (w_verts s vs', c') /\ c' = last (seq n (length gs)) c /\ length vs' = n + length gs /\
      strand vs' c (seq n (length gs)) gs /\ (forall i, i < n -> i <> c -> nth_error vs' i = nth_error (verts s) i) /\
      (forall i w, n <= i -> nth_error vs' i = Some w -> plain w) /\
      exists wc, nth_error vs' c = Some wc /\ stays vc wc /\ v_prev wc = v_prev vc.
  Proof.
    induction gs as [|g gs IH]; intros s c vc C.
    - exists (verts s), c. cbn. csplit; auto.
      + now destruct s.
      + intros i w Hi W. apply nth_lt in W. lia.
      + exists vc. unfold stays. auto.
    - cbn [chain]. unfold new_vertex. set (n := length (verts s)). set (vs1 := verts s ++ [vertex0]).
      assert (Cn : c < n) by now apply nth_lt in C.
      assert (C1 : nth_error vs1 c = Some vc) by (unfold vs1; rewrite nth_error_app1; auto).
      assert (N1 : nth_error vs1 n = Some vertex0) by apply nth_snoc_last.
      rewrite (set_segment_run (w_verts s vs1) c n g vc vertex0 C1 N1). cbn [bind verts w_verts].
      destruct (set_segment_vs vs1 c n g vc vertex0 C1 N1) as (L2 & LK & OT & OE & IE & PLN).
      assert (E2c : nth_error (upd (upd vs1 c (fun v => set_vseg (Some g) (set_vnext (Some n) v))) n
        (fun v => Vertex (seg_target g) (v_seg v) (v_next v) (Some c) false false)) c = Some (set_vseg (Some g) (set_vnext (Some n) vc))).
      { rewrite nth_upd_other by lia. rewrite nth_upd, Nat.eqb_refl, C1. reflexivity. }
      assert (E2n : exists vn, nth_error (upd (upd vs1 c (fun v => set_vseg (Some g) (set_vnext (Some n) v))) n
        (fun v => Vertex (seg_target g) (v_seg v) (v_next v) (Some c) false false)) n = Some vn /\ plain vn /\ v_pt vn = seg_target g /\ v_prev vn = Some c).
      { eexists. split; [rewrite nth_upd, Nat.eqb_refl, nth_upd_other, N1 by lia; reflexivity|]. split; [split; reflexivity|]. auto. }
      set (vs2 := upd (upd vs1 _ _) _ _) in *. clearbody vs2. destruct E2n as (vn & E2n & PLn & PTn & PRn).
      assert (L1 : length vs1 = S n) by (unfold vs1; rewrite app_length; simpl; unfold n; lia).
      destruct (IH (w_verts s vs2) n vn E2n) as (vs' & c' & H). cbn [verts w_verts] in H. rewrite L2, L1 in H.
      destruct H as (E & EC & L3 & S3 & OT3 & PL3 & wn & Wn & W1 & W2).
      change (w_verts (w_verts s vs1) vs2) with (w_verts s vs2). change (w_verts (w_verts s vs2) vs') with (w_verts s vs') in E.
      exists vs', c'. cbn [length seq]. csplit; auto; try lia.
      + rewrite EC. now rewrite last_cons.
      + cbn [strand]. split; auto.
        destruct W1 as [W1 _]. exists (set_vseg (Some g) (set_vnext (Some n) vc)), wn. csplit; auto; try congruence.
        rewrite OT3; auto; lia.
      + intros i Hi NE. rewrite OT3 by lia. rewrite OT by lia. unfold vs1. now rewrite nth_error_app1.
      + intros i w Hi W. destruct (Nat.eq_dec i n) as [->|NE]; [|apply (PL3 i w); auto; lia].
        rewrite Wn in W. injection W as <-.
        destruct W1 as (_ & K1 & K2). destruct PLn. split; congruence.
      + exists (set_vseg (Some g) (set_vnext (Some n) vc)). csplit; [rewrite OT3; auto; lia| |reflexivity]. unfold stays. auto.
  Qed.

  Lemma relink_run s st e gs (fin : vec2 T -> seg T) g ve :
    link (verts s) st e g -> st <> e -> nth_error (verts s) e = Some ve -> (forall p, seg_target (fin p) = p) ->
    exists vs', let n := length (verts s) in
      relink s st gs fin = Ok (w_verts s vs') /\ length vs' = n + length gs /\
      strand vs' st (seq n (length gs) ++ [e]) (gs ++ [fin (v_pt ve)]) /\
      (forall i, i < n -> i <> st -> out_eq (verts s) vs' i) /\ (forall i, i < n -> i <> e -> in_eq (verts s) vs' i) /\
      (forall i w, n <= i -> nth_error vs' i = Some w -> plain w) /\
      (forall i v, nth_error (verts s) i = Some v -> exists w, nth_error vs' i = Some w /\ stays v w).
  Proof.
    intros (vst & ve0 & V1 & V2 & V3 & V4 & V5 & V6) NE VE FT. rewrite VE in V2. injection V2 as <-.
    destruct (chain_run gs s st vst V1) as (vs1 & c & E & EC & L1 & S1 & OT1 & PL1 & wst & W1 & W2 & W3).
    pose proof (nth_lt _ _ _ V1) as Lst. pose proof (nth_lt _ _ _ VE) as Le. set (n := length (verts s)) in *.
    assert (Cin : In c (st :: seq n (length gs))) by (rewrite EC; apply last_in).
    assert (Cs : exists vc, nth_error vs1 c = Some vc).
    { apply nth_some. rewrite L1. destruct Cin as [<-|Cin]; [lia|]. apply in_seq in Cin. lia. }
    destruct Cs as (vc & Vc).
    assert (Ce : c <> e) by (destruct Cin as [<-|Cin]; auto; apply in_seq in Cin; lia).
    assert (E1 : nth_error vs1 e = Some ve) by (rewrite OT1; auto).
    set (h := fin (v_pt ve)).
    set (vs2 := upd (upd vs1 c (fun v => set_vseg (Some h) (set_vnext (Some e) v))) e
        (fun v => Vertex (seg_target h) (v_seg v) (v_next v) (Some c) false false)).
    set (vs' := upd vs2 e (fun v => set_vmax (v_max ve) (set_vmin (v_min ve) v))).
    assert (A1 : forall i, i <> c -> i <> e -> nth_error vs' i = nth_error vs1 i).
    { intros i I1 I2. unfold vs', vs2. rewrite !nth_upd_other; auto. }
    assert (A2 : nth_error vs' c = Some (set_vseg (Some h) (set_vnext (Some e) vc))).
    { unfold vs', vs2. rewrite nth_upd_other, nth_upd_other, nth_upd, Nat.eqb_refl, Vc by auto. reflexivity. }
    assert (A3 : nth_error vs' e = Some (Vertex (v_pt ve) (v_seg ve) (v_next ve) (Some c) (v_max ve) (v_min ve))).
    { unfold vs', vs2. rewrite nth_upd, Nat.eqb_refl, nth_upd, Nat.eqb_refl, nth_upd_other, E1 by auto. cbn.
      unfold h. now rewrite FT. }
    assert (A4 : length vs' = n + length gs) by (unfold vs', vs2; rewrite !length_upd; auto).
    assert (RUN : relink s st gs fin = Ok (w_verts s vs')).
    { unfold relink. rewrite (proj2 (at_ok _ _ _) V1). cbn [bind]. rewrite V3. cbn [bind deref of_opt].
      rewrite E. cbn [bind verts w_verts]. rewrite (proj2 (at_ok _ _ _) E1). cbn [bind]. fold h.
      rewrite (set_segment_run (w_verts s vs1) c e h vc ve Vc E1). cbn [bind verts w_verts]. fold vs2.
      assert (K : exists v2, nth_error vs2 e = Some v2).
      { unfold vs2. rewrite nth_upd, Nat.eqb_refl, nth_upd_other, E1 by auto. eexists; reflexivity. }
      destruct K as (v2 & K). rewrite (vmod_run _ _ _ v2) by exact K. reflexivity. }
    clearbody vs'. clear vs2.
    assert (OE : forall i, i <> c -> out_eq vs1 vs' i).
    { intros i I1 v V. destruct (Nat.eq_dec i e) as [->|I2].
      - rewrite E1 in V. injection V as <-. eexists. split; [exact A3|]. auto.
      - exists v. rewrite A1; auto. }
    assert (IE : forall i, i <> e -> in_eq vs1 vs' i).
    { intros i I1 v V. destruct (Nat.eq_dec i c) as [->|I2].
      - rewrite Vc in V. injection V as <-. eexists. split; [exact A2|]. auto.
      - exists v. rewrite A1; auto. }
    exists vs'. cbv zeta. csplit; auto.
    - apply strand_app; [now rewrite seq_length|]. split.
      + apply (strand_frame vs1); auto.
        * intros i Hi. apply OE. intros ->.
          assert (ND : NoDup (st :: seq n (length gs))) by (constructor; [rewrite in_seq; lia|apply seq_NoDup]).
          rewrite (app_removelast_last st (l := st :: seq n (length gs))) in ND by discriminate.
          rewrite last_cons in ND. rewrite <- EC in ND. apply NoDup_remove_2 in ND. apply ND. now rewrite app_nil_r.
        * intros i Hi. apply IE. apply in_seq in Hi. lia.
      + rewrite <- EC. cbn [strand]. split; auto. eexists _, _. split; [exact A2|]. split; [exact A3|]. cbn.
        csplit; auto. unfold h. now rewrite FT.
    - intros i Hi NS v V. destruct (Nat.eq_dec i c) as [->|NC].
      + destruct Cin as [Cin|Cin]; [congruence|]. apply in_seq in Cin. lia.
      + apply (OE i NC). rewrite OT1; auto.
    - intros i Hi NS v V. destruct (Nat.eq_dec i st) as [->|NC].
      + rewrite V1 in V. injection V as <-. destruct (IE st NE _ W1) as (w & B1 & B2 & B3). destruct W2 as (B4 & _). exists w. csplit; congruence.
      + apply (IE i NS). rewrite OT1; auto.
    - intros i w Hi W. destruct (Nat.eq_dec i c) as [->|NC].
      + rewrite A2 in W. injection W as <-. apply (PL1 c vc); auto.
      + rewrite A1 in W by lia. apply (PL1 i w); auto.
    - intros i v V. pose proof (nth_lt _ _ _ V) as Hi. fold n in Hi.
      destruct (Nat.eq_dec i e) as [->|N1].
      { rewrite VE in V. injection V as <-. eexists. split; [exact A3|]. unfold stays. auto. }
      assert (K : exists u, nth_error vs1 i = Some u /\ stays v u).
      { destruct (Nat.eq_dec i st) as [->|N2]; [rewrite V1 in V; injection V as <-; eauto|].
        exists v. rewrite OT1 by auto. unfold stays. auto. }
      destruct K as (u & U1 & U2). destruct (Nat.eq_dec i c) as [->|N3].
      + rewrite Vc in U1. injection U1 as <-. eexists. split; [exact A2|]. exact U2.
      + exists u. rewrite A1; auto.
  Qed.

  Lemma cubic_pieces_moved zs : forall (bs : list (break_info T)) t, length zs = S (length bs) ->
    exists gs l, cubic_pieces zs bs = Ok (gs, l) /\ moved zs bs t = gs ++ [SCubic (b1 l) (b2 l) t] /\ length gs = length bs.
  Proof.
    induction zs as [|z zs IH]; intros [|b bs] t L; try discriminate.
    - destruct zs; [|discriminate]. exists [], z. auto.
    - injection L as L. destruct (IH bs t L) as (gs & l & E & M & K). exists (SCubic (b1 z) (b2 z) (br_pt b) :: gs), l.
      cbn [cubic_pieces moved]. rewrite E. cbn [bind]. rewrite M. cbn. csplit; auto.
  Qed.
  Lemma bsplit_many_len (z : bezier T) ts : ts <> [] -> length (bsplit_many z ts) = S (length ts).
  Proof. destruct ts as [|t ts]; [congruence|]. intros _. apply split_loop_len. Qed.
  Lemma sort_len {A} (ltb : A -> A -> bool) l : length (sort_by ltb l) = length l.
  Proof. symmetry. apply Permutation.Permutation_length, sort_by_perm. Qed.

  Lemma break_vertex_run s st e h bs vst ve : link (verts s) st e h -> st <> e ->
    nth_error (verts s) st = Some vst -> nth_error (verts s) e = Some ve -> drawable h -> bs <> [] ->
    exists vs' k, let n := length (verts s) in
      break_vertex s st bs = Ok (w_verts s vs') /\ length vs' = n + k /\ length (cut (v_pt vst) h bs) = S k /\
      Forall drawable (cut (v_pt vst) h bs) /\
      strand vs' st (seq n k ++ [e]) (cut (v_pt vst) h bs) /\
      (forall i, i < n -> i <> st -> out_eq (verts s) vs' i) /\ (forall i, i < n -> i <> e -> in_eq (verts s) vs' i) /\
      (forall i w, n <= i -> nth_error vs' i = Some w -> plain w) /\
      (forall i v, nth_error (verts s) i = Some v -> exists w, nth_error vs' i = Some w /\ stays v w).
  Proof.
    intros LK NE VS VE D B. pose proof LK as (x & y & X & Y & _ & _ & SG & TG).
    rewrite VS in X. injection X as <-. rewrite VE in Y. injection Y as <-.
    unfold break_vertex. rewrite (proj2 (at_ok _ _ _) VS). cbn [bind]. rewrite SG. cbn [bind of_opt].
    destruct h as [q|q|a b q|c1 c2 q]; try contradiction; cbn [seg_target] in TG; cbn [cut].
    - destruct (relink_run s st e (map (fun b => SLine (br_pt b)) bs) SLine _ _ LK NE VE) as (vs' & E & R); [reflexivity|].
      rewrite TG in R. exists vs', (length bs). rewrite map_length in R. cbv zeta. rewrite app_length, map_length. simpl.
      split; [exact E|]. destruct R as (R1 & R). csplit; try tauto; [lia|].
      apply Forall_app. split; [|repeat constructor]. apply Forall_forall. intros g Hg. apply in_map_iff in Hg as (b & <- & _). exact I.
    - set (ss := sort_by _ bs).
      assert (LS : length (bsplit_many (Bez (v_pt vst) c1 c2 q) (map br_t ss)) = S (length ss)).
      { rewrite bsplit_many_len, map_length; auto. unfold ss. intros K. apply map_eq_nil in K.
        apply (f_equal (@length _)) in K. rewrite sort_len in K. destruct bs; [congruence|discriminate]. }
      destruct (cubic_pieces_moved _ ss q LS) as (gs & l & E & M & K). unfold cubic_from. rewrite E. cbn [bind].
      destruct (relink_run s st e gs (fun p => SCubic (b1 l) (b2 l) p) _ _ LK NE VE) as (vs' & E' & R); [reflexivity|].
      rewrite TG in R. rewrite M. exists vs', (length gs). cbv zeta. rewrite app_length. simpl.
      split; [exact E'|]. destruct R as (R1 & R). csplit; try tauto; [lia|].
      rewrite <- M. clear. generalize (bsplit_many (Bez (v_pt vst) c1 c2 q) (map br_t ss)) as zs. intros zs. generalize ss. clear ss.
      induction zs as [|z zs IH]; intros [|b ss]; cbn [moved]; repeat constructor. apply IH.
  Qed.

  (** *** All contours *)
  Definition set_at {A} (f : nat -> A) (i : nat) (x : A) (j : nat) : A := if Nat.eqb j i then x else f j.
  Lemma set_at_same {A} (f : nat -> A) i x : set_at f i x i = x.
  Proof. unfold set_at. now rewrite Nat.eqb_refl. Qed.
  Lemma set_at_other {A} (f : nat -> A) i x j : j <> i -> set_at f i x j = f j.
  Proof. intros H. unfold set_at. apply Nat.eqb_neq in H. now rewrite H. Qed.
  Lemma flat_map_ext_in {A B} (f g : A -> list B) l : (forall x, In x l -> f x = g x) -> flat_map f l = flat_map g l.
  Proof. induction l as [|x l IH]; simpl; auto. intros H. rewrite H, IH; auto. Qed.

  Record broken vs0 (ls : list (list nat)) vs (news : nat -> list nat) (hsf : nat -> list (seg T)) : Prop := Broken {
    bk_ring : Forall (fun l => ring vs (with_new news l) (flat_map hsf l)) ls;
    bk_len : forall i, In i (concat ls) -> length (hsf i) = S (length (news i));
    bk_draw : forall i, In i (concat ls) -> Forall drawable (hsf i);
    bk_nodup : NoDup (concat (map (with_new news) ls));
    bk_new : forall i j, In j (news i) -> length vs0 <= j;
    bk_more : length vs0 <= length vs;
    bk_old : forall i v, nth_error vs0 i = Some v -> exists w, nth_error vs i = Some w /\ stays v w;
    bk_plain : forall i w, length vs0 <= i -> nth_error vs i = Some w -> plain w }.

  Lemma with_new_len news (hsf : nat -> list (seg T)) l : (forall i, In i l -> length (hsf i) = S (length (news i))) ->
    length (flat_map hsf l) = length (with_new news l).
  Proof. induction l as [|i l IH]; intros H; auto. change (with_new news (i :: l)) with ((i :: news i) ++ with_new news l). cbn [flat_map]. rewrite !app_length, (H i), IH; simpl; auto. intros j J. apply H. now right. Qed.
  Lemma with_new_in news l i : In i l -> In i (with_new news l).
  Proof. intros H. apply in_flat_map. exists i. simpl. auto. Qed.
  Lemma with_new_ge news l : length l <= length (with_new news l).
  Proof. induction l as [|i l IH]; auto. change (with_new news (i :: l)) with ((i :: news i) ++ with_new news l).
    rewrite app_length. simpl. lia. Qed.
  Lemma ring_lt vs l gs i : ring vs l gs -> In i l -> i < length vs.
  Proof. intros R I. destruct (ring_in_some _ _ _ _ R I) as (v & V). now apply nth_lt in V. Qed.

  Lemma splice vs vs' A st D GA h R cs fresh : forall e c, D ++ [hd 0 (A ++ st :: D)] = e :: c ->
    let n := length vs in
    ring vs (A ++ st :: D) (GA ++ h :: R) -> length GA = length A -> st <> e ->
    strand vs' st (fresh ++ [e]) cs -> length cs = S (length fresh) -> NoDup fresh -> (forall i, In i fresh -> n <= i) ->
    (forall i, i < n -> i <> st -> out_eq vs vs' i) -> (forall i, i < n -> i <> e -> in_eq vs vs' i) ->
    ring vs' (A ++ st :: fresh ++ D) (GA ++ cs ++ R).
  Proof.
    intros e c EC n RG LG NE SC LC NF FN OE IE.
    assert (LT : forall i, In i (A ++ st :: D) -> i < n) by (intros i; apply (ring_lt _ _ _ _ RG)).
    apply ring_trail in RG as (_ & ND & TR). apply ring_trail.
    assert (HD : hd 0 (A ++ st :: fresh ++ D) = hd 0 (A ++ st :: D)) by (destruct A; reflexivity).
    assert (HI : In (hd 0 (A ++ st :: D)) (A ++ [st])) by (destruct A; simpl; auto).
    rewrite HD. set (x := hd 0 (A ++ st :: D)) in *.
    rewrite <- app_assoc in TR. cbn [app] in TR. rewrite EC in TR. apply trail_app in TR as (T1 & T2); auto.
    cbn [trail strand] in T2. destruct T2 as [LK T2].
    destruct (nodup_mid _ _ _ ND) as (ND1 & NI & DJ).
    csplit.
    - destruct A; discriminate.
    - apply NoDup_remove_1 in ND as ND'. 
      assert (P : Permutation.Permutation (fresh ++ A ++ st :: D) (A ++ st :: fresh ++ D)).
      { rewrite Permutation.Permutation_app_comm, <- app_assoc. apply Permutation.Permutation_app_head. cbn.
        apply Permutation.perm_skip. apply Permutation.Permutation_app_comm. }
      apply (Permutation.Permutation_NoDup P). apply nodup_join; auto. intros i I1 I2. apply FN in I1. apply LT in I2. lia.
    - rewrite <- app_assoc. cbn [app]. rewrite <- app_assoc, EC. apply trail_app; auto. split.
      + apply (trail_frame vs); auto.
        * rewrite removelast_last. intros i Hi. apply OE; [apply LT; apply in_or_app; auto|]. intros ->. apply NI. apply in_or_app. auto.
        * intros i Hi. assert (IA : In i (A ++ [st])) by (destruct A; simpl in *; auto).
          apply IE.
          -- apply LT. apply in_or_app. apply in_app_or in IA as [IA|IA]; auto. right. simpl in *. tauto.
          -- intros ->. destruct D as [|d D].
             ++ injection EC as <- <-. unfold x in Hi. destruct A as [|y A]; [contradiction|]. cbn in Hi.
                apply in_app_or in Hi as [Hi|[Hi|[]]]; [|now apply NE].
                rewrite app_nil_r in ND1. now inversion ND1.
             ++ injection EC as <- _. apply in_app_or in IA as [IA|[->|[]]]; [apply (DJ d IA); now left|now apply NE].
      + cbn [trail]. replace (fresh ++ e :: c) with ((fresh ++ [e]) ++ c) by (now rewrite <- app_assoc).
        apply strand_app; [rewrite app_length; simpl; lia|]. split; auto. rewrite last_last.
        apply (strand_frame vs); auto.
        * rewrite <- EC, removelast_last. intros i Hi. apply OE; [apply LT; apply in_or_app; right; now right|].
          intros ->. apply NI. apply in_or_app; auto.
        * intros i Hi. destruct D as [|d D].
          -- injection EC as <- <-. contradiction.
          -- injection EC as <- <-. assert (XD : x <> d).
             { intros K. rewrite K in HI. apply in_app_or in HI as [HI|[HI|[]]]; [apply (DJ d HI); now left|congruence]. }
             apply IE.
             ++ apply LT. apply in_app_or in Hi as [Hi|[<-|[]]]; [apply in_or_app; right; right; now right|].
                apply in_or_app. apply in_app_or in HI as [HI|[HI|[]]]; auto. right. now left.
             ++ intros ->. apply in_app_or in Hi as [Hi|[Hi|[]]]; [|congruence].
                apply nodup_app_r in ND1. now inversion ND1.
  Qed.

  Lemma with_new_app news a b : with_new news (a ++ b) = with_new news a ++ with_new news b.
  Proof. apply flat_map_app. Qed.
  Lemma with_new_other news st x l : ~ In st l -> with_new (set_at news st x) l = with_new news l.
  Proof. intros H. apply flat_map_ext_in. intros i I. rewrite set_at_other; auto. intros ->. auto. Qed.
  Lemma hs_other (hsf : nat -> list (seg T)) st x l : ~ In st l -> flat_map (set_at hsf st x) l = flat_map hsf l.
  Proof. intros H. apply flat_map_ext_in. intros i I. rewrite set_at_other; auto. intros ->. auto. Qed.
  Lemma ring_frame vs vs' l gs : (forall i, In i l -> out_eq vs vs' i) -> (forall i, In i l -> in_eq vs vs' i) ->
    ring vs l gs -> ring vs' l gs.
  Proof.
    destruct l as [|i r]; auto. intros O I [ND S]. split; auto. apply (strand_frame vs); auto.
    - change (i :: r ++ [i]) with ((i :: r) ++ [i]). rewrite removelast_last. auto.
    - intros j J. apply I. apply in_app_or in J as [J|[->|[]]]; simpl; auto.
  Qed.
  Lemma broken_in vs0 ls vs news hsf i : broken vs0 ls vs news hsf -> In i (concat (map (with_new news) ls)) -> i < length vs.
  Proof.
    intros B H. apply in_concat in H as (l' & H1 & H2). apply in_map_iff in H1 as (l & <- & H1).
    pose proof (bk_ring _ _ _ _ _ B) as R. rewrite Forall_forall in R. apply (ring_lt _ _ _ _ (R l H1) H2).
  Qed.
  Lemma in_ring_in (ls : list (list nat)) l i : In l ls -> In i l -> In i (concat ls).
  Proof. intros A B. apply in_concat. eauto. Qed.
  Lemma nodup_olds news ls : NoDup (concat (map (with_new news) ls)) -> NoDup (concat ls).
  Proof.
    rewrite <- flat_map_concat_map. intros H.
    assert (E : flat_map (with_new news) ls = with_new news (concat ls)).
    { clear H. induction ls as [|l ls IH]; auto. cbn [flat_map concat]. now rewrite IH, with_new_app. }
    rewrite E in H. clear E. induction (concat ls) as [|i l IH]; [constructor|].
    change (with_new news (i :: l)) with (i :: news i ++ with_new news l) in H. inversion H as [|? ? H1 H2]; subst. constructor.
    - intros K. apply H1. apply in_or_app. right. now apply with_new_in.
    - apply IH. now apply nodup_app_r in H2.
  Qed.

  Lemma broken_step s vs0 ls news hsf st v0 bs : broken vs0 ls (verts s) news hsf ->
    Forall (fun l => 2 <= length l) ls -> In st (concat ls) -> nth_error vs0 st = Some v0 -> bs <> [] ->
    exists vs' fresh, break_vertex s st bs = Ok (w_verts s vs') /\
      broken vs0 ls vs' (set_at news st (fresh ++ news st)) (set_at hsf st (recut (v_pt v0) (hsf st) bs)).
  Proof.
    intros B TWO IN V0 NB. pose proof (bk_nodup _ _ _ _ _ B) as ND. pose proof (nodup_olds _ _ ND) as ND0.
    apply in_concat in IN as IN'. destruct IN' as (l0 & L1 & L2).
    apply in_split in L1 as (lA & lB & ->). apply in_split in L2 as (a & b & ->).
    pose proof (bk_ring _ _ _ _ _ B) as RG. apply Forall_app in RG as RG'. destruct RG' as [RA RG']. inversion RG' as [|? ? R0 RB]; subst.
    pose proof (bk_len _ _ _ _ _ B st IN) as LS. pose proof (bk_draw _ _ _ _ _ B st IN) as DS.
    destruct (hsf st) as [|h hs] eqn:HS; [discriminate|]. inversion DS as [|? ? Dh Dhs]; subst.
    rewrite with_new_app in R0. change (with_new news (st :: b)) with (st :: news st ++ with_new news b) in R0.
    rewrite flat_map_app in R0. cbn [flat_map] in R0. rewrite HS in R0.
    set (A := with_new news a) in *. set (D := news st ++ with_new news b) in *.
    change ((h :: hs) ++ flat_map hsf b) with (h :: hs ++ flat_map hsf b) in R0.
    assert (LA : length (flat_map hsf a) = length A).
    { apply with_new_len. intros i I. apply (bk_len _ _ _ _ _ B). rewrite concat_app. apply in_or_app. right.
      simpl. apply in_or_app. left. apply in_or_app. auto. }
    assert (T2 : 2 <= length (A ++ st :: D)).
    { rewrite Forall_forall in TWO. specialize (TWO (a ++ st :: b)). rewrite app_length in *. simpl in *.
      pose proof (with_new_ge news a). pose proof (with_new_ge news b). fold A in H. unfold D. rewrite app_length.
      assert (K : 2 <= length a + S (length b)) by (apply TWO; apply in_or_app; right; now left). lia. }
    assert (NDR : NoDup (A ++ st :: D)) by (apply ring_trail in R0; tauto).
    destruct (D ++ [hd 0 (A ++ st :: D)]) as [|e c] eqn:EC; [destruct D; discriminate|].
    assert (NE : st <> e).
    { intros <-. destruct D as [|d D'].
      - injection EC as EC _. destruct A as [|x A']; [simpl in T2; lia|]. cbn in EC. subst x.
        inversion NDR as [|? ? K _]; subst. apply K. apply in_or_app. right. now left.
      - injection EC as -> _. apply NoDup_remove_2 in NDR. apply NDR. apply in_or_app. right. now left. }
    assert (LK : link (verts s) st e h).
    { apply ring_trail in R0 as (_ & _ & TR). rewrite <- app_assoc in TR. cbn [app] in TR. rewrite EC in TR.
      apply trail_app in TR as (_ & TR & _); auto. }
    pose proof LK as (vst & ve & VS & VE & _).
    destruct (break_vertex_run s st e h bs vst ve LK NE VS VE Dh NB) as (vs' & k & E & L' & LC & DC & SC & OE & IE & PL & ST).
    destruct (bk_old _ _ _ _ _ B _ _ V0) as (w & W1 & W2 & _). rewrite VS in W1. injection W1 as <-. rewrite W2 in *.
    set (n := length (verts s)) in *. set (fresh := seq n k) in *. exists vs', fresh. split; auto.
    assert (HIE : In e (A ++ st :: D)).
    { destruct D as [|d D']; [|injection EC as -> _; apply in_or_app; right; right; now left].
      injection EC as EC _. rewrite <- EC. destruct A; simpl; auto. }
    assert (MID : concat (map (with_new news) (lA ++ (a ++ st :: b) :: lB)) =
      concat (map (with_new news) lA) ++ (A ++ st :: D) ++ concat (map (with_new news) lB)).
    { rewrite map_app, concat_app. cbn [map concat]. rewrite with_new_app. reflexivity. }
    rewrite MID in ND.
    assert (NIA : ~ In st (concat lA) /\ ~ In st a /\ ~ In st b /\ ~ In st (concat lB)).
    { rewrite concat_app in ND0. cbn [concat] in ND0. rewrite <- app_assoc, app_assoc in ND0. cbn [app] in ND0.
      apply NoDup_remove_2 in ND0. rewrite !in_app_iff in ND0. tauto. }
    destruct NIA as (N1 & N2 & N3 & N4).
    assert (OTH : forall l, In l lA \/ In l lB -> ~ In st l /\
      forall i, In i (with_new news l) -> i < n /\ i <> st /\ i <> e).
    { intros l Hl. assert (NS : ~ In st l) by (intros K; destruct Hl as [Hl|Hl]; [apply N1|apply N4]; eapply in_ring_in; eauto).
      split; auto. intros i Hi.
      assert (IC : In i (concat (map (with_new news) lA)) \/ In i (concat (map (with_new news) lB))).
      { destruct Hl as [Hl|Hl]; [left|right]; apply in_concat; exists (with_new news l); split; auto; now apply in_map. }
      assert (NI : ~ In i (A ++ st :: D)).
      { destruct IC as [IC|IC]; intros K.
        - apply in_split in IC as (u & v & EU). rewrite EU in ND. rewrite <- app_assoc in ND. cbn [app] in ND.
          apply NoDup_remove_2 in ND. apply ND. rewrite !in_app_iff. rewrite in_app_iff in K. tauto.
        - apply nodup_app_r in ND. apply in_split in IC as (u & v & EU). rewrite EU, app_assoc in ND.
          apply NoDup_remove_2 in ND. apply ND. rewrite !in_app_iff. rewrite in_app_iff in K. tauto. }
      split; [|split; intros ->; apply NI; auto; apply in_or_app; right; now left].
      apply (broken_in _ _ _ _ _ _ B). rewrite MID. rewrite !in_app_iff. tauto. }
    assert (FO : forall L, (forall l, In l L -> In l lA \/ In l lB) -> Forall (fun l => ring (verts s) (with_new news l) (flat_map hsf l)) L ->
      Forall (fun l => ring vs' (with_new (set_at news st (fresh ++ news st)) l) (flat_map (set_at hsf st (recut (v_pt v0) (h :: hs) bs)) l)) L).
    { intros L HL F. rewrite Forall_forall in *. intros l Hl. destruct (OTH l (HL l Hl)) as [O1 O2].
      rewrite with_new_other, hs_other by auto. apply (ring_frame (verts s)); auto.
      - intros i Hi. destruct (O2 i Hi) as (? & ? & ?). now apply OE.
      - intros i Hi. destruct (O2 i Hi) as (? & ? & ?). now apply IE. }
    assert (WN : with_new (set_at news st (fresh ++ news st)) (a ++ st :: b) = A ++ st :: fresh ++ D).
    { rewrite with_new_app. rewrite with_new_other by auto. f_equal.
      change (with_new (set_at news st (fresh ++ news st)) (st :: b))
        with ((st :: set_at news st (fresh ++ news st) st) ++ with_new (set_at news st (fresh ++ news st)) b).
      rewrite set_at_same, with_new_other by auto. unfold D. cbn [app]. now rewrite <- app_assoc. }
    assert (FL : flat_map (set_at hsf st (recut (v_pt v0) (h :: hs) bs)) (a ++ st :: b) =
      flat_map hsf a ++ cut (v_pt v0) h bs ++ hs ++ flat_map hsf b).
    { rewrite flat_map_app. cbn [flat_map]. rewrite set_at_same, !hs_other by auto. cbn [recut]. now rewrite <- app_assoc. }
    assert (R0' : ring vs' (A ++ st :: fresh ++ D) (flat_map hsf a ++ cut (v_pt v0) h bs ++ hs ++ flat_map hsf b)).
    { apply (splice (verts s) vs' A st D _ h _ _ fresh e c EC); auto.
      - unfold fresh. now rewrite seq_length.
      - apply seq_NoDup.
      - unfold fresh. intros i Hi. apply in_seq in Hi. fold n. lia. }
    constructor.
    - apply Forall_app. split; [apply FO; auto|]. constructor; [|apply FO; auto]. now rewrite WN, FL.
    - intros i Hi. unfold set_at. destruct (Nat.eqb_spec i st) as [->|]; [|apply (bk_len _ _ _ _ _ B i Hi)].
      cbn [recut]. rewrite !app_length, LC. unfold fresh. rewrite seq_length. simpl in LS. lia.
    - intros i Hi. unfold set_at. destruct (Nat.eqb_spec i st) as [->|]; [|apply (bk_draw _ _ _ _ _ B i Hi)].
      cbn [recut]. apply Forall_app. auto.
    - rewrite map_app, concat_app. cbn [map concat]. rewrite WN.
      assert (EA : forall L, (forall l, In l L -> In l lA \/ In l lB) -> map (with_new (set_at news st (fresh ++ news st))) L = map (with_new news) L).
      { intros L HL. apply map_ext_in. intros l Hl. apply with_new_other. apply (OTH l (HL l Hl)). }
      rewrite !EA by auto. set (X := concat (map (with_new news) lA)) in *. set (Y := concat (map (with_new news) lB)) in *.
      assert (P : Permutation.Permutation (fresh ++ X ++ (A ++ st :: D) ++ Y) (X ++ (A ++ st :: fresh ++ D) ++ Y)).
      { replace (X ++ (A ++ st :: fresh ++ D) ++ Y) with ((X ++ A ++ [st]) ++ fresh ++ D ++ Y) by (repeat (rewrite <- app_assoc || cbn [app]); reflexivity).
        replace (X ++ (A ++ st :: D) ++ Y) with ((X ++ A ++ [st]) ++ D ++ Y) by (repeat (rewrite <- app_assoc || cbn [app]); reflexivity).
        generalize (X ++ A ++ [st]) as Z. intros Z. rewrite (app_assoc fresh), (app_assoc Z fresh). apply Permutation.Permutation_app_tail. apply Permutation.Permutation_app_comm. }
      apply (Permutation.Permutation_NoDup P). apply nodup_join; auto; [apply seq_NoDup|].
      intros i I1 I2. unfold fresh in I1. apply in_seq in I1. assert (i < n); [|lia].
      apply (broken_in _ _ _ _ _ _ B). rewrite MID. exact I2.
    - intros i j. unfold set_at. destruct (Nat.eqb_spec i st) as [->|]; [|apply (bk_new _ _ _ _ _ B)].
      intros H. apply in_app_or in H as [H|H]; [|apply (bk_new _ _ _ _ _ B st j H)].
      apply in_seq in H. pose proof (bk_more _ _ _ _ _ B). fold n in H0. lia.
    - pose proof (bk_more _ _ _ _ _ B). fold n in H. lia.
    - intros i v V. destruct (bk_old _ _ _ _ _ B _ _ V) as (u & U1 & U2). destruct (ST _ _ U1) as (w & X1 & X2).
      exists w. split; auto. unfold stays in *. destruct U2 as (? & ? & ?). destruct X2 as (? & ? & ?). csplit; congruence.
    - intros i w Hi W. destruct (Nat.lt_ge_cases i n) as [Lt|Ge]; [|apply (PL i w); auto].
      destruct (nth_some _ _ Lt) as (u & U). pose proof (bk_plain _ _ _ _ _ B i u Hi U) as PU.
      destruct (ST _ _ U) as (x & X1 & _ & X2 & X3). rewrite W in X1. injection X1 as <-. unfold plain in *. destruct PU. split; congruence.
  Qed.
End VCut.
