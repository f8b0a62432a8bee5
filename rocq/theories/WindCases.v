(** Concrete lists with their winding numbers. *)
From Coq Require Import ZArith Bool List Lia Floats.SpecFloat.
From Verif Require Import Outcome Num Order Rmath Segment Path ScanLine VState VPath VBreak VAel VOut VMain ClipSpec ClipCases AelSpec
  RunCases WindSpec VWind VKept VPairs.
Import ListNotations.
Local Open Scope out.

(** Deciding the predicates of WindSpec. *)
Section Decide.
  Context {T : Type} {N : Num T}.
  Implicit Types s : clipper T.
  Definition edge_type s (i : nat) : option (path_type * Z) :=
    match nth_error (edges s) i with
    | Some e => match nth_error (lmins s) (e_lmin e) with Some m => Some (lm_type m, e_dx e) | None => None end
    | None => None
    end.
  Lemma edge_type_ok s i t d : edge_type s i = Some (t, d) -> edge_is s i t d.
  Proof.
    unfold edge_type, edge_is. destruct (nth_error (edges s) i) as [e|]; [|discriminate].
    destruct (nth_error (lmins s) (e_lmin e)) as [m|] eqn:M; [|discriminate]. intros H. injection H as <- <-.
    exists e, m. auto.
  Qed.
  Fixpoint windb s t (l : list nat) : option Z :=
    match l with
    | [] => Some 0%Z
    | i :: r =>
      match edge_type s i, windb s t r with
      | Some (t', d), Some w => Some (if ptype_eqb t t' then (d + w)%Z else w)
      | _, _ => None
      end
    end.
  Lemma windb_ok s t l : forall w, windb s t l = Some w -> wind s t l w.
  Proof.
    induction l as [|i l IH]; simpl; intros w H; [injection H as <-; constructor|].
    destruct (edge_type s i) as [[t' d]|] eqn:E; [|discriminate]. destruct (windb s t l) as [v|]; [|discriminate].
    apply edge_type_ok in E. injection H as <-. destruct t, t'; simpl;
      try (apply wind_own; auto; fail); eapply wind_other; eauto.
  Qed.
  Definition directedb s (l : list nat) : bool :=
    forallb (fun i => match edge_type s i with Some (_, d) => Z.eqb d 1 || Z.eqb d (-1) | None => false end) l.
  Lemma directedb_ok s l : directedb s l = true -> directed s l.
  Proof.
    intros H i Hi. unfold directedb in H. rewrite forallb_forall in H. specialize (H i Hi).
    destruct (edge_type s i) as [[t d]|] eqn:E; [|discriminate]. exists t, d. split; [now apply edge_type_ok|].
    apply orb_prop in H as [H|H]; apply Z.eqb_eq in H; auto.
  Qed.
  Definition countedb fill s (l : list nat) (i : nat) : bool :=
    match nth_error (edges s) i, edge_type s i with
    | Some e, Some (t, d) =>
      match windb s t l, windb s (other t) l with
      | Some w, Some v =>
        match fill with
        | even_odd => Z.eqb (e_cnt e) d && Z.eqb (e_cnt2 e) (v mod 2)
        | _ => Z.eqb (e_cnt e) (deeper w (w + d)) && Z.eqb (e_cnt2 e) v
        end
      | _, _ => false
      end
    | _, _ => false
    end.
  Lemma countedb_ok fill s l i : countedb fill s l i = true -> counted fill s l i.
  Proof.
    unfold countedb. intros H e t d w v E I W V. rewrite E in H.
    destruct (edge_type s i) as [[t' d']|] eqn:ET; [|discriminate]. apply edge_type_ok in ET.
    destruct (edge_is_fun _ _ _ _ _ _ I ET) as [-> ->].
    destruct (windb s t l) as [w'|] eqn:W1; [|discriminate]. destruct (windb s (other t) l) as [v'|] eqn:V1; [|discriminate].
    apply windb_ok in W1, V1. rewrite (wind_fun _ _ _ _ W _ W1), (wind_fun _ _ _ _ V _ V1).
    destruct fill; apply andb_prop in H as [H1 H2]; apply Z.eqb_eq in H1, H2; auto.
  Qed.
  (** every edge of [r], with [l] and the rest of [r] to its left, satisfies [p] *)
  Fixpoint eachb (p : list nat -> nat -> bool) (l r : list nat) : bool :=
    match r with [] => true | i :: r => p l i && eachb p (l ++ [i]) r end.
  Lemma eachb_ok p r : forall l, eachb p l r = true -> forall r1 i r2, r = r1 ++ i :: r2 -> p (l ++ r1) i = true.
  Proof.
    induction r as [|j r IH]; simpl; intros l H r1 i r2 E; [now destruct r1|].
    apply andb_prop in H as [H1 H2]. destruct r1 as [|k r1]; simpl in E; injection E as <- ->.
    - now rewrite app_nil_r.
    - change (j :: r1) with ([j] ++ r1) in *. specialize (IH _ H2 r1 i r2 eq_refl). now rewrite <- app_assoc in IH.
  Qed.
  Lemma all_countedb_ok fill s l : eachb (countedb fill s) [] l = true -> all_counted fill s l.
  Proof. intros H l1 i l2 E. apply countedb_ok. exact (eachb_ok _ _ _ H _ _ _ E). Qed.
  (** counted, or at one of the changed x *)
  Definition dueb s (l : list nat) (i : nat) : bool :=
    countedb (cfill s) s l i ||
    match nth_error (edges s) i with
    | Some e => existsb (fun x => n_eqb (e_x e) x) (changes s)
    | None => false
    end.
  Lemma dueb_ok s l : eachb (dueb s) [] l = true ->
    forall l1 i l2 e, l = l1 ++ i :: l2 -> nth_error (edges s) i = Some e ->
      counted (cfill s) s l1 i \/ exists x, In x (changes s) /\ n_eqb (e_x e) x = true.
  Proof.
    intros H l1 i l2 e E F. pose proof (eachb_ok _ _ _ H _ _ _ E) as K. unfold dueb in K. rewrite F in K.
    apply orb_prop in K as [K|K]; [left; now apply countedb_ok|right].
    apply existsb_exists in K. exact K.
  Qed.
End Decide.

(** the edges of [l] kept by the code *)
Fixpoint keptl (s : clipper b64) (l : list nat) : option (list nat) :=
  match l with
  | [] => Some []
  | i :: r =>
    match nth_error (edges s) i, keptl s r with
    | Some e, Some k => match is_contributing s e with Ok b => Some (if b then i :: k else k) | _ => None end
    | _, _ => None
    end
  end.
Lemma keptl_ok s l : forall k, keptl s l = Some k -> kept s l k.
Proof.
  induction l as [|i l IH]; simpl; intros k H; [injection H as <-; constructor|].
  destruct (nth_error (edges s) i) as [e|] eqn:E; [|discriminate]. destruct (keptl s l) as [k'|]; [|discriminate].
  destruct (is_contributing s e) as [b| | |] eqn:B; try discriminate. injection H as <-.
  destruct b; [eapply kept_yes|eapply kept_no]; eauto.
Qed.

Section W26.
  Variable lm : libm.
  Let N := B64 lm.
  Existing Instance N.
  (** the boxes of [s24] at the second scan line *)
  Definition m26 := get clipper0 (insert_local_minima_to_ael (fst (w24 lm)) (snd (w24 lm))).
  Definition r26 := get clipper0 (recalc_windcnt m26).
  Definition u26 := get clipper0 (update_output_bound 1000 r26 (snd (w24 lm))).
  Lemma m26_ok : insert_local_minima_to_ael (fst (w24 lm)) (snd (w24 lm)) = Ok m26.
  Proof. vm_compute. reflexivity. Qed.
  Lemma r26_ok : recalc_windcnt m26 = Ok r26.
  Proof. vm_compute. reflexivity. Qed.
  Lemma u26_ok : update_output_bound 1000 r26 (snd (w24 lm)) = Ok u26.
  Proof. vm_compute. reflexivity. Qed.
  Lemma m26_list : activeb m26 [0; 2; 1; 3] = true /\ orderedb (edges m26) [0; 2; 1; 3] = true /\
    directedb m26 [0; 2; 1; 3] = true /\ xvalidb (edges m26) [0; 2; 1; 3] = true.
  Proof. repeat split; vm_compute; reflexivity. Qed.
  Lemma m26_changes : forallb validb (changes m26) = true /\ eachb (dueb m26) [] [0; 2; 1; 3] = true /\
    eachb (countedb positive m26) [] [0; 2; 1; 3] = false.
  Proof. repeat split; vm_compute; reflexivity. Qed.
  Lemma r26_list : activeb r26 [0; 2; 1; 3] = true /\ orderedb (edges r26) [0; 2; 1; 3] = true /\
    directedb r26 [0; 2; 1; 3] = true /\ xvalidb (edges r26) [0; 2; 1; 3] = true /\
    eachb (countedb positive r26) [] [0; 2; 1; 3] = true.
  Proof. repeat split; vm_compute; reflexivity. Qed.
  Lemma r26_op : cop r26 = op_intersection /\ cfill r26 = positive.
  Proof. split; vm_compute; reflexivity. Qed.
  Lemma u26_dxs : map ob_dx (bounds r26) = [] /\ map ob_dx (bounds u26) = [1; -1]%Z.
  Proof. split; vm_compute; reflexivity. Qed.
  Lemma r26_kept : keptl r26 [0; 2; 1; 3] = Some [2; 1].
  Proof. vm_compute. reflexivity. Qed.
  Lemma r26_wind : windb r26 subject [0; 2] = Some 1%Z /\ windb r26 clip [0; 2] = Some 1%Z.
  Proof. split; vm_compute; reflexivity. Qed.
End W26.
Lemma C26_case_lemma (lm : libm) : let N := B64 lm in
  exists s y m l s', seen env0 1000 (s24 lm) op_intersection positive s y /\ insert_local_minima_to_ael s y = Ok m /\
    length l = 4 /\ active m l /\ directed m l /\ ordered (edges m) l /\ xvalid (edges m) l /\ Forall nvalid (changes m) /\
    (forall l1 i l2 e, l = l1 ++ i :: l2 -> nth_error (edges m) i = Some e ->
       counted (cfill m) m l1 i \/ exists x, In x (changes m) /\ n_eqb (e_x e) x = true) /\
    recalc_windcnt m = Ok s'.
Proof.
  intros N. exists (fst (w24 lm)), (snd (w24 lm)), (m26 lm), [0; 2; 1; 3], (r26 lm).
  destruct (m26_list lm) as (B1 & B2 & B3 & B4). destruct (m26_changes lm) as (C1 & C2 & _).
  split; [exact (w24_seen lm)|]. split; [exact (m26_ok lm)|]. split; [reflexivity|].
  split; [exact (activeb_ok _ _ B1)|]. split; [exact (directedb_ok _ _ B3)|].
  split; [exact (proj1 (orderedb_ok _ _) B2)|]. split; [exact (xvalidb_ok lm _ _ B4)|].
  split; [|split; [exact (dueb_ok _ _ C2)|exact (r26_ok lm)]].
  rewrite forallb_forall in C1. apply Forall_forall. intros x Hx. specialize (C1 x Hx). clear Hx. intros E. rewrite E in C1. discriminate C1.
Qed.
Lemma C28_case_lemma (lm : libm) : let N := B64 lm in
  exists (s : clipper b64) l y s', cop s = op_intersection /\ cfill s = positive /\ length l = 4 /\
    active s l /\ directed s l /\ ordered (edges s) l /\ xvalid (edges s) l /\ all_counted (cfill s) s l /\
    update_output_bound 1000 s y = Ok s' /\ map ob_dx (bounds s) = [] /\ map ob_dx (bounds s') = [1; -1]%Z.
Proof.
  intros N. exists (r26 lm), [0; 2; 1; 3], (snd (w24 lm)), (u26 lm).
  destruct (r26_list lm) as (B1 & B2 & B3 & B4 & B5). destruct (r26_op lm) as [O1 O2]. destruct (u26_dxs lm) as [U1 U2].
  split; [exact O1|]. split; [exact O2|]. split; [reflexivity|].
  split; [exact (activeb_ok _ _ B1)|]. split; [exact (directedb_ok _ _ B3)|].
  split; [exact (proj1 (orderedb_ok _ _) B2)|]. split; [exact (xvalidb_ok lm _ _ B4)|].
  split; [rewrite O2; exact (all_countedb_ok _ _ _ B5)|]. split; [exact (u26_ok lm)|]. split; [exact U1|exact U2].
Qed.

(** a count of 0 is never right *)
Lemma zero_not_counted {T} fill (s : clipper T) l1 i l2 e : directed s (l1 ++ i :: l2) -> nth_error (edges s) i = Some e ->
  e_cnt e = 0%Z -> (match fill with even_odd => false | _ => true end) = true -> ~ counted fill s l1 i.
Proof.
  intros D E K F C. apply directed_app in D as [D1 D2].
  destruct (D2 i (or_introl eq_refl)) as (t & d & I & Dd).
  destruct (wind_ex s t l1 D1) as [w W]. destruct (wind_ex s (other t) l1 D1) as [v V].
  pose proof (C e t d w v E I W V) as C1. rewrite K in C1.
  assert (C2 : 0%Z = deeper w (w + d)) by (destruct fill; [discriminate|apply C1..]).
  revert C2. unfold deeper. destruct (Z.abs w <? Z.abs (w + d))%Z eqn:Q; [apply Z.ltb_lt in Q|apply Z.ltb_ge in Q]; lia.
Qed.

(** The active edge list of [s25] out of order: an edge is not counted at all. *)
Section W26r.
  Variable lm : libm.
  Let N := B64 lm.
  Existing Instance N.
  Definition r25 := get clipper0 (recalc_windcnt (m25 lm)).
  Lemma r25_ok : recalc_windcnt (m25 lm) = Ok r25.
  Proof. vm_compute. reflexivity. Qed.
  Lemma r25_list : activeb r25 [0; 1; 3; 2] = true /\ directedb r25 [0; 1; 3; 2] = true.
  Proof. split; vm_compute; reflexivity. Qed.
  Lemma r25_count : option_map e_cnt (nth_error (edges r25) 3) = Some 0%Z.
  Proof. vm_compute. reflexivity. Qed.
  Lemma r25_fill : cfill r25 = negative.
  Proof. vm_compute. reflexivity. Qed.
End W26r.
Lemma C26_refuted_lemma : forall lm : libm, let N := B64 lm in
  exists s s1 y s2 s3 l1 i l2 e, loaded s /\ seen env0 1000 s op_union negative s1 y /\
    insert_local_minima_to_ael s1 y = Ok s2 /\ recalc_windcnt s2 = Ok s3 /\
    active s3 (l1 ++ i :: l2) /\ directed s3 (l1 ++ i :: l2) /\ nth_error (edges s3) i = Some e /\ e_cnt e = 0%Z /\
    ~ counted (cfill s3) s3 l1 i.
Proof.
  intros lm N. destruct (nth_error (edges (r25 lm)) 3) as [e|] eqn:E.
  2:{ pose proof (r25_count lm) as K. rewrite E in K. discriminate. }
  exists (s25 lm), (fst (w25 lm)), (snd (w25 lm)), (m25 lm), (r25 lm), [0; 1], 3, [2], e.
  destruct (r25_list lm) as [B1 B2]. pose proof (r25_count lm) as K. rewrite E in K. simpl in K. injection K as K.
  split; [exact (load_loaded _ _ _ _ (s25_ok lm))|].
  split; [exact (walk_seen lm _ _ _ _ _ _ _ _ _ _ (first_line_seen lm _ _ _ _ _ _ _ (f25_ok lm)) (w25_ok lm))|].
  split; [exact (m25_ok lm)|]. split; [exact (r25_ok lm)|]. split; [exact (activeb_ok _ _ B1)|].
  split; [exact (directedb_ok _ _ B2)|]. split; [exact E|]. split; [exact K|].
  rewrite r25_fill. exact (zero_not_counted negative (r25 lm) [0; 1] 3 [2] e (directedb_ok _ _ B2) E K eq_refl).
Qed.

(** Two runs in which a pair of bounds goes the same way. *)
Section W28.
  Variable lm : libm.
  Let N := B64 lm.
  Existing Instance N.
  Definition s28 := get clipper0 (load lm [box 2 2 14 18] [box 7 1 12 9]).
  Definition f28 := get (clipper0, n_ofZ 0) (first_line lm env0 s28 op_difference positive).
  Definition w28 := get (clipper0, n_ofZ 0) (walk lm 1000 1 (fst f28) (snd f28)).
  Definition u28 := get clipper0 (scan_at 1000 (fst w28) (snd w28)).
  Lemma s28_ok : load lm [box 2 2 14 18] [box 7 1 12 9] = Ok s28.
  Proof. vm_compute. reflexivity. Qed.
  Lemma f28_ok : first_line lm env0 s28 op_difference positive = Ok (fst f28, snd f28).
  Proof. vm_compute. reflexivity. Qed.
  Lemma w28_ok : walk lm 1000 1 (fst f28) (snd f28) = Ok (fst w28, snd w28).
  Proof. vm_compute. reflexivity. Qed.
  Lemma u28_ok : scan_at 1000 (fst w28) (snd w28) = Ok u28.
  Proof. vm_compute. reflexivity. Qed.
  Lemma u28_dxs : map ob_dx (bounds (fst w28)) = [] /\ map ob_dx (bounds u28) = [1; 1; -1; -1]%Z.
  Proof. split; vm_compute; reflexivity. Qed.
  (** the second box drawn the other way round *)
  Definition C28 : list (Z * Z) := [(5, 15); (15, 15); (15, 5); (5, 5)]%Z.
  Definition s29 := get clipper0 (load lm [box 0 5 10 15] [C28]).
  Definition f29 := get (clipper0, n_ofZ 0) (first_line lm env0 s29 op_union non_zero).
  Definition u29 := get clipper0 (scan_at 1000 (fst f29) (snd f29)).
  Lemma s29_ok : load lm [box 0 5 10 15] [C28] = Ok s29.
  Proof. vm_compute. reflexivity. Qed.
  Lemma f29_ok : first_line lm env0 s29 op_union non_zero = Ok (fst f29, snd f29).
  Proof. vm_compute. reflexivity. Qed.
  Lemma u29_ok : scan_at 1000 (fst f29) (snd f29) = Ok u29.
  Proof. vm_compute. reflexivity. Qed.
  Lemma u29_dxs : map ob_dx (bounds (fst f29)) = [] /\ map ob_dx (bounds u29) = [1; 1]%Z.
  Proof. split; vm_compute; reflexivity. Qed.
End W28.
Lemma C28_difference_lemma : forall lm : libm, let N := B64 lm in
  exists s s1 y s2, load lm [box 2 2 14 18] [box 7 1 12 9] = Ok s /\ seen env0 1000 s op_difference positive s1 y /\
    scan_at 1000 s1 y = Ok s2 /\ map ob_dx (bounds s1) = [] /\ map ob_dx (bounds s2) = [1; 1; -1; -1]%Z.
Proof.
  intros lm N. exists (s28 lm), (fst (w28 lm)), (snd (w28 lm)), (u28 lm). destruct (u28_dxs lm) as [U1 U2].
  split; [exact (s28_ok lm)|].
  split; [exact (walk_seen lm _ _ _ _ _ _ _ _ _ _ (first_line_seen lm _ _ _ _ _ _ _ (f28_ok lm)) (w28_ok lm))|].
  split; [exact (u28_ok lm)|]. split; [exact U1|exact U2].
Qed.
Lemma C28_union_lemma : forall lm : libm, let N := B64 lm in
  exists s s1 y s2, load lm [box 0 5 10 15] [[(5, 15); (15, 15); (15, 5); (5, 5)]%Z] = Ok s /\
    seen env0 1000 s op_union non_zero s1 y /\
    scan_at 1000 s1 y = Ok s2 /\ map ob_dx (bounds s1) = [] /\ map ob_dx (bounds s2) = [1; 1]%Z.
Proof.
  intros lm N. exists (s29 lm), (fst (f29 lm)), (snd (f29 lm)), (u29 lm). destruct (u29_dxs lm) as [U1 U2].
  split; [exact (s29_ok lm)|].
  split; [exact (first_line_seen lm _ _ _ _ _ _ _ (f29_ok lm))|].
  split; [exact (u29_ok lm)|]. split; [exact U1|exact U2].
Qed.
Lemma C27_case_lemma (lm : libm) : let N := B64 lm in
  exists (s : clipper b64) l, active s l /\ directed s l /\ all_counted (cfill s) s l /\
    kept s l [2; 1] /\ l = [0; 2; 1; 3] /\ in_result (cop s) (cfill s) s [0; 2] true.
Proof.
  intros N. exists (r26 lm), [0; 2; 1; 3].
  destruct (r26_list lm) as (B1 & B2 & B3 & B4 & B5). destruct (r26_op lm) as [O1 O2].
  pose proof (directedb_ok _ _ B3) as D. pose proof (all_countedb_ok _ _ _ B5) as C.
  split; [exact (activeb_ok _ _ B1)|]. split; [exact D|]. split; [rewrite O2; exact C|].
  split; [exact (keptl_ok _ _ _ (r26_kept lm))|]. split; [reflexivity|].
  destruct (r26_wind lm) as [W1 W2]. rewrite O1, O2.
  exists 1%Z, 1%Z. split; [exact (windb_ok _ _ _ _ W1)|]. split; [exact (windb_ok _ _ _ _ W2)|reflexivity].
Qed.
