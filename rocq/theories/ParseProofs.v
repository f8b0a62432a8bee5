(** Proofs about make_path. *)
From Coq Require Import ZArith Bool List Ascii Lia.
From Verif Require Import Outcome Num Rmath Path PathSpec PathProofs Parse ParseSpec.
Import ListNotations.
Local Open Scope list_scope.
Local Open Scope char_scope.

(* ---------------------------------------------------------------- *)
(** ** Characters *)

Ltac all_chars c := destruct c as [[] [] [] [] [] [] [] []].

Lemma is_space_spec c : is_space c = true <-> In c blank_chars.
Proof.
  split.
  - all_chars c; vm_compute; intros H; try discriminate H; tauto.
  - intros H. repeat (destruct H as [<-|H]; [reflexivity|]). destruct H.
Qed.

Lemma is_digit_spec c : is_digit c = true <-> In c digit_chars.
Proof.
  split.
  - all_chars c; vm_compute; intros H; try discriminate H; tauto.
  - intros H. repeat (destruct H as [<-|H]; [reflexivity|]). destruct H.
Qed.

Lemma is_space_false c : ~ In c blank_chars -> is_space c = false.
Proof. intros H. destruct (is_space c) eqn:E; auto. apply is_space_spec in E. contradiction. Qed.
Lemma is_digit_false c : ~ In c digit_chars -> is_digit c = false.
Proof. intros H. destruct (is_digit c) eqn:E; auto. apply is_digit_spec in E. contradiction. Qed.

(** The next character (if any) is not of class [f]. *)
Definition hd_not (f : ascii -> bool) (s : list ascii) : Prop :=
  match s with [] => True | c :: _ => f c = false end.

Lemma blank_cons c w : blank (c :: w) <-> In c blank_chars /\ blank w.
Proof.
  unfold blank; split.
  - intros H; split; [apply H; left; auto| intros d Hd; apply H; right; auto].
  - intros [H1 H2] d [<-|Hd]; auto.
Qed.
Lemma digits_cons c w : digits (c :: w) <-> In c digit_chars /\ digits w.
Proof.
  unfold digits; split.
  - intros H; split; [apply H; left; auto| intros d Hd; apply H; right; auto].
  - intros [H1 H2] d [<-|Hd]; auto.
Qed.
Lemma digits_nil : digits []. Proof. intros c []. Qed.
Lemma blank_nil : blank []. Proof. intros c []. Qed.

Lemma skip_app w r : blank w -> hd_not is_space r -> skip (w ++ r) = r.
Proof.
  induction w as [|c w IH]; intros Hw Hr.
  - destruct r as [|c r]; auto. cbn in *. rewrite Hr; auto.
  - apply blank_cons in Hw as [H1 H2]. cbn. apply is_space_spec in H1. rewrite H1. auto.
Qed.

Lemma skip_split s : exists w, blank w /\ s = w ++ skip s /\ hd_not is_space (skip s).
Proof.
  induction s as [|c s IH].
  - exists []; repeat split. apply blank_nil.
  - cbn. destruct (is_space c) eqn:E.
    + destruct IH as (w & H1 & H2 & H3). exists (c :: w). repeat split; auto.
      * apply blank_cons; split; auto. apply is_space_spec; auto.
      * cbn; f_equal; auto.
    + exists []; repeat split; auto. apply blank_nil.
Qed.

Lemma take_digits_app d r : digits d -> hd_not is_digit r -> take_digits (d ++ r) = (d, r).
Proof.
  induction d as [|c d IH]; intros Hd Hr.
  - destruct r as [|c r]; auto. cbn in *. rewrite Hr; auto.
  - apply digits_cons in Hd as [H1 H2]. cbn. apply is_digit_spec in H1. rewrite H1, IH; auto.
Qed.

Lemma take_digits_split s : forall d r, take_digits s = (d, r) ->
  s = d ++ r /\ digits d /\ hd_not is_digit r.
Proof.
  induction s as [|c s IH]; cbn; intros d r H.
  - inversion H; subst. repeat split. apply digits_nil.
  - destruct (is_digit c) eqn:E.
    + destruct (take_digits s) as [d' r'] eqn:E'. inversion H; subst.
      destruct (IH d' r eq_refl) as (H1 & H2 & H3). subst. repeat split; auto.
      apply digits_cons; split; auto. apply is_digit_spec; auto.
    + inversion H; subst. repeat split; auto. apply digits_nil.
Qed.

Lemma take_sign_split s neg r : take_sign s = (neg, r) ->
  exists sg, sign_text sg neg /\ s = sg ++ r.
Proof.
  destruct s as [|c s]; cbn; intros H.
  - inversion H; subst. exists []; split; auto. constructor.
  - destruct (Ascii.eqb_spec c "-").
    + inversion H; subst. exists ["-"]; split; auto. constructor.
    + destruct (Ascii.eqb_spec c "+").
      * inversion H; subst. exists ["+"]; split; auto. constructor.
      * inversion H; subst. exists []; split; auto. constructor.
Qed.

Definition is_sign (c : ascii) : bool := Ascii.eqb c "-" || Ascii.eqb c "+".

Lemma take_sign_app sg neg r : sign_text sg neg -> hd_not is_sign r ->
  take_sign (sg ++ r) = (neg, r).
Proof.
  intros H Hr. destruct H; cbn; auto.
  destruct r as [|c r]; auto. cbn in *. unfold is_sign in Hr.
  destruct (Ascii.eqb c "-"); [discriminate|]. destruct (Ascii.eqb c "+"); [discriminate|]. auto.
Qed.

Lemma digits_val_acc d : forall a,
  fold_left (fun a c => a * 10 + dig_val c)%Z d a = (a * 10 ^ Z.of_nat (length d) + dec_value d)%Z.
Proof.
  induction d as [|c d IH]; intros a.
  - cbn. lia.
  - cbn [fold_left]. rewrite IH. cbn [dec_value length].
    rewrite Nat2Z.inj_succ, Z.pow_succ_r by lia. unfold dig_val. ring.
Qed.
Lemma digits_val_spec d : digits_val d = dec_value d.
Proof. unfold digits_val. rewrite digits_val_acc. lia. Qed.

(* ---------------------------------------------------------------- *)
(** ** Lexer soundness: what is consumed is a number *)

Lemma take_exp_split s ex r : take_exp s = (ex, r) ->
  exists t, exp_text t ex /\ s = t ++ r.
Proof.
  destruct s as [|c s]; cbn [take_exp]; intros H.
  - inversion H; subst. exists []; split; auto; constructor.
  - destruct (Ascii.eqb c "e" || Ascii.eqb c "E") eqn:Ec.
    2: { inversion H; subst. exists []; split; auto; constructor. }
    destruct (take_sign s) as [neg s2] eqn:Es.
    destruct (take_digits s2) as [d s3] eqn:Ed.
    destruct d as [|c0 d].
    + inversion H; subst. exists []; split; auto; constructor.
    + destruct (int_range _) eqn:Er.
      * injection H as <- <-.
        apply take_sign_split in Es as (sg & Hs & ->).
        apply take_digits_split in Ed as (-> & Hd & _).
        exists (c :: sg ++ c0 :: d); split.
        -- econstructor; eauto.
           ++ apply orb_true_iff in Ec as [E|E]; apply Ascii.eqb_eq in E; subst; cbn; auto.
           ++ discriminate.
           ++ rewrite digits_val_spec. reflexivity.
           ++ unfold int_range in Er. apply andb_true_iff in Er as [E1 E2].
              apply Z.leb_le in E1. apply Z.leb_le in E2. lia.
        -- cbn. rewrite <- app_assoc. reflexivity.
      * inversion H; subst. exists []; split; auto; constructor.
Qed.

Lemma eqb_or_in c a b : Ascii.eqb c a || Ascii.eqb c b = true -> In c [a; b].
Proof.
  intros H; apply orb_true_iff in H as [E|E]; apply Ascii.eqb_eq in E; subst; cbn; auto.
Qed.

Lemma after_paren_split s r : after_paren s = Some r ->
  exists k, ~ In ")" k /\ s = k ++ ")" :: r.
Proof.
  induction s as [|c s IH]; cbn; [discriminate|].
  destruct (Ascii.eqb_spec c ")").
  - intros H; inversion H; subst. exists []; split; auto.
  - intros H; apply IH in H as (k & H1 & ->). exists (c :: k); split; auto.
    intros [E|E]; auto.
Qed.

Lemma take_nan_split s r : take_nan s = Some r ->
  exists t, s = t ++ r /\
    exists a b c rest, t = a :: b :: c :: rest /\ In a ["n"; "N"] /\ In b ["a"; "A"] /\ In c ["n"; "N"] /\
       (rest = [] \/ exists k, ~ In ")" k /\ rest = "(" :: k ++ [")"]).
Proof.
  unfold take_nan. cbn [take_word].
  destruct s as [|a s]; [discriminate|].
  destruct (Ascii.eqb a "n" || Ascii.eqb a "N") eqn:Ea; [|discriminate].
  destruct s as [|b s]; [discriminate|].
  destruct (Ascii.eqb b "a" || Ascii.eqb b "A") eqn:Eb; [|discriminate].
  destruct s as [|c s]; [discriminate|].
  destruct (Ascii.eqb c "n" || Ascii.eqb c "N") eqn:Ec; [|discriminate].
  apply eqb_or_in in Ea. apply eqb_or_in in Eb. apply eqb_or_in in Ec.
  destruct s as [|e s].
  - intros H; inversion H; subst. exists [a; b; c]; split; auto.
    exists a, b, c, []; auto 10.
  - destruct (Ascii.eqb_spec e "(").
    + intros H; apply after_paren_split in H as (k & Hk & ->). subst.
      exists (a :: b :: c :: "(" :: k ++ [")"]); split.
      * cbn. rewrite <- app_assoc. reflexivity.
      * exists a, b, c, ("(" :: k ++ [")"]). repeat split; eauto.
    + intros H; inversion H; subst. exists [a; b; c]; split; auto.
      exists a, b, c, []; auto 10.
Qed.

Lemma take_inf_split s r : take_inf s = Some r ->
  exists t, s = t ++ r /\
    exists a b c rest, t = a :: b :: c :: rest /\ In a ["i"; "I"] /\ In b ["n"; "N"] /\ In c ["f"; "F"] /\
       (rest = [] \/ exists d e f g h, rest = [d; e; f; g; h] /\ In d ["i"; "I"] /\ In e ["n"; "N"] /\
          In f ["i"; "I"] /\ In g ["t"; "T"] /\ In h ["y"; "Y"]).
Proof.
  unfold take_inf.
  destruct (take_word ["i"; "n"; "f"] ["I"; "N"; "F"] s) as [s'|] eqn:E1; [|discriminate].
  cbn [take_word] in E1.
  destruct s as [|a s]; [discriminate|].
  destruct (Ascii.eqb a "i" || Ascii.eqb a "I") eqn:Ea; [|discriminate].
  destruct s as [|b s]; [discriminate|].
  destruct (Ascii.eqb b "n" || Ascii.eqb b "N") eqn:Eb; [|discriminate].
  destruct s as [|c s]; [discriminate|].
  destruct (Ascii.eqb c "f" || Ascii.eqb c "F") eqn:Ec; [|discriminate].
  apply eqb_or_in in Ea. apply eqb_or_in in Eb. apply eqb_or_in in Ec.
  inversion E1; subst s'; clear E1.
  assert (Dflt : r = s -> exists t, a :: b :: c :: s = t ++ r /\
    exists a b c rest, t = a :: b :: c :: rest /\ In a ["i"; "I"] /\ In b ["n"; "N"] /\ In c ["f"; "F"] /\
       (rest = [] \/ exists d e f g h, rest = [d; e; f; g; h] /\ In d ["i"; "I"] /\ In e ["n"; "N"] /\
          In f ["i"; "I"] /\ In g ["t"; "T"] /\ In h ["y"; "Y"])).
  { intros ->. exists [a; b; c]; split; auto. exists a, b, c, []; auto 10. }
  destruct (take_word _ _ s) as [s''|] eqn:E2.
  - cbn [take_word] in E2.
    destruct s as [|d s]; [discriminate|].
    destruct (Ascii.eqb d "i" || Ascii.eqb d "I") eqn:Ed; [|discriminate].
    destruct s as [|e s]; [discriminate|].
    destruct (Ascii.eqb e "n" || Ascii.eqb e "N") eqn:Ee; [|discriminate].
    destruct s as [|f s]; [discriminate|].
    destruct (Ascii.eqb f "i" || Ascii.eqb f "I") eqn:Ef; [|discriminate].
    destruct s as [|g s]; [discriminate|].
    destruct (Ascii.eqb g "t" || Ascii.eqb g "T") eqn:Eg; [|discriminate].
    destruct s as [|h s]; [discriminate|].
    destruct (Ascii.eqb h "y" || Ascii.eqb h "Y") eqn:Eh; [|discriminate].
    apply eqb_or_in in Ed. apply eqb_or_in in Ee. apply eqb_or_in in Ef.
    apply eqb_or_in in Eg. apply eqb_or_in in Eh.
    inversion E2; subst s''. intros H; inversion H; subst.
    exists [a; b; c; d; e; f; g; h]; split; auto.
    exists a, b, c, [d; e; f; g; h]. repeat split; auto.
    right. exists d, e, f, g, h; auto 10.
  - intros H; inversion H; subst. auto.
Qed.

Lemma lex_real_sound s l r : lex_real s = Some (l, r) ->
  exists t, real_text t l /\ s = t ++ r.
Proof.
  unfold lex_real.
  destruct (take_sign s) as [neg s1] eqn:Es.
  apply take_sign_split in Es as (sg & Hsg & ->).
  destruct (take_digits s1) as [ip s2] eqn:Ed.
  destruct ip as [|c0 ip].
  - clear Ed. destruct (take_nan s1) as [r'|] eqn:En.
    { intros H; inversion H; subst.
      apply take_nan_split in En as (t & -> & Ht).
      exists (sg ++ t); split; [|rewrite app_assoc; reflexivity].
      right. constructor; auto. }
    destruct (take_inf s1) as [r'|] eqn:Ei.
    { intros H; inversion H; subst.
      apply take_inf_split in Ei as (t & -> & Ht).
      exists (sg ++ t); split; [|rewrite app_assoc; reflexivity].
      right. constructor; auto. }
    destruct s1 as [|c s3]; [discriminate|].
    destruct (Ascii.eqb_spec c "."); [subst c|discriminate].
    destruct (take_digits s3) as [fp s4] eqn:Ef.
    apply take_digits_split in Ef as (-> & Hfp & _).
    destruct fp as [|f0 fp]; [discriminate|].
    destruct (take_exp s4) as [ex s5] eqn:Ee.
    apply take_exp_split in Ee as (et & Het & ->).
    intros H; inversion H; subst.
    exists (sg ++ [] ++ ("." :: f0 :: fp) ++ et); split.
    + left. econstructor; eauto.
      * apply digits_nil.
      * constructor; auto.
      * right; discriminate.
    + cbn [app]. rewrite <- !app_assoc. cbn. rewrite <- !app_assoc. reflexivity.
  - apply take_digits_split in Ed as (-> & Hip & _).
    assert (G : forall ft fp et ex s5, frac_text ft fp -> exp_text et ex ->
                s2 = ft ++ et ++ s5 ->
                exists t, real_text t (Dec neg (c0 :: ip) fp ex) /\
                          sg ++ (c0 :: ip) ++ s2 = t ++ s5).
    { intros ft fp et ex s5 Hf He ->.
      exists (sg ++ (c0 :: ip) ++ ft ++ et); split.
      - left. econstructor; eauto. left; discriminate.
      - rewrite <- !app_assoc. reflexivity. }
    destruct s2 as [|c s3].
    { intros H; inversion H; subst. apply (G [] [] []); constructor. }
    destruct (Ascii.eqb_spec c ".").
    + subst c. destruct (take_digits s3) as [fp s4] eqn:Ef.
      apply take_digits_split in Ef as (-> & Hfp & _).
      destruct (take_exp s4) as [ex s5] eqn:Ee.
      apply take_exp_split in Ee as (et & Het & ->).
      intros H; inversion H; subst.
      apply (G ("." :: fp) fp et ex r); auto. constructor; auto.
    + destruct (take_exp (c :: s3)) as [ex s5] eqn:Ee.
      apply take_exp_split in Ee as (et & Het & Heq).
      intros H; inversion H; subst.
      apply (G [] [] et ex r); auto. constructor.
Qed.

(* ---------------------------------------------------------------- *)
(** ** Lexer completeness on well separated numbers *)

(** Characters which may follow a number: blank or a command letter. *)
Definition stop_chars : list ascii := blank_chars ++ ["m"; "l"; "a"; "c"].
Definition stops (r : list ascii) : Prop :=
  match r with [] => True | c :: _ => In c stop_chars end.

Lemma stop_blank c : In c blank_chars -> In c stop_chars.
Proof. intros H. apply in_or_app; auto. Qed.
Lemma stop_letter c : In c ["m"; "l"; "a"; "c"] -> In c stop_chars.
Proof. intros H. apply in_or_app; auto. Qed.

Lemma stops_hd (f : ascii -> bool) r :
  (forall c, In c stop_chars -> f c = false) -> stops r -> hd_not f r.
Proof. intros H. destruct r; cbn; auto. Qed.

Lemma stop_not (f : ascii -> bool) :
  forallb (fun c => negb (f c)) stop_chars = true ->
  forall c, In c stop_chars -> f c = false.
Proof.
  intros H c Hc. rewrite forallb_forall in H. specialize (H c Hc).
  destruct (f c); auto.
Qed.

Lemma stops_digit r : stops r -> hd_not is_digit r.
Proof. apply stops_hd, stop_not; reflexivity. Qed.
Lemma stops_is (d : ascii) r : forallb (fun c => negb (Ascii.eqb c d)) stop_chars = true ->
  stops r -> hd_not (fun c => Ascii.eqb c d) r.
Proof. intros H. apply stops_hd, stop_not; auto. Qed.

Lemma digits_hd d r (f : ascii -> bool) : digits d ->
  forallb (fun c => negb (f c)) digit_chars = true -> d <> [] -> hd_not f (d ++ r).
Proof.
  intros Hd Hf Hn. destruct d as [|c d]; [congruence|]. cbn.
  apply digits_cons in Hd as [Hc _].
  rewrite forallb_forall in Hf. specialize (Hf c Hc). destruct (f c); auto.
Qed.

Lemma take_exp_none r : hd_not (fun c => Ascii.eqb c "e" || Ascii.eqb c "E") r ->
  take_exp r = (None, r).
Proof. destruct r as [|c r]; auto. cbn. intros ->; auto. Qed.

Lemma take_exp_app t ex r : exp_text t ex -> stops r -> take_exp (t ++ r) = (ex, r).
Proof.
  intros H Hr. destruct H as [|e sg neg d v He Hsg Hd Hnil Hv Hrange].
  - apply take_exp_none. revert Hr. apply stops_hd, stop_not; reflexivity.
  - cbn [take_exp app].
    assert (Ascii.eqb e "e" || Ascii.eqb e "E" = true) as ->.
    { destruct He as [<-|[<-|[]]]; reflexivity. }
    rewrite <- app_assoc.
    rewrite (take_sign_app sg neg); auto.
    2: { apply digits_hd; auto. }
    rewrite take_digits_app; auto using stops_digit.
    destruct d as [|c d]; [congruence|].
    rewrite digits_val_spec, <- Hv.
    assert (int_range v = true) as ->; auto.
    unfold int_range. apply andb_true_iff; split; apply Z.leb_le; lia.
Qed.

Lemma frac_exp_hd (f : ascii -> bool) ft fp et ex r :
  frac_text ft fp -> exp_text et ex -> stops r ->
  f "." = false -> f "e" = false -> f "E" = false ->
  forallb (fun c => negb (f c)) stop_chars = true ->
  hd_not f (ft ++ et ++ r).
Proof.
  intros Hf He Hr H1 H2 H3 H4.
  destruct Hf; cbn; auto.
  destruct He as [|e sg neg d v He ? ? ? ? ?]; cbn.
  - revert Hr; apply stops_hd, stop_not; auto.
  - destruct He as [<-|[<-|[]]]; auto.
Qed.

Lemma take_nan_none c s : Ascii.eqb c "n" || Ascii.eqb c "N" = false -> take_nan (c :: s) = None.
Proof. intros H. unfold take_nan. cbn [take_word]. rewrite H. reflexivity. Qed.
Lemma take_inf_none c s : Ascii.eqb c "i" || Ascii.eqb c "I" = false -> take_inf (c :: s) = None.
Proof. intros H. unfold take_inf. cbn [take_word]. rewrite H. reflexivity. Qed.

Lemma lex_real_number t l r : number_text t l -> stops r -> lex_real (t ++ r) = Some (l, r).
Proof.
  intros H Hr. destruct H as [sg neg ip ft fp et ex Hsg Hip Hft Hne Het].
  unfold lex_real. rewrite <- !app_assoc.
  rewrite (take_sign_app sg neg); auto.
  2: { destruct ip as [|c ip].
       - cbn. eapply frac_exp_hd; eauto.
       - apply digits_hd; auto; discriminate. }
  rewrite take_digits_app; auto.
  2: { eapply frac_exp_hd; eauto. }
  destruct ip as [|c ip].
  - destruct Hne as [?|Hne]; [congruence|].
    destruct Hft as [|d Hd]; [congruence|].
    cbn [app]. rewrite take_nan_none, take_inf_none by reflexivity. cbn [Ascii.eqb].
    change (Ascii.eqb "." ".") with true. cbn [Bool.eqb].
    rewrite take_digits_app; auto.
    2: { apply (frac_exp_hd is_digit [] [] et ex r); auto; constructor. }
    rewrite (take_exp_app et ex); auto.
    destruct d; [congruence|reflexivity].
  - destruct Hft as [|d Hd].
    + cbn [app]. destruct Het as [|e sg' neg' d v He ? ? ? ? ?].
      * cbn [app]. destruct r as [|x r]; [reflexivity|].
        assert (Ascii.eqb x "." = false) as ->.
        { apply (stops_is "." (x :: r)); auto. }
        rewrite take_exp_none; auto.
        revert Hr. apply (stops_hd _ (x :: r)), stop_not; reflexivity.
      * pose proof (take_exp_app (e :: sg' ++ d) (Some v) r) as HE.
        rewrite <- app_comm_cons in *.
        assert (Ascii.eqb e "." = false) as ->.
        { destruct He as [<-|[<-|[]]]; reflexivity. }
        rewrite HE; auto. econstructor; eauto.
    + cbn [app]. change (Ascii.eqb "." ".") with true. cbn iota.
      rewrite take_digits_app; auto.
      2: { apply (frac_exp_hd is_digit [] [] et ex r); auto; constructor. }
      rewrite (take_exp_app et ex); auto.
Qed.

Lemma after_paren_app k r : ~ In ")" k -> after_paren (k ++ ")" :: r) = Some r.
Proof.
  induction k as [|c k IH]; intros H; [reflexivity|]. cbn.
  destruct (Ascii.eqb_spec c ")").
  - exfalso; apply H; left; auto.
  - apply IH. intros E; apply H; right; auto.
Qed.

Lemma in2_eqb c a b : In c [a; b] -> Ascii.eqb c a || Ascii.eqb c b = true.
Proof. intros [<-|[<-|[]]]; rewrite Ascii.eqb_refl; auto using orb_true_r. Qed.

Lemma lex_real_special t l r : special_text t l -> stops r -> lex_real (t ++ r) = Some (l, r).
Proof.
  intros H Hr. destruct H as [sg neg w Hsg Hw|sg neg w Hsg Hw].
  - destruct Hw as (a & b & c & rest & -> & Ha & Hb & Hc & Hrest).
    unfold lex_real. rewrite <- !app_assoc.
    assert (Hd : is_digit a = false) by (destruct Ha as [<-|[<-|[]]]; reflexivity).
    rewrite (take_sign_app sg neg); auto.
    2: { destruct Ha as [<-|[<-|[]]]; reflexivity. }
    cbn [app take_digits]. rewrite Hd.
    assert (take_nan (a :: b :: c :: rest ++ r) = Some r) as ->; [|reflexivity].
    unfold take_nan. cbn [take_word].
    rewrite (in2_eqb _ _ _ Ha), (in2_eqb _ _ _ Hb), (in2_eqb _ _ _ Hc).
    destruct Hrest as [->|(k & Hk & ->)].
    + cbn [app]. destruct r as [|x r]; auto.
      assert (Ascii.eqb x "(" = false) as ->; auto.
      apply (stops_is "(" (x :: r)); auto.
    + cbn [app]. change (Ascii.eqb "(" "(") with true. cbn iota.
      rewrite <- app_assoc. cbn. apply after_paren_app; auto.
  - destruct Hw as (a & b & c & rest & -> & Ha & Hb & Hc & Hrest).
    unfold lex_real. rewrite <- !app_assoc.
    assert (Hd : is_digit a = false) by (destruct Ha as [<-|[<-|[]]]; reflexivity).
    rewrite (take_sign_app sg neg); auto.
    2: { destruct Ha as [<-|[<-|[]]]; reflexivity. }
    cbn [app take_digits]. rewrite Hd.
    rewrite take_nan_none by (destruct Ha as [<-|[<-|[]]]; reflexivity).
    assert (take_inf (a :: b :: c :: rest ++ r) = Some r) as ->; [|reflexivity].
    unfold take_inf. cbn [take_word].
    rewrite (in2_eqb _ _ _ Ha), (in2_eqb _ _ _ Hb), (in2_eqb _ _ _ Hc).
    destruct Hrest as [->|(d & e & f & g & h & -> & Hd' & He & Hf & Hg & Hh)].
    + cbn [app]. destruct r as [|x r]; auto.
      assert (Ascii.eqb x "i" || Ascii.eqb x "I" = false) as ->; auto.
      revert Hr. apply (stops_hd (fun x => Ascii.eqb x "i" || Ascii.eqb x "I") (x :: r)), stop_not; reflexivity.
    + cbn [app]. rewrite (in2_eqb _ _ _ Hd'), (in2_eqb _ _ _ He), (in2_eqb _ _ _ Hf),
        (in2_eqb _ _ _ Hg), (in2_eqb _ _ _ Hh). reflexivity.
Qed.

Lemma lex_real_complete t l r : real_text t l -> stops r -> lex_real (t ++ r) = Some (l, r).
Proof. intros [H|H]; auto using lex_real_number, lex_real_special. Qed.

Lemma real_text_hd t l r : real_text t l -> hd_not is_space (t ++ r).
Proof.
  assert (S : forall sg neg x, sign_text sg neg -> hd_not is_space x -> hd_not is_space (sg ++ x)).
  { intros sg neg x [] Hx; cbn; auto. }
  intros [H|H].
  - destruct H as [sg neg ip ft fp et ex Hsg Hip Hft Hne Het].
    rewrite <- !app_assoc. eapply S; eauto.
    destruct ip as [|c ip].
    + destruct Hne as [?|Hne]; [congruence|]. destruct Hft; [congruence|]. reflexivity.
    + apply digits_hd; auto; discriminate.
  - destruct H as [sg neg w Hsg Hw|sg neg w Hsg Hw];
      destruct Hw as (a & b & c & rest & -> & Ha & _); rewrite <- app_assoc;
      eapply S; eauto; destruct Ha as [<-|[<-|[]]]; reflexivity.
Qed.

Lemma real_text_nonempty t l : real_text t l -> t <> [].
Proof.
  intros H ->. pose proof (real_text_hd [] l [" "] H) as E. cbn in E. discriminate.
Qed.

(* ---------------------------------------------------------------- *)
(** ** The command parser *)

Section MP.
  Context {T : Type} {N : Num T}.
  Context (conv : literal -> option T).

  Lemma p_double_sound s v r : p_double conv s = Some (v, r) ->
    exists w t l, blank w /\ real_text t l /\ conv l = Some v /\ s = w ++ t ++ r.
  Proof.
    unfold p_double. destruct (lex_real (skip s)) as [[l r']|] eqn:E; [|discriminate].
    destruct (conv l) eqn:Ec; [|discriminate]. intros H; inversion H; subst.
    apply lex_real_sound in E as (t & Ht & Hs).
    destruct (skip_split s) as (w & Hw & Hs' & _).
    exists w, t, l. repeat split; auto. rewrite Hs' at 1. rewrite Hs. reflexivity.
  Qed.

  Lemma p_double_complete w t l v r : blank w -> real_text t l -> conv l = Some v -> stops r ->
    p_double conv (w ++ t ++ r) = Some (v, r).
  Proof.
    intros Hw Ht Hv Hr. unfold p_double.
    rewrite skip_app; eauto using real_text_hd.
    rewrite (lex_real_complete t l r); auto. rewrite Hv. reflexivity.
  Qed.

  Lemma p_point_sound s v r : p_point conv s = Some (v, r) ->
    exists t p, point_text blank t p /\ conv_point conv p = Some v /\ s = t ++ r.
  Proof.
    unfold p_point. destruct (p_double conv s) as [[x r1]|] eqn:E1; [|discriminate].
    destruct (p_double conv r1) as [[y r2]|] eqn:E2; [|discriminate].
    intros H; inversion H; subst.
    apply p_double_sound in E1 as (w0 & t0 & l0 & Hw0 & Ht0 & Hc0 & ->).
    apply p_double_sound in E2 as (w1 & t1 & l1 & Hw1 & Ht1 & Hc1 & ->).
    exists (w0 ++ t0 ++ w1 ++ t1), (l0, l1). split; [|split].
    - constructor; auto.
    - unfold conv_point; cbn. rewrite Hc0, Hc1. reflexivity.
    - rewrite <- !app_assoc. reflexivity.
  Qed.

  Lemma blank_stops w r : blank w -> w <> [] -> stops (w ++ r).
  Proof.
    intros Hw Hn. destruct w as [|c w]; [congruence|].
    apply blank_cons in Hw as [Hc _]. exact (stop_blank c Hc).
  Qed.

  (** Leading blanks may be added in front of a point. *)
  Lemma point_text_blank sep w t p : blank w -> point_text sep t p -> point_text sep (w ++ t) p.
  Proof.
    intros Hw H. destruct H. rewrite app_assoc. constructor; auto.
    intros c Hc. apply in_app_or in Hc as [Hc|Hc]; auto.
  Qed.

  Lemma p_point_complete t p v r : point_text spaced t p -> conv_point conv p = Some v ->
    stops r -> p_point conv (t ++ r) = Some (v, r).
  Proof.
    intros H Hv Hr. destruct H as [w0 t0 l0 w1 t1 l1 H0 Ht0 [H1 Hn1] Ht1].
    unfold conv_point in Hv; cbn in Hv.
    destruct (conv l0) as [x|] eqn:E0; [|discriminate].
    destruct (conv l1) as [y|] eqn:E1; [|discriminate]. inversion Hv; subst.
    unfold p_point. rewrite <- !app_assoc.
    rewrite (p_double_complete w0 t0 l0 x); auto using blank_stops.
    rewrite (p_double_complete w1 t1 l1 y); auto.
  Qed.

  Lemma p_char_sound c s r : p_char c s = Some r ->
    exists w, blank w /\ s = w ++ c :: r.
  Proof.
    unfold p_char. destruct (skip_split s) as (w & Hw & Hs & _).
    destruct (skip s) as [|x r'] eqn:E; [discriminate|].
    destruct (Ascii.eqb_spec x c); [|discriminate]. intros H; inversion H; subst.
    exists w; split; auto.
  Qed.

  Lemma p_char_complete c d w r : blank w -> is_space d = false ->
    p_char c (w ++ d :: r) = if Ascii.eqb d c then Some r else None.
  Proof. intros Hw Hd. unfold p_char. rewrite skip_app; auto. Qed.

  (** Effect of a call on the vector being built. *)
  Definition w_call (c : pcall T) (res : list (path T)) : outcome (list (path T)) :=
    match c with
    | PMove p => w_moveto p res
    | PLine p => w_lineto p res
    | PCubic a b e => w_cubicto a b e res
    end.
  Fixpoint w_calls (cs : list (pcall T)) (res : list (path T)) : outcome (list (path T)) :=
    match cs with
    | [] => Ok res
    | c :: cs => bind (w_call c res) (w_calls cs)
    end.

  Lemma w_calls_app a b res : w_calls (a ++ b) res = bind (w_calls a res) (w_calls b).
  Proof.
    revert res; induction a as [|c a IH]; intros res; auto.
    cbn. rewrite bind_assoc. destruct (w_call c res); cbn; auto.
  Qed.

  (** One command read from the front of the text. *)
  Lemma p_alt_sound s res s' o : p_alt conv s res = Some (s', o) ->
    exists t c calls, cmd_text blank t c /\ cmd_calls conv c = Some calls /\
      s = t ++ s' /\ o = w_calls calls res.
  Proof.
    unfold p_alt.
    assert (HM : forall x, p_move conv s res = Some x -> x = (s', o) ->
      exists t c calls, cmd_text blank t c /\ cmd_calls conv c = Some calls /\
        s = t ++ s' /\ o = w_calls calls res).
    { intros x E ->. unfold p_move in E.
      destruct (p_char "m" s) as [r|] eqn:Ec; [|discriminate].
      apply p_char_sound in Ec as (w & Hw & ->).
      destruct (p_point conv r) as [[p r']|] eqn:Ep; [|discriminate].
      apply p_point_sound in Ep as (t & lp & Ht & Hlp & ->).
      inversion E; subst.
      exists (w ++ "m" :: t), (CM lp), [PMove p]; repeat split.
      - constructor; auto.
      - cbn. rewrite Hlp; auto.
      - rewrite <- app_assoc. reflexivity.
      - cbn. destruct (w_moveto p res); reflexivity. }
    destruct (p_move conv s res) as [x|]; [intros E; inversion E; eapply HM; eauto|].
    clear HM.
    assert (HL : forall x, p_line conv s res = Some x -> x = (s', o) ->
      exists t c calls, cmd_text blank t c /\ cmd_calls conv c = Some calls /\
        s = t ++ s' /\ o = w_calls calls res).
    { intros x E ->. unfold p_line in E.
      destruct (p_char "l" s) as [r|] eqn:Ec; [|discriminate].
      apply p_char_sound in Ec as (w & Hw & ->).
      destruct (p_point conv r) as [[p r']|] eqn:Ep; [|discriminate].
      apply p_point_sound in Ep as (t & lp & Ht & Hlp & ->).
      inversion E; subst.
      exists (w ++ "l" :: t), (CL lp), [PLine p]; repeat split.
      - constructor; auto.
      - cbn. rewrite Hlp; auto.
      - rewrite <- app_assoc. reflexivity.
      - cbn. destruct (w_lineto p res); reflexivity. }
    destruct (p_line conv s res) as [x|]; [intros E; inversion E; eapply HL; eauto|].
    clear HL.
    assert (HA : forall x, p_arc conv s res = Some x -> x = (s', o) ->
      exists t c calls, cmd_text blank t c /\ cmd_calls conv c = Some calls /\
        s = t ++ s' /\ o = w_calls calls res).
    { intros x E ->. unfold p_arc in E.
      destruct (p_char "a" s) as [r|] eqn:Ec; [|discriminate].
      apply p_char_sound in Ec as (w & Hw & ->).
      destruct (p_point conv r) as [[p r1]|] eqn:Ep; [|discriminate].
      apply p_point_sound in Ep as (t & lp & Ht & Hlp & ->).
      destruct (p_point conv r1) as [[q r2]|] eqn:Eq; [|discriminate].
      apply p_point_sound in Eq as (t2 & lq & Ht2 & Hlq & ->).
      inversion E; subst.
      exists (w ++ "a" :: t ++ [] ++ t2), (CA lp lq), []; repeat split.
      - constructor; auto. apply blank_nil.
      - cbn. rewrite Hlp, Hlq; auto.
      - rewrite <- app_assoc. cbn. rewrite <- app_assoc. reflexivity. }
    destruct (p_arc conv s res) as [x|]; [intros E; inversion E; eapply HA; eauto|].
    clear HA. intros E. unfold p_cubic in E.
    destruct (p_char "c" s) as [r|] eqn:Ec; [|discriminate].
    apply p_char_sound in Ec as (w & Hw & ->).
    destruct (p_point conv r) as [[p r1]|] eqn:Ep; [|discriminate].
    apply p_point_sound in Ep as (t & lp & Ht & Hlp & ->).
    destruct (p_point conv r1) as [[q r2]|] eqn:Eq; [|discriminate].
    apply p_point_sound in Eq as (t2 & lq & Ht2 & Hlq & ->).
    destruct (p_point conv r2) as [[e r3]|] eqn:Ee; [|discriminate].
    apply p_point_sound in Ee as (t3 & le & Ht3 & Hle & ->).
    inversion E; subst.
    exists (w ++ "c" :: t ++ [] ++ t2 ++ [] ++ t3), (CC lp lq le), [PCubic p q e]; repeat split.
    - constructor; auto; apply blank_nil.
    - cbn. rewrite Hlp, Hlq, Hle; auto.
    - rewrite <- app_assoc. cbn. rewrite <- !app_assoc. reflexivity.
    - cbn. destruct (w_cubicto p q e res); reflexivity.
  Qed.

  Lemma cmd_text_len sep t c : cmd_text sep t c -> length t > 0.
  Proof. intros []; rewrite app_length; cbn; lia. Qed.

  Lemma p_alt_complete t c calls res r :
    cmd_text spaced t c -> cmd_calls conv c = Some calls -> stops r ->
    p_alt conv (t ++ r) res = Some (r, w_calls calls res).
  Proof.
    intros H Hc Hr.
    destruct H as [w t p Hw Hp|w t p Hw Hp|w t1 p w1 t2 q Hw Hp [H1 Hn1] Hq
                  |w t1 p w1 t2 q w2 t3 e Hw Hp [H1 Hn1] Hq [H2 Hn2] He]; cbn in Hc.
    - destruct (conv_point conv p) as [v|] eqn:Ev; [|discriminate]. inversion Hc; subst.
      unfold p_alt, p_move. rewrite <- app_assoc. cbn [app].
      rewrite p_char_complete by auto. cbn.
      rewrite (p_point_complete t p v r); auto.
      destruct (w_moveto v res); reflexivity.
    - destruct (conv_point conv p) as [v|] eqn:Ev; [|discriminate]. inversion Hc; subst.
      unfold p_alt, p_move, p_line. rewrite <- app_assoc. cbn [app].
      rewrite !p_char_complete by auto. cbn.
      rewrite (p_point_complete t p v r); auto.
      destruct (w_lineto v res); reflexivity.
    - destruct (conv_point conv p) as [v|] eqn:Ev; [|discriminate].
      destruct (conv_point conv q) as [v2|] eqn:Ev2; [|discriminate]. inversion Hc; subst.
      unfold p_alt, p_move, p_line, p_arc. rewrite <- app_assoc. cbn [app].
      rewrite !p_char_complete by auto. cbn.
      rewrite <- !app_assoc.
      rewrite (p_point_complete t1 p v); auto using blank_stops.
      rewrite app_assoc.
      rewrite (p_point_complete (w1 ++ t2) q v2 r); auto using point_text_blank.
    - destruct (conv_point conv p) as [v|] eqn:Ev; [|discriminate].
      destruct (conv_point conv q) as [v2|] eqn:Ev2; [|discriminate].
      destruct (conv_point conv e) as [v3|] eqn:Ev3; [|discriminate]. inversion Hc; subst.
      unfold p_alt, p_move, p_line, p_arc, p_cubic. rewrite <- app_assoc. cbn [app].
      rewrite !p_char_complete by auto. cbn.
      rewrite <- !app_assoc.
      rewrite (p_point_complete t1 p v); auto using blank_stops.
      rewrite app_assoc.
      rewrite (p_point_complete (w1 ++ t2) q v2); auto using point_text_blank, blank_stops.
      rewrite app_assoc.
      rewrite (p_point_complete (w2 ++ t3) e v3); auto using point_text_blank.
      destruct (w_cubicto v v2 v3 res); reflexivity.
  Qed.

  (** No alternative matches blanks only. *)
  Lemma p_alt_blank w res : blank w -> p_alt conv w res = None.
  Proof.
    intros Hw. pose proof (skip_app w [] Hw I) as E. rewrite app_nil_r in E.
    unfold p_alt, p_move, p_line, p_arc, p_cubic, p_char. rewrite E. reflexivity.
  Qed.

  Lemma cmd_stops sep t c r : cmd_text sep t c -> stops (t ++ r).
  Proof.
    intros H.
    assert (G : forall w d x, blank w -> In d ["m"; "l"; "a"; "c"] -> stops (w ++ d :: x)).
    { intros w d x Hw Hd. destruct w as [|c0 w].
      - exact (stop_letter d Hd).
      - apply blank_cons in Hw as [Hc _]. exact (stop_blank c0 Hc). }
    destruct H; rewrite <- app_assoc; cbn [app]; apply G; cbn; auto.
  Qed.

  (** Running the star over a well separated document followed by blanks. *)
  Lemma p_star_doc ts cs : doc_text spaced ts cs -> forall calls w fuel res,
    doc_calls conv cs = Some calls -> blank w -> length (ts ++ w) <= fuel ->
    p_star conv fuel (ts ++ w) res = w_calls calls res.
  Proof.
    induction 1 as [|t c ts cs Ht Hts IH]; intros calls w fuel res Hc Hw Hf.
    - cbn in Hc; inversion Hc; subst. cbn [app]. destruct fuel; cbn; rewrite p_alt_blank; auto.
    - cbn in Hc. destruct (cmd_calls conv c) as [a|] eqn:Ea; [|discriminate].
      destruct (doc_calls conv cs) as [b|] eqn:Eb; [|discriminate]. inversion Hc; subst.
      rewrite <- app_assoc in *.
      assert (Hst : stops (ts ++ w)).
      { destruct Hts as [|t' c' ts' cs' Ht' ?].
        - cbn [app]. destruct w as [|x w]; [exact I|]. apply blank_cons in Hw as [Hx _].
          exact (stop_blank x Hx).
        - rewrite <- app_assoc. eapply cmd_stops; eauto. }
      pose proof (p_alt_complete t c a res (ts ++ w) Ht Ea Hst) as HA.
      pose proof (cmd_text_len _ _ _ Ht) as HL.
      rewrite !app_length in *.
      destruct fuel as [|fuel]; [lia|]. cbn [p_star]. rewrite HA.
      rewrite w_calls_app. destruct (w_calls a res); cbn; auto.
      apply IH; auto. rewrite app_length. lia.
  Qed.

  Lemma w_calls_body body : Forall (fun c : pcall T => is_move c = false) body ->
    forall res p, w_calls body (res ++ [p]) = Ok (res ++ [fold_left do_call body p]).
  Proof.
    induction 1 as [|c body Hc Hb IH]; intros res p; [reflexivity|].
    cbn [w_calls fold_left].
    assert (w_call c (res ++ [p]) = Ok (res ++ [do_call p c])) as ->.
    { destruct c; [discriminate| |];
        cbn; unfold w_lineto, w_cubicto, upd_back; rewrite rev_app_distr; cbn;
        rewrite rev_involutive; reflexivity. }
    cbn. apply IH.
  Qed.

  Lemma w_calls_contours calls cts : contours calls cts -> forall res,
    w_calls calls res = Ok (res ++ map run_calls cts).
  Proof.
    induction 1 as [|p body rest cs Hb Hr IH]; intros res.
    - cbn. rewrite app_nil_r. reflexivity.
    - cbn [w_calls w_call]. unfold w_moveto, upd_back. rewrite rev_app_distr. cbn [rev app bind].
      rewrite rev_involutive. cbn [bind]. rewrite w_calls_app, w_calls_body by auto.
      cbn [bind]. rewrite IH. cbn [map]. rewrite <- app_assoc. reflexivity.
  Qed.

  Lemma contours_exist (calls : list (pcall T)) : starts_with_move calls -> exists cts, contours calls cts.
  Proof.
    remember (length calls) as n. assert (Hn : length calls <= n) by lia. clear Heqn.
    revert calls Hn; induction n as [|n IH]; intros calls Hn Hs.
    - destruct calls; [exists []; constructor|cbn in *; lia].
    - destruct calls as [|c rest]; [exists []; constructor|].
      destruct c as [p| |]; try discriminate. cbn in Hn.
      assert (G : exists body tail, rest = body ++ tail /\
                Forall (fun c : pcall T => is_move c = false) body /\ starts_with_move tail).
      { clear - rest. induction rest as [|c rest (b & t & -> & Hb & Ht)].
        - exists [], []; repeat split; auto.
        - destruct (is_move c) eqn:E.
          + exists [], (c :: b ++ t); repeat split; auto.
          + exists (c :: b), t; repeat split; auto. }
      destruct G as (body & tail & -> & Hb & Ht).
      rewrite app_length in Hn.
      destruct (IH tail) as [cts Hc]; auto; [lia|].
      exists ((PMove p :: body) :: cts). constructor; auto.
  Qed.

  Lemma contours_concat (calls : list (pcall T)) cts : contours calls cts -> concat cts = calls.
  Proof. induction 1; cbn; auto. rewrite IHcontours. reflexivity. Qed.

  Lemma c_str_app s junk : ~ In zero s -> c_str (s ++ zero :: junk) = Ok s.
  Proof.
    induction s as [|c s IH]; intros H; [reflexivity|]. cbn.
    destruct (Ascii.eqb_spec c zero).
    - exfalso; apply H; left; auto.
    - rewrite IH; [reflexivity|]. intros E; apply H; right; auto.
  Qed.

  Lemma c_str_ok m s : c_str m = Ok s -> exists junk, m = s ++ zero :: junk /\ ~ In zero s.
  Proof.
    revert s; induction m as [|c m IH]; intros s; cbn; [discriminate|].
    destruct (Ascii.eqb_spec c zero).
    - intros H; inversion H; subst. exists m; auto.
    - destruct (c_str m); cbn; try discriminate. intros H; inversion H; subst.
      destruct (IH a eq_refl) as (junk & -> & Hn). exists junk; split; auto.
      intros [E|E]; auto.
  Qed.

  (** C04 *)
  Lemma C04_lemma ts cs w junk calls :
    doc_text spaced ts cs -> blank w -> ~ In zero (ts ++ w) ->
    doc_calls conv cs = Some calls -> starts_with_move calls ->
    exists cts, contours calls cts /\
      make_path conv ((ts ++ w) ++ zero :: junk) = Ok (map run_calls cts).
  Proof.
    intros Hd Hw Hz Hc Hs. destruct (contours_exist calls Hs) as [cts Hct].
    exists cts; split; auto. unfold make_path.
    rewrite c_str_app by auto. cbn [bind].
    rewrite (p_star_doc ts cs Hd calls); auto.
    rewrite (w_calls_contours calls cts); auto.
  Qed.

  (** C05 *)
  Lemma w_calls_cases (calls : list (pcall T)) :
    (starts_with_move calls /\ exists cts, contours calls cts /\ w_calls calls [] = Ok (map run_calls cts)) \/
    (~ starts_with_move calls /\ w_calls calls [] = UB BackOfEmpty).
  Proof.
    destruct calls as [|c calls].
    - left; split; [exact I|]. exists []; split; [constructor|reflexivity].
    - destruct c as [p| |].
      + left; split; [reflexivity|].
        destruct (contours_exist (PMove p :: calls)) as [cts H]; [reflexivity|].
        exists cts; split; auto. rewrite (w_calls_contours _ _ H). reflexivity.
      + right; split; [cbn; discriminate|reflexivity].
      + right; split; [cbn; discriminate|reflexivity].
  Qed.

  Lemma p_star_general fuel : forall s res, length s <= fuel ->
    exists pre rest cs calls, doc_text blank pre cs /\ doc_calls conv cs = Some calls /\
      s = pre ++ rest /\ p_star conv fuel s res = w_calls calls res /\
      ((exists res', w_calls calls res = Ok res') -> forall res', p_alt conv rest res' = None).
  Proof.
    induction fuel as [|fuel IH]; intros s res Hl.
    - destruct s; [|cbn in Hl; lia]. exists [], [], [], []; repeat split; try constructor.
    - cbn [p_star]. destruct (p_alt conv s res) as [[s' o]|] eqn:E.
      + apply p_alt_sound in E as (t & c & calls & Ht & Hc & -> & ->).
        pose proof (cmd_text_len _ _ _ Ht) as HL. rewrite app_length in Hl.
        destruct (w_calls calls res) as [res1|ww| |] eqn:Ew.
        * destruct (IH s' res1) as (pre & rest & cs & calls' & Hd & Hdc & -> & Hp & Hn); [lia|].
          exists (t ++ pre), rest, (c :: cs), (calls ++ calls'). repeat split.
          -- constructor; auto.
          -- cbn. rewrite Hc, Hdc; auto.
          -- rewrite app_assoc; auto.
          -- cbn. rewrite Hp, w_calls_app, Ew. reflexivity.
          -- rewrite w_calls_app, Ew. exact Hn.
        * exists (t ++ []), s', [c], (calls ++ []). repeat split.
          -- constructor; auto; constructor.
          -- cbn. rewrite Hc; auto.
          -- rewrite app_nil_r; auto.
          -- rewrite app_nil_r, Ew. reflexivity.
          -- rewrite app_nil_r, Ew. intros [? ?]; discriminate.
        * exists (t ++ []), s', [c], (calls ++ []). repeat split.
          -- constructor; auto; constructor.
          -- cbn. rewrite Hc; auto.
          -- rewrite app_nil_r; auto.
          -- rewrite app_nil_r, Ew. reflexivity.
          -- rewrite app_nil_r, Ew. intros [? ?]; discriminate.
        * exists (t ++ []), s', [c], (calls ++ []). repeat split.
          -- constructor; auto; constructor.
          -- cbn. rewrite Hc; auto.
          -- rewrite app_nil_r; auto.
          -- rewrite app_nil_r, Ew. reflexivity.
          -- rewrite app_nil_r, Ew. intros [? ?]; discriminate.
      + exists [], s, [], []. repeat split; try constructor.
        intros _ res'. revert E. unfold p_alt, p_move, p_line, p_arc, p_cubic.
        repeat match goal with
        | |- context [match p_char ?a ?b with _ => _ end] => destruct (p_char a b)
        | |- context [match p_point ?a ?b with _ => _ end] => destruct (p_point a b) as [[? ?]|]
        end; auto; discriminate.
  Qed.

  (** Any terminated text: the result is that of a prefix made of well-formed
      commands; the rest does not begin with a well separated command. *)
  Lemma C05_lemma s junk : ~ In zero s ->
    exists pre rest cs (calls : list (pcall T)),
      s = pre ++ rest /\ doc_text blank pre cs /\ doc_calls conv cs = Some calls /\
      ((starts_with_move calls /\
        (exists cts, contours calls cts /\
                     make_path conv (s ++ zero :: junk) = Ok (map run_calls cts)) /\
        (forall t c a r, rest = t ++ r -> cmd_text spaced t c -> cmd_calls conv c = Some a -> ~ stops r))
       \/ (~ starts_with_move calls /\ make_path conv (s ++ zero :: junk) = UB BackOfEmpty)).
  Proof.
    intros Hz. destruct (p_star_general (S (length s)) s []) as (pre & rest & cs & calls & Hd & Hc & Hs & Hp & Hn); [lia|].
    exists pre, rest, cs, calls. repeat split; auto.
    assert (HM : make_path conv (s ++ zero :: junk) = w_calls calls []).
    { unfold make_path. rewrite c_str_app by auto. exact Hp. }
    destruct (w_calls_cases calls) as [(H1 & cts & H2 & H3)|(H1 & H2)].
    - left. split; [|split]; auto.
      + exists cts; split; auto. rewrite HM. auto.
      + intros t c a r -> Ht Ha Hr.
        pose proof (Hn (ex_intro _ _ H3) []) as E.
        rewrite (p_alt_complete t c a [] r) in E; auto. discriminate.
    - right; split; auto. rewrite HM; auto.
  Qed.
End MP.
