(** The arithmetic the C++ code performs on [double], as an abstract record of
    operations, and its two instances: exact reals and IEEE-754 binary64. *)
From Coq Require Import ZArith Bool List Lia Reals Lra.
From Coq Require Import Floats.SpecFloat.

(** One field per primitive the sources use (<cmath>, operators on double). *)
Class Num (T : Type) := {
  n_ofZ : Z -> T;                    (* integer literal converted to double *)
  n_add : T -> T -> T;
  n_sub : T -> T -> T;
  n_mul : T -> T -> T;
  n_div : T -> T -> T;
  n_neg : T -> T;
  n_abs : T -> T;                    (* std::abs(double) *)
  n_ltb : T -> T -> bool;            (* a < b *)
  n_leb : T -> T -> bool;            (* a <= b *)
  n_eqb : T -> T -> bool;            (* a == b *)
  n_isfinite : T -> bool;            (* std::isfinite *)
  n_signbit : T -> bool;             (* std::signbit *)
  n_huge : T;                        (* std::numeric_limits<double>::max() *)
  n_sqrt : T -> T;
  n_cbrt : T -> T;
  n_pow : T -> Z -> T;               (* std::pow(double, int) *)
  n_remainder : T -> T -> T;
  n_cos : T -> T;
  n_sin : T -> T;
  n_atan : T -> T;
  n_atan2 : T -> T -> T
}.

Declare Scope num_scope.
Delimit Scope num_scope with num.
Bind Scope num_scope with Num.
Infix "+" := n_add : num_scope.
Infix "-" := n_sub : num_scope.
Infix "*" := n_mul : num_scope.
Infix "/" := n_div : num_scope.
Notation "- x" := (n_neg x) : num_scope.
Infix "<?" := n_ltb : num_scope.
Infix "<=?" := n_leb : num_scope.
Infix "=?" := n_eqb : num_scope.
Notation "x >? y" := (n_ltb y x) : num_scope.
Notation "x >=? y" := (n_leb y x) : num_scope.
Notation "x <>? y" := (negb (n_eqb x y)) (at level 70) : num_scope.
Notation "# z" := (n_ofZ z) (at level 5, format "# z") : num_scope.

Section Derived.
  Context {T : Type} `{Num T}.
  (** std::min(a,b) = (b < a) ? b : a *)
  Definition n_min (a b : T) : T := if n_ltb b a then b else a.
  (** std::max(a,b) = (a < b) ? b : a *)
  Definition n_max (a b : T) : T := if n_ltb a b then b else a.
End Derived.

(* ------------------------------------------------------------------ *)
(** ** Exact real arithmetic *)

Local Open Scope R_scope.

Definition Rltb (a b : R) : bool := if Rlt_dec a b then true else false.
Definition Rleb (a b : R) : bool := if Rle_dec a b then true else false.
Definition Reqb (a b : R) : bool := if Req_EM_T a b then true else false.

Lemma Rltb_true a b : Rltb a b = true <-> a < b.
Proof. unfold Rltb; destruct (Rlt_dec a b); split; intros; auto; discriminate. Qed.
Lemma Rltb_false a b : Rltb a b = false <-> b <= a.
Proof. unfold Rltb; destruct (Rlt_dec a b); split; intros; auto; try discriminate; lra. Qed.
Lemma Rleb_true a b : Rleb a b = true <-> a <= b.
Proof. unfold Rleb; destruct (Rle_dec a b); split; intros; auto; discriminate. Qed.
Lemma Rleb_false a b : Rleb a b = false <-> b < a.
Proof. unfold Rleb; destruct (Rle_dec a b); split; intros; auto; try discriminate; lra. Qed.
Lemma Reqb_true a b : Reqb a b = true <-> a = b.
Proof. unfold Reqb; destruct (Req_EM_T a b); split; intros; auto; discriminate. Qed.
Lemma Reqb_false a b : Reqb a b = false <-> a <> b.
Proof. unfold Reqb; destruct (Req_EM_T a b); split; intros; auto; try discriminate; contradiction. Qed.

(** Real cube root. *)
Definition Rcbrt (x : R) : R :=
  if Rlt_dec x 0 then - Rpower (- x) (1/3)
  else if Req_EM_T x 0 then 0 else Rpower x (1/3).

(** Nearest integer, ties to even (as used by IEEE remainder). *)
Definition Rnearest (r : R) : Z :=
  let f := Int_part r in
  let d := r - IZR f in
  if Rlt_dec d (1/2) then f
  else if Rlt_dec (1/2) d then (f + 1)%Z
  else if Z.even f then f else (f + 1)%Z.
Definition Rremainder (x y : R) : R := x - IZR (Rnearest (x / y)) * y.

Definition Ratan2 (y x : R) : R :=
  if Rlt_dec 0 x then atan (y / x)
  else if Rlt_dec x 0 then (if Rle_dec 0 y then atan (y / x) + PI else atan (y / x) - PI)
  else if Rlt_dec 0 y then PI / 2 else if Rlt_dec y 0 then - (PI / 2) else 0.

(** [DBL_MAX] = (2^53 - 1) * 2^971 *)
Definition R_huge : R := IZR ((2 ^ 53 - 1) * 2 ^ 971).

#[global] Instance R_num : Num R := {
  n_ofZ := IZR;
  n_add := Rplus; n_sub := Rminus; n_mul := Rmult; n_div := Rdiv;
  n_neg := Ropp; n_abs := Rabs;
  n_ltb := Rltb; n_leb := Rleb; n_eqb := Reqb;
  n_isfinite := fun _ => true;
  n_signbit := fun x => Rltb x 0;
  n_huge := R_huge;
  n_sqrt := sqrt; n_cbrt := Rcbrt;
  n_pow := powerRZ;
  n_remainder := Rremainder;
  n_cos := cos; n_sin := sin; n_atan := atan; n_atan2 := Ratan2
}.

(* ------------------------------------------------------------------ *)
(** ** IEEE-754 binary64, on the standard library's [SpecFloat] *)

Local Open Scope Z_scope.

Definition b64 := spec_float.

(** Functions of <cmath> whose results the C++ standard leaves to the
    implementation.  Theorems quantify over all of them. *)
Record libm := {
  lm_cbrt : b64 -> b64;
  lm_pow : b64 -> Z -> b64;
  lm_cos : b64 -> b64;
  lm_sin : b64 -> b64;
  lm_atan : b64 -> b64;
  lm_atan2 : b64 -> b64 -> b64
}.

Definition SFofZ (z : Z) : b64 := binary_normalize 53 1024 z 0 false.

(** Exact IEEE remainder: x - n*y with n the integer nearest x/y, ties to
    even; a zero result has the sign of x. *)
Definition SFremainder (x y : b64) : b64 :=
  match x, y with
  | S754_nan, _ | _, S754_nan | S754_infinity _, _ | _, S754_zero _ => S754_nan
  | _, S754_infinity _ => x
  | S754_zero _, S754_finite _ _ _ => x
  | S754_finite sx mx ex, S754_finite _ my ey =>
    let e := Z.min ex ey in
    let a := Zpos mx * 2 ^ (ex - e) in
    let b := Zpos my * 2 ^ (ey - e) in
    let q := a / b in
    let r := a mod b in
    let n := match 2 * r ?= b with
             | Lt => q | Gt => q + 1 | Eq => if Z.even q then q else q + 1 end in
    let d := a - n * b in
    if d =? 0 then S754_zero sx
    else binary_normalize 53 1024 (if sx then - d else d) e sx
  end.

Definition SFsignbit (x : b64) : bool :=
  match x with
  | S754_zero s | S754_infinity s | S754_finite s _ _ => s
  | S754_nan => false
  end.

Definition SFisfinite (x : b64) : bool :=
  match x with S754_zero _ | S754_finite _ _ _ => true | _ => false end.

Definition SFhuge : b64 := S754_finite false 9007199254740991 971.

Definition B64 (lm : libm) : Num b64 := {|
  n_ofZ := SFofZ;
  n_add := SFadd 53 1024; n_sub := SFsub 53 1024;
  n_mul := SFmul 53 1024; n_div := SFdiv 53 1024;
  n_neg := SFopp; n_abs := SFabs;
  n_ltb := SFltb; n_leb := SFleb; n_eqb := SFeqb;
  n_isfinite := SFisfinite;
  n_signbit := SFsignbit;
  n_huge := SFhuge;
  n_sqrt := SFsqrt 53 1024; n_cbrt := lm_cbrt lm;
  n_pow := lm_pow lm;
  n_remainder := SFremainder;
  n_cos := lm_cos lm; n_sin := lm_sin lm; n_atan := lm_atan lm; n_atan2 := lm_atan2 lm
|}.

(** Decimal literal n/d as the compiler reads it: for |n| < 2^53 and d a power
    of ten below 10^23 both operands are exact, so the division is the
    correctly rounded literal. *)
Definition SFdec (n d : Z) : b64 := SFdiv 53 1024 (SFofZ n) (SFofZ d).

(* ------------------------------------------------------------------ *)
(** ** Order laws shared by both instances

    [nvalid] singles out the values the laws hold for (everything except NaN
    for binary64). *)
Class OrdNum (T : Type) {N : Num T} := {
  nvalid : T -> Prop;
  nlt_irrefl : forall a, n_ltb a a = false;
  nlt_trans : forall a b c, nvalid a -> nvalid b -> nvalid c ->
    n_ltb a b = true -> n_ltb b c = true -> n_ltb a c = true;
  nle_negb : forall a b, nvalid a -> nvalid b -> n_leb a b = negb (n_ltb b a);
  neq_le : forall a b, nvalid a -> nvalid b ->
    n_eqb a b = (n_leb a b && n_leb b a)%bool;
  (* equal numbers compare alike *)
  neq_sym : forall a b, n_eqb a b = n_eqb b a;
  nlt_eq_trans : forall a b c, nvalid a -> nvalid b -> nvalid c ->
    n_ltb a b = true -> n_eqb b c = true -> n_ltb a c = true;
  neq_lt_trans : forall a b c, nvalid a -> nvalid b -> nvalid c ->
    n_eqb a b = true -> n_ltb b c = true -> n_ltb a c = true;
  neq_trans : forall a b c,
    n_eqb a b = true -> n_eqb b c = true -> n_eqb a c = true;
  nvalid_huge : nvalid n_huge;
  nvalid_nhuge : nvalid (n_neg n_huge)
}.

#[global] Instance R_ord : OrdNum R.
Proof.
  refine {| nvalid := fun _ => True |}; simpl; intros *; intros;
  repeat match goal with
  | h : Rltb _ _ = true |- _ => apply Rltb_true in h
  | h : Reqb _ _ = true |- _ => apply Reqb_true in h
  end.
  - apply Rltb_false; lra.
  - apply Rltb_true; lra.
  - destruct (Rleb a b) eqn:E; destruct (Rltb b a) eqn:E2; simpl; auto.
    + apply Rleb_true in E; apply Rltb_true in E2; lra.
    + apply Rleb_false in E; apply Rltb_false in E2; lra.
  - destruct (Reqb a b) eqn:E; destruct (Rleb a b) eqn:E2; destruct (Rleb b a) eqn:E3; simpl; auto;
    try (apply Reqb_true in E); try (apply Reqb_false in E);
    try (apply Rleb_true in E2); try (apply Rleb_false in E2);
    try (apply Rleb_true in E3); try (apply Rleb_false in E3); lra.
  - unfold Reqb; destruct (Req_EM_T a b), (Req_EM_T b a); auto; congruence.
  - apply Rltb_true; lra.
  - apply Rltb_true; lra.
  - apply Reqb_true; lra.
  - exact I.
  - exact I.
Defined.

(** Comparison key of a non-NaN float: lexicographic (class, signed data). *)
Definition SFkey (x : b64) : Z * Z * Z :=
  match x with
  | S754_nan => (0, 0, 0)
  | S754_zero _ => (0, 0, 0)
  | S754_infinity s => if s then (-2, 0, 0) else (2, 0, 0)
  | S754_finite s m e => if s then (-1, - e, - Zpos m) else (1, e, Zpos m)
  end.
Definition klt (a b : Z * Z * Z) : Prop :=
  let '(a1, a2, a3) := a in let '(b1, b2, b3) := b in
  a1 < b1 \/ (a1 = b1 /\ (a2 < b2 \/ (a2 = b2 /\ a3 < b3))).

Lemma SFcompare_key a b : a <> S754_nan -> b <> S754_nan ->
  match SFcompare a b with
  | Some Lt => klt (SFkey a) (SFkey b)
  | Some Eq => SFkey a = SFkey b
  | Some Gt => klt (SFkey b) (SFkey a)
  | None => False
  end.
Proof.
  intros Ha Hb.
  destruct a as [sa|sa| |sa ma ea]; destruct b as [sb|sb| |sb mb eb]; try congruence;
  try destruct sa; try destruct sb; cbn -[Z.compare Pos.compare]; try lia; try reflexivity;
  destruct (Z.compare_spec ea eb); cbn -[Z.compare Pos.compare]; try lia;
  rewrite ?Pos.compare_cont_spec; change (Pos.compare_cont Eq ma mb) with (Pos.compare ma mb);
  destruct (Pos.compare_spec ma mb); cbn; try lia; subst; reflexivity.
Qed.

Lemma klt_irrefl a : ~ klt a a.
Proof. destruct a as [[? ?] ?]; simpl; lia. Qed.
Lemma klt_trans a b c : klt a b -> klt b c -> klt a c.
Proof. destruct a as [[? ?] ?], b as [[? ?] ?], c as [[? ?] ?]; simpl; lia. Qed.

Lemma SFltb_nan a b : SFltb a b = true \/ SFeqb a b = true \/ SFleb a b = true ->
  a <> S754_nan /\ b <> S754_nan.
Proof. destruct a, b; cbv [SFltb SFeqb SFleb SFcompare]; intros Hx; split; try discriminate;
  destruct Hx as [Hx|[Hx|Hx]]; discriminate. Qed.

Lemma SFltb_key a b : SFltb a b = true <->
  a <> S754_nan /\ b <> S754_nan /\ klt (SFkey a) (SFkey b).
Proof.
  split.
  - intros Hx. destruct (SFltb_nan a b) as [Ha Hb]; auto. split; [auto|split; auto].
    pose proof (SFcompare_key a b Ha Hb) as K. unfold SFltb in Hx.
    destruct (SFcompare a b) as [[]|]; try discriminate; auto.
  - intros (Ha & Hb & Hk). pose proof (SFcompare_key a b Ha Hb) as K. unfold SFltb.
    destruct (SFcompare a b) as [[]|]; try contradiction; auto.
    + rewrite K in Hk; elim (klt_irrefl _ Hk).
    + elim (klt_irrefl _ (klt_trans _ _ _ Hk K)).
Qed.
Lemma SFeqb_key a b : SFeqb a b = true <->
  a <> S754_nan /\ b <> S754_nan /\ SFkey a = SFkey b.
Proof.
  split.
  - intros Hx. destruct (SFltb_nan a b) as [Ha Hb]; auto. split; [auto|split; auto].
    pose proof (SFcompare_key a b Ha Hb) as K. unfold SFeqb in Hx.
    destruct (SFcompare a b) as [[]|]; try discriminate; auto.
  - intros (Ha & Hb & Hk). pose proof (SFcompare_key a b Ha Hb) as K. unfold SFeqb.
    destruct (SFcompare a b) as [[]|]; try contradiction; auto;
    rewrite Hk in K; elim (klt_irrefl _ K).
Qed.
Lemma SFleb_key a b : SFleb a b = true <->
  a <> S754_nan /\ b <> S754_nan /\ ~ klt (SFkey b) (SFkey a).
Proof.
  split.
  - intros Hx. destruct (SFltb_nan a b) as [Ha Hb]; auto. split; [auto|split; auto].
    pose proof (SFcompare_key a b Ha Hb) as K. unfold SFleb in Hx.
    destruct (SFcompare a b) as [[]|]; try discriminate.
    + rewrite K; apply klt_irrefl.
    + intros K2; elim (klt_irrefl _ (klt_trans _ _ _ K K2)).
  - intros (Ha & Hb & Hk). pose proof (SFcompare_key a b Ha Hb) as K. unfold SFleb.
    destruct (SFcompare a b) as [[]|]; try contradiction; auto.
Qed.
Lemma klt_total a b : klt a b \/ a = b \/ klt b a.
Proof. destruct a as [[a1 a2] a3], b as [[b1 b2] b3]; simpl.
  destruct (Z.lt_trichotomy a1 b1) as [?|[?|?]]; [lia| |lia].
  destruct (Z.lt_trichotomy a2 b2) as [?|[?|?]]; [lia| |lia].
  destruct (Z.lt_trichotomy a3 b3) as [?|[?|?]]; [lia| |lia]. subst. auto. Qed.

#[global] Instance B64_ord (lm : libm) : @OrdNum b64 (B64 lm).
Proof.
  refine {| nvalid := fun x => x <> S754_nan |}; simpl; intros *; intros.
  - destruct (SFltb a a) eqn:E; auto. apply SFltb_key in E as (?&?&E).
    elim (klt_irrefl _ E).
  - apply SFltb_key in H2 as (?&?&?), H3 as (?&?&?). apply SFltb_key. eauto using klt_trans.
  - destruct (SFleb a b) eqn:E; destruct (SFltb b a) eqn:E2; simpl; auto.
    + apply SFleb_key in E as (?&?&?); apply SFltb_key in E2 as (?&?&?); contradiction.
    + apply Bool.not_true_iff_false in E, E2. elim E. apply SFleb_key. split; [auto|split; auto].
      intros K; apply E2, SFltb_key; auto.
  - destruct (SFeqb a b) eqn:E.
    + apply SFeqb_key in E as (?&?&E). symmetry; apply andb_true_intro; split; apply SFleb_key;
      rewrite E; eauto using klt_irrefl.
    + destruct (SFleb a b && SFleb b a)%bool eqn:E2; auto. apply andb_prop in E2 as [E2 E3].
      apply SFleb_key in E2 as (?&?&E2), E3 as (?&?&E3).
      rewrite <- E. apply SFeqb_key.
      destruct (klt_total (SFkey a) (SFkey b)) as [?|[?|?]]; tauto.
  - destruct (SFeqb a b) eqn:E; destruct (SFeqb b a) eqn:E2; auto.
    + rewrite <- E2. symmetry. apply SFeqb_key in E as (?&?&?). apply SFeqb_key; auto.
    + rewrite <- E. apply SFeqb_key in E2 as (?&?&?). apply SFeqb_key; auto.
  - apply SFltb_key in H2 as (?&?&?). apply SFeqb_key in H3 as (?&?&E). apply SFltb_key. rewrite <- E; auto.
  - apply SFeqb_key in H2 as (?&?&E). apply SFltb_key in H3 as (?&?&?). apply SFltb_key. rewrite E; auto.
  - apply SFeqb_key in H as (?&?&E), H0 as (?&?&E2). apply SFeqb_key. rewrite E; auto.
  - discriminate.
  - discriminate.
Defined.
