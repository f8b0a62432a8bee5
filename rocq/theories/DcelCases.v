(** Concrete histories for the half-edge structure. *)
From Coq Require Import ZArith Bool List Floats.SpecFloat.
From Verif Require Import Outcome Num Rmath VState Dcel.
Import ListNotations.

(** An [atan2] whose values are in the order of the angles, in units of a right
    angle; the other functions are not used. *)
Definition pseudo_angle (y x : b64) : b64 :=
  let s := SFadd 53 1024 (SFabs x) (SFabs y) in
  if SFeqb s (SFofZ 0) then SFofZ 0
  else
    let p := SFdiv 53 1024 y s in
    if SFleb (SFofZ 0) x then p
    else if SFleb (SFofZ 0) y then SFsub 53 1024 (SFofZ 2) p
    else SFsub 53 1024 (SFofZ (-2)) p.
Definition lm_angle : libm := {|
  lm_cbrt := fun x => x; lm_pow := fun x _ => x; lm_cos := fun x => x; lm_sin := fun x => x;
  lm_atan := fun x => x; lm_atan2 := pseudo_angle |}.
Definition en_plain : denv := Denv Z.of_nat (fun l => l).
Definition zline (x1 y1 x2 y2 : Z) : dcall b64 := DLine (SFofZ x1) (SFofZ y1) (SFofZ x2) (SFofZ y2).

(** Two lines crossing. *)
Definition cross_calls : list (dcall b64) := [zline 0 0 4 4; zline 0 4 4 0].
(** A square with a diagonal sticking out. *)
Definition square_calls : list (dcall b64) :=
  [zline 0 0 4 0; zline 4 0 4 4; zline 4 4 0 4; zline 0 4 0 0; zline (-1) (-1) 2 2].

Definition dcel_after (l : list (dcall b64)) : outcome (dcel b64) :=
  let N := B64 lm_angle in bind (dcalls_run dcel0 l) (dcel_process en_plain).

(** A point named twice, with both signs of zero. *)
Definition fan_calls : list (dcall b64) :=
  [zline 0 0 4 4; DType clip; DLine (SFopp (SFofZ 0)) (SFofZ 0) (SFofZ 4) (SFofZ 0); zline 1 1 1 1].

(** A face that passes its first point twice. *)
Definition eight_dcel : dcel b64 :=
  let h a b n p := Some (Half a b None (Some 0) (Some n) (Some p) subject []) in
  Dcel [Point (V2 (SFofZ 0) (SFofZ 0)) []; Point (V2 (SFofZ 1) (SFofZ 0)) []; Point (V2 (SFofZ 0) (SFofZ 1)) []]
    [0; 2; 1] [h 0 1 1 3; h 1 0 2 0; h 0 2 3 1; h 2 0 0 2] [0; 1; 2; 3] [0] [0] subject.
