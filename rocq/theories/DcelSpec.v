(** What a half-edge structure has to satisfy, in terms of its contents only. *)
From Coq Require Import ZArith Bool List Reals Permutation.
From Verif Require Import Outcome Num Order Rmath RectSpec LineSpec VState Dcel.
Import ListNotations.

Section Spec.
  Context {T : Type} {N : Num T}.
  Implicit Types d : dcel T.

  (** Half edge [e] exists (made and not deleted). *)
  Definition live d (e : nat) (h : half T) : Prop := nth_error (d_halves d) e = Some (Some h).

  (** The set [edges] holds exactly the existing half edges, and their ends are points. *)
  Definition registered d : Prop :=
    NoDup (d_edges d) /\ (forall e, In e (d_edges d) <-> exists h, live d e h) /\
    forall e h, live d e h -> h_start h < length (d_points d) /\ h_end h < length (d_points d).

  (** The list of a point holds each half edge leaving it and each one arriving, once. *)
  Definition stars d : Prop :=
    forall k p, nth_error (d_points d) k = Some p ->
      NoDup (p_edges p) /\
      (forall e, In (e, true) (p_edges p) <-> exists h, live d e h /\ h_start h = k) /\
      (forall e, In (e, false) (p_edges p) <-> exists h, live d e h /\ h_end h = k).

  (** No two points with equal coordinates (0 and -0 are equal). *)
  Definition unique_points d : Prop :=
    forall i j p q, nth_error (d_points d) i = Some p -> nth_error (d_points d) j = Some q ->
      i <> j -> veqb (p_at p) (p_at q) = false.
  (** All points are in [point_set]. *)
  Definition all_in_set d : Prop := Permutation (d_pset d) (seq 0 (length (d_points d))).

  (** Every half edge has a twin running the other way, whose twin it is. *)
  Definition twinned d : Prop :=
    forall e h, live d e h -> exists t ht,
      h_twin h = Some t /\ t <> e /\ live d t ht /\ h_twin ht = Some e /\
      h_start ht = h_end h /\ h_end ht = h_start h.

  (** next and prev are inverse to each other wherever they are set. *)
  Definition inverse_links d : Prop :=
    (forall e h n, live d e h -> h_next h = Some n -> exists hn, live d n hn /\ h_prev hn = Some e) /\
    (forall e h p, live d e h -> h_prev h = Some p -> exists hp, live d p hp /\ h_next hp = Some e).
  (** They are set everywhere and follow the half edges head to tail. *)
  Definition linked d : Prop :=
    inverse_links d /\
    forall e h, live d e h ->
      (exists n hn, h_next h = Some n /\ live d n hn /\ h_start hn = h_end h) /\
      (exists p hp, h_prev h = Some p /\ live d p hp /\ h_end hp = h_start h).

  (** [b] comes after [a]. *)
  Definition follows_half d (a b : nat) : Prop :=
    exists ha hb, live d a ha /\ live d b hb /\ h_next ha = Some b /\ h_prev hb = Some a /\ h_start hb = h_end ha.
  Fixpoint run_of d (a : nat) (l : list nat) : Prop :=
    match l with [] => True | b :: r => follows_half d a b /\ run_of d b r end.
  (** The half edges [l], in this order, go once round. *)
  Definition goes_round d (l : list nat) : Prop := l <> [] /\ run_of d (last l 0) l.
  (** The half edges met from the start of face [f]. *)
  Definition face_is d (f : nat) (l : list nat) : Prop :=
    nth_error (d_fpool d) f = Some (hd 0 l) /\ goes_round d l.
  (** No point is passed twice. *)
  Definition simple_cycle d (l : list nat) : Prop :=
    exists ends, Forall2 (fun e k => exists h, live d e h /\ h_end h = k) l ends /\ NoDup ends.
  (** The faces share out the half edges, each going round a simple cycle. *)
  Definition faces_share d : Prop :=
    exists ls, Forall2 (face_is d) (d_faces d) ls /\ Forall (simple_cycle d) ls /\
      Permutation (concat ls) (d_edges d).
End Spec.

Section Calls.
  Context {T : Type} {N : Num T} {O : OrdNum T}.
  (** Coordinates that compare. *)
  Definition dcall_valid (c : dcall T) : Prop :=
    match c with DType _ => True | DLine x1 y1 x2 y2 => nvalid x1 /\ nvalid y1 /\ nvalid x2 /\ nvalid y2 end.
End Calls.
(** Coordinates between -DBL_MAX and DBL_MAX. *)
Definition dcall_fin (c : dcall R) : Prop :=
  match c with DType _ => True | DLine x1 y1 x2 y2 => fin (V2 x1 y1) /\ fin (V2 x2 y2) end.
