(** Concrete inputs for the examples and counterexamples: polygons with integer
    corners in binary64. *)
From Coq Require Import ZArith Bool List Floats.SpecFloat.
From Verif Require Import Outcome Num Rmath Segment Path ScanLine VState VPath VBreak VAel VOut VMain ClipSpec.
Import ListNotations.
Local Open Scope out.

Definition pt64 (x y : Z) : vec2 b64 := V2 (SFofZ x) (SFofZ y).
(** set iteration in insertion order, addresses in order of allocation *)
Definition env0 : env := Env (fun l => l) Z.of_nat 1000.

Section Cases.
  Variable lm : libm.
  Let N := B64 lm.
  Existing Instance N.

  (** the closed polygon with the given corners (closed by add_path) *)
  Definition poly_path (l : list (Z * Z)) : path b64 :=
    match l with
    | (x, y) :: r => fold_left (fun p q => lineto p (SFofZ (fst q)) (SFofZ (snd q))) r
                       (moveto path_empty (SFofZ x) (SFofZ y))
    | [] => path_empty
    end.
  Definition box (a b c e : Z) : list (Z * Z) := [(a, b); (c, b); (c, e); (a, e)].

  Definition load (subj cl : list (list (Z * Z))) : outcome (clipper b64) :=
    do s <- add_paths clipper0 (map poly_path subj) subject ;;
    add_paths s (map poly_path cl) clip.
  (** the calls emitted by [process] *)
  Definition run (subj cl : list (list (Z * Z))) op fill : outcome (list (call (T := b64))) :=
    do s <- load subj cl ;;
    do r <- process env0 1000 s op fill ;;
    Ok (snd r).
  (** the same as points: [true] a moveto *)
  Definition show (l : list (call (T := b64))) : list (bool * vec2 b64) :=
    map (fun c => (is_move c, call_to c)) l.
  Definition show_path (z : Z * Z) (l : list (Z * Z)) : list (bool * vec2 b64) :=
    (true, pt64 (fst z) (snd z)) :: map (fun q => (false, pt64 (fst q) (snd q))) l.

  (** the value of a run that succeeds *)
  Definition get {A} (d : A) (o : outcome A) : A := match o with Ok x => x | _ => d end.

  Lemma load_loaded subj cl s : load subj cl = Ok s -> loaded s.
  Proof.
    unfold load. intros H. apply bind_ok in H as (s1 & H1 & H2).
    eapply loaded_add; [|exact H2]. eapply loaded_add; [|exact H1]. apply loaded_new.
  Qed.
End Cases.
