(** What a client of struct path expects, stated without the path's layout. *)
From Coq Require Import ZArith Bool List.
From Verif Require Import Outcome Num Rmath Path.
Import ListNotations.

(** One call a client makes on a path. *)
Inductive pcall (T : Type) :=
| PMove (p : vec2 T)
| PLine (p : vec2 T)
| PCubic (c1 c2 p : vec2 T).
Arguments PMove {T} _.
Arguments PLine {T} _.
Arguments PCubic {T} _ _ _.

(** One callback invocation a client sees. *)
Inductive event (T : Type) :=
| EMove (from to : vec2 T)
| ELine (from to : vec2 T)
| ECubic (from c1 c2 to : vec2 T).
Arguments EMove {T} _ _.
Arguments ELine {T} _ _.
Arguments ECubic {T} _ _ _ _.

Definition endpoint {T} (c : pcall T) : vec2 T :=
  match c with PMove p => p | PLine p => p | PCubic _ _ p => p end.

(** Forget the starting point: the call a callback corresponds to. *)
Definition ev_call {T} (e : event T) : pcall T :=
  match e with
  | EMove _ p => PMove p | ELine _ p => PLine p | ECubic _ a b p => PCubic a b p
  end.
Definition ev_from {T} (e : event T) : vec2 T :=
  match e with EMove a _ => a | ELine a _ => a | ECubic a _ _ _ => a end.
Definition ev_to {T} (e : event T) : vec2 T :=
  match e with EMove _ b => b | ELine _ b => b | ECubic _ _ _ b => b end.

(** Every event starts where the previous one ended; the first at [o]. *)
Fixpoint chained {T} (o : vec2 T) (l : list (event T)) : Prop :=
  match l with
  | [] => True
  | e :: l' => ev_from e = o /\ chained (ev_to e) l'
  end.

Section Spec.
  Context {T : Type} {N : Num T}.

  (** Run the client's calls on a path. *)
  Definition do_call (p : path T) (c : pcall T) : path T :=
    match c with
    | PMove q => moveto p (vx q) (vy q)
    | PLine q => lineto p (vx q) (vy q)
    | PCubic a b q => cubicto p a b q
    end.
  Definition run_calls (cs : list (pcall T)) : path T :=
    fold_left do_call cs path_empty.

  Definition origin : vec2 T := V2 (n_ofZ 0) (n_ofZ 0).

  (** Callbacks which append every event to the user state. *)
  Definition recorder : funcs T (list (event T)) :=
    Funcs (Some (fun a b s => Ok (s ++ [EMove a b])))
          (Some (fun a b s => Ok (s ++ [ELine a b])))
          (Some (fun a c1 c2 b s => Ok (s ++ [ECubic a c1 c2 b]))).

  (** Set some of the callbacks to null. *)
  Definition only {S} (m l c : bool) (fs : funcs T S) : funcs T S :=
    Funcs (if m then f_move fs else None)
          (if l then f_line fs else None)
          (if c then f_cubic fs else None).

  Definition ev_kept (m l c : bool) (e : event T) : bool :=
    match e with EMove _ _ => m | ELine _ _ => l | ECubic _ _ _ _ => c end.

  (** Delivering a list of events to callbacks, one after the other. *)
  Definition deliver1 {S} (fs : funcs T S) (e : event T) (s : S) : outcome S :=
    match e with
    | EMove a b => match f_move fs with Some f => f a b s | None => Ok s end
    | ELine a b => match f_line fs with Some f => f a b s | None => Ok s end
    | ECubic a c1 c2 b =>
      match f_cubic fs with Some f => f a c1 c2 b s | None => Ok s end
    end.
  Fixpoint deliver {S} (fs : funcs T S) (l : list (event T)) (s : S) : outcome S :=
    match l with
    | [] => Ok s
    | e :: l' => bind (deliver1 fs e s) (deliver fs l')
    end.

  (** How many numbers an element of the given type byte needs. *)
  Definition elt_size (e : Z) : nat :=
    match e with 0%Z => 2 | 1%Z => 2 | 3%Z => 6 | _ => 0 end.
  Definition needed (types : list Z) : nat :=
    fold_right (fun e n => elt_size e + n) 0 types.
End Spec.
