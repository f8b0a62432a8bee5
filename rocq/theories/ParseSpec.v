(** The text format make_path is meant to read, as a grammar of strings. *)
From Coq Require Import ZArith Bool List Ascii.
From Verif Require Import Outcome Num Rmath Path PathSpec Parse.
Import ListNotations.
Local Open Scope list_scope.
Local Open Scope char_scope.

Definition blank_chars : list ascii :=
  ["009"; "010"; "011"; "012"; "013"; " "].
Definition digit_chars : list ascii :=
  ["0"; "1"; "2"; "3"; "4"; "5"; "6"; "7"; "8"; "9"].
Definition blank (w : list ascii) : Prop := forall c, In c w -> In c blank_chars.
Definition digits (d : list ascii) : Prop := forall c, In c d -> In c digit_chars.

Inductive sign_text : list ascii -> bool -> Prop :=
| SgNone : sign_text [] false
| SgPlus : sign_text ["+"] false
| SgMinus : sign_text ["-"] true.

Inductive frac_text : list ascii -> list ascii -> Prop :=
| FrNone : frac_text [] []
| FrDot d : digits d -> frac_text ("." :: d) d.

(** Value of a digit string, most significant digit first. *)
Fixpoint dec_value (d : list ascii) : Z :=
  match d with
  | [] => 0
  | c :: d' =>
    (Z.of_nat (nat_of_ascii c) - 48) * 10 ^ Z.of_nat (length d') + dec_value d'
  end%Z.

Inductive exp_text : list ascii -> option Z -> Prop :=
| ExNone : exp_text [] None
| ExSome e sg neg d v :
    In e ["e"; "E"] -> sign_text sg neg -> digits d -> d <> [] ->
    v = (if neg then - dec_value d else dec_value d)%Z ->
    (-2147483648 <= v <= 2147483647)%Z ->
    exp_text (e :: sg ++ d) (Some v).

(** A decimal number such as 12, -0.5, .5, 3., 1e-3 *)
Inductive number_text : list ascii -> literal -> Prop :=
| NumText sg neg ip ft fp et ex :
    sign_text sg neg -> digits ip -> frac_text ft fp -> ip <> [] \/ fp <> [] ->
    exp_text et ex ->
    number_text (sg ++ ip ++ ft ++ et) (Dec neg ip fp ex).

(** The special spellings *)
Inductive special_text : list ascii -> literal -> Prop :=
| NanText sg neg : forall w,
    sign_text sg neg ->
    (exists a b c rest, w = a :: b :: c :: rest /\ In a ["n"; "N"] /\ In b ["a"; "A"] /\ In c ["n"; "N"] /\
       (rest = [] \/ exists k, ~ In ")" k /\ rest = "(" :: k ++ [")"])) ->
    special_text (sg ++ w) (LNan neg)
| InfText sg neg : forall w,
    sign_text sg neg ->
    (exists a b c rest, w = a :: b :: c :: rest /\ In a ["i"; "I"] /\ In b ["n"; "N"] /\ In c ["f"; "F"] /\
       (rest = [] \/ exists d e f g h, rest = [d; e; f; g; h] /\ In d ["i"; "I"] /\ In e ["n"; "N"] /\
          In f ["i"; "I"] /\ In g ["t"; "T"] /\ In h ["y"; "Y"])) ->
    special_text (sg ++ w) (LInf neg).

Definition real_text (t : list ascii) (l : literal) : Prop := number_text t l \/ special_text t l.

(** Commands with their arguments as lexical values. *)
Definition lpoint := (literal * literal)%type.
Inductive cmd :=
| CM (p : lpoint)
| CL (p : lpoint)
| CA (p q : lpoint)
| CC (p q r : lpoint).

(** Two numbers.  [sep] says what may separate numbers. *)
Inductive point_text (sep : list ascii -> Prop) : list ascii -> lpoint -> Prop :=
| PtText w0 t0 l0 w1 t1 l1 :
    blank w0 -> real_text t0 l0 -> sep w1 -> real_text t1 l1 ->
    point_text sep (w0 ++ t0 ++ w1 ++ t1) (l0, l1).

Inductive cmd_text (sep : list ascii -> Prop) : list ascii -> cmd -> Prop :=
| TM w t p : blank w -> point_text sep t p -> cmd_text sep (w ++ "m" :: t) (CM p)
| TL w t p : blank w -> point_text sep t p -> cmd_text sep (w ++ "l" :: t) (CL p)
| TA w t1 p w1 t2 q :
    blank w -> point_text sep t1 p -> sep w1 -> point_text sep t2 q ->
    cmd_text sep (w ++ "a" :: t1 ++ w1 ++ t2) (CA p q)
| TC w t1 p w1 t2 q w2 t3 r :
    blank w -> point_text sep t1 p -> sep w1 -> point_text sep t2 q ->
    sep w2 -> point_text sep t3 r ->
    cmd_text sep (w ++ "c" :: t1 ++ w1 ++ t2 ++ w2 ++ t3) (CC p q r).

Inductive doc_text (sep : list ascii -> Prop) : list ascii -> list cmd -> Prop :=
| DNil : doc_text sep [] []
| DCons t c ts cs : cmd_text sep t c -> doc_text sep ts cs -> doc_text sep (t ++ ts) (c :: cs).

(** Well separated text: numbers are set apart by white space. *)
Definition spaced (w : list ascii) : Prop := blank w /\ w <> [].

Section Spec.
  Context {T : Type} {N : Num T}.
  Context (conv : literal -> option T).

  Definition conv_point (p : lpoint) : option (vec2 T) :=
    match conv (fst p), conv (snd p) with
    | Some x, Some y => Some (V2 x y)
    | _, _ => None
    end.

  (** The path calls a command stands for (an arc stands for none); None if a
      number does not convert. *)
  Definition cmd_calls (c : cmd) : option (list (pcall T)) :=
    match c with
    | CM p => match conv_point p with Some p => Some [PMove p] | None => None end
    | CL p => match conv_point p with Some p => Some [PLine p] | None => None end
    | CA p q =>
      match conv_point p, conv_point q with Some _, Some _ => Some [] | _, _ => None end
    | CC p q r =>
      match conv_point p, conv_point q, conv_point r with
      | Some p, Some q, Some r => Some [PCubic p q r]
      | _, _, _ => None
      end
    end.
  Fixpoint doc_calls (cs : list cmd) : option (list (pcall T)) :=
    match cs with
    | [] => Some []
    | c :: cs =>
      match cmd_calls c, doc_calls cs with
      | Some a, Some b => Some (a ++ b)
      | _, _ => None
      end
    end.

  (** Cut a list of calls before every move. *)
  Definition is_move (c : pcall T) : bool := match c with PMove _ => true | _ => false end.
  Inductive contours : list (pcall T) -> list (list (pcall T)) -> Prop :=
  | CtNil : contours [] []
  | CtCons p body rest cs :
      Forall (fun c => is_move c = false) body -> contours rest cs ->
      contours (PMove p :: body ++ rest) ((PMove p :: body) :: cs).

  Definition starts_with_move (l : list (pcall T)) : Prop :=
    match l with [] => True | c :: _ => is_move c = true end.
End Spec.
