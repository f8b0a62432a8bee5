(** Model of make_path: src/src/river.cpp.  The grammar is interpreted by
    Boost.Spirit.Qi; the behaviour of the Qi parsers used (char_, double_, >>,
    |, *, the ascii::space skipper, semantic actions) is modelled by hand. *)
From Coq Require Import ZArith Bool List Ascii.
From Verif Require Import Outcome Num Rmath Path.
Import ListNotations.
Local Open Scope list_scope.
Local Open Scope char_scope.

(** ascii::space (the skipper, river.cpp:50-57, 64): HT LF VT FF CR and blank *)
Definition is_space (c : ascii) : bool :=
  let n := nat_of_ascii c in
  (Nat.leb 9 n && Nat.leb n 13) || Nat.eqb n 32.
Definition is_digit (c : ascii) : bool :=
  let n := nat_of_ascii c in Nat.leb 48 n && Nat.leb n 57.

Fixpoint skip (s : list ascii) : list ascii :=
  match s with
  | c :: s' => if is_space c then skip s' else s
  | [] => []
  end.

(** Longest run of digits, and what follows. *)
Fixpoint take_digits (s : list ascii) : list ascii * list ascii :=
  match s with
  | c :: s' => if is_digit c then let (d, r) := take_digits s' in (c :: d, r) else ([], s)
  | [] => ([], [])
  end.

(** The lexical value of a number; turning it into a double is Qi's business
    ([conv] below). *)
Inductive literal :=
| Dec (neg : bool) (ip fp : list ascii) (ex : option Z)
| LNan (neg : bool)
| LInf (neg : bool).

Definition take_sign (s : list ascii) : bool * list ascii :=
  match s with
  | c :: s' => if Ascii.eqb c "-" then (true, s') else if Ascii.eqb c "+" then (false, s') else (false, s)
  | [] => (false, [])
  end.

(** Case-insensitive keyword (Qi gives lower and upper spelling). *)
Fixpoint take_word (lo up s : list ascii) : option (list ascii) :=
  match lo, up with
  | a :: lo', b :: up' =>
    match s with
    | c :: s' => if Ascii.eqb c a || Ascii.eqb c b then take_word lo' up' s' else None
    | [] => None
    end
  | _, _ => Some s
  end.

Fixpoint after_paren (s : list ascii) : option (list ascii) :=
  match s with
  | c :: s' => if Ascii.eqb c ")" then Some s' else after_paren s'
  | [] => None
  end.

(** nan, optionally followed by "( ... )" *)
Definition take_nan (s : list ascii) : option (list ascii) :=
  match take_word ["n"; "a"; "n"] ["N"; "A"; "N"] s with
  | Some r =>
    match r with
    | c :: r' => if Ascii.eqb c "(" then after_paren r' else Some r
    | [] => Some r
    end
  | None => None
  end.

(** inf or infinity *)
Definition take_inf (s : list ascii) : option (list ascii) :=
  match take_word ["i"; "n"; "f"] ["I"; "N"; "F"] s with
  | Some r =>
    match take_word ["i"; "n"; "i"; "t"; "y"] ["I"; "N"; "I"; "T"; "Y"] r with
    | Some r' => Some r'
    | None => Some r
    end
  | None => None
  end.

Definition dig_val (c : ascii) : Z := Z.of_nat (nat_of_ascii c) - 48.
Definition digits_val (l : list ascii) : Z := fold_left (fun a c => a * 10 + dig_val c)%Z l 0%Z.

Definition int_range (z : Z) : bool := (Z.leb (-2147483648) z && Z.leb z 2147483647)%Z.

(** Optional exponent; if there are no digits after e, or the exponent does not
    fit an int, the exponent part is not consumed. *)
Definition take_exp (s : list ascii) : option Z * list ascii :=
  match s with
  | c :: s1 =>
    if Ascii.eqb c "e" || Ascii.eqb c "E" then
      let (neg, s2) := take_sign s1 in
      let (d, s3) := take_digits s2 in
      match d with
      | [] => (None, s)
      | _ =>
        let v := if neg then (- digits_val d)%Z else digits_val d in
        if int_range v then (Some v, s3) else (None, s)
      end
    else (None, s)
  | [] => (None, [])
  end.

(** qi::double_ without the skipper (river.cpp:53) *)
Definition lex_real (s : list ascii) : option (literal * list ascii) :=
  let (neg, s1) := take_sign s in
  let (ip, s2) := take_digits s1 in
  match ip with
  | [] =>
    match take_nan s1 with
    | Some r => Some (LNan neg, r)
    | None =>
      match take_inf s1 with
      | Some r => Some (LInf neg, r)
      | None =>
        match s1 with
        | c :: s3 =>
          if Ascii.eqb c "." then
            let (fp, s4) := take_digits s3 in
            match fp with
            | [] => None
            | _ => let (ex, s5) := take_exp s4 in Some (Dec neg [] fp ex, s5)
            end
          else None
        | [] => None
        end
      end
    end
  | _ =>
    match s2 with
    | c :: s3 =>
      if Ascii.eqb c "." then
        let (fp, s4) := take_digits s3 in
        let (ex, s5) := take_exp s4 in Some (Dec neg ip fp ex, s5)
      else let (ex, s5) := take_exp s2 in Some (Dec neg ip [] ex, s5)
    | [] => Some (Dec neg ip [] None, [])
    end
  end.

Section MakePath.
  Context {T : Type} {N : Num T}.
  (** Qi's conversion of a decimal to double: accumulates digits and scales by
      a power of ten; fails (None) when the exponent is out of range. *)
  Context (conv : literal -> option T).

  Definition p_double (s : list ascii) : option (T * list ascii) :=
    match lex_real (skip s) with
    | Some (l, r) => match conv l with Some v => Some (v, r) | None => None end
    | None => None
    end.

  (** river.cpp:53 [point_p] *)
  Definition p_point (s : list ascii) : option (vec2 T * list ascii) :=
    match p_double s with
    | Some (x, r) =>
      match p_double r with
      | Some (y, r') => Some (V2 x y, r')
      | None => None
      end
    | None => None
    end.

  Definition p_char (c : ascii) (s : list ascii) : option (list ascii) :=
    match skip s with
    | x :: r => if Ascii.eqb x c then Some r else None
    | [] => None
    end.

  (** river.cpp:34, 36-38, 41-43: [writer]; back() of an empty vector is undefined *)
  Definition upd_back (f : path T -> path T) (res : list (path T)) : outcome (list (path T)) :=
    match rev res with
    | [] => UB BackOfEmpty
    | b :: r => Ok (rev r ++ [f b])
    end.
  Definition w_moveto (p : vec2 T) (res : list (path T)) : outcome (list (path T)) :=
    upd_back (fun b => moveto b (vx p) (vy p)) (res ++ [path_empty]).
  Definition w_lineto (p : vec2 T) (res : list (path T)) : outcome (list (path T)) :=
    upd_back (fun b => lineto b (vx p) (vy p)) res.
  Definition w_cubicto (a b c : vec2 T) (res : list (path T)) : outcome (list (path T)) :=
    upd_back (fun k => cubicto k a b c) res.
  (** river.cpp:38-40: does nothing *)
  Definition w_arcto (a b : vec2 T) (res : list (path T)) : outcome (list (path T)) := Ok res.

  (** river.cpp:54-59: the four alternatives; None = the alternative fails and
      the input position is restored *)
  Definition p_move (s : list ascii) (res : list (path T))
    : option (list ascii * outcome (list (path T))) :=
    match p_char "m" s with
    | Some r => match p_point r with Some (p, r') => Some (r', w_moveto p res) | None => None end
    | None => None
    end.
  Definition p_line (s : list ascii) (res : list (path T))
    : option (list ascii * outcome (list (path T))) :=
    match p_char "l" s with
    | Some r => match p_point r with Some (p, r') => Some (r', w_lineto p res) | None => None end
    | None => None
    end.
  Definition p_arc (s : list ascii) (res : list (path T))
    : option (list ascii * outcome (list (path T))) :=
    match p_char "a" s with
    | Some r =>
      match p_point r with
      | Some (p, r1) =>
        match p_point r1 with
        | Some (q, r2) => Some (r2, w_arcto p q res)
        | None => None
        end
      | None => None
      end
    | None => None
    end.
  Definition p_cubic (s : list ascii) (res : list (path T))
    : option (list ascii * outcome (list (path T))) :=
    match p_char "c" s with
    | Some r =>
      match p_point r with
      | Some (p, r1) =>
        match p_point r1 with
        | Some (q, r2) =>
          match p_point r2 with
          | Some (e, r3) => Some (r3, w_cubicto p q e res)
          | None => None
          end
        | None => None
        end
      | None => None
      end
    | None => None
    end.
  Definition p_alt (s : list ascii) (res : list (path T)) :=
    match p_move s res with
    | Some x => Some x
    | None =>
      match p_line s res with
      | Some x => Some x
      | None =>
        match p_arc s res with
        | Some x => Some x
        | None => p_cubic s res
        end
      end
    end.

  (** river.cpp:64: the Kleene star; it always succeeds, so res.clear()
      (river.cpp:65) is never reached *)
  Fixpoint p_star (fuel : nat) (s : list ascii) (res : list (path T)) : outcome (list (path T)) :=
    match p_alt s res with
    | None => Ok res
    | Some (s', o) =>
      match fuel with
      | O => NoFuel
      | S fuel => bind o (p_star fuel s')
      end
    end.

  (** river.cpp:63 std::string str(s): reads memory up to the first NUL *)
  Fixpoint c_str (m : list ascii) : outcome (list ascii) :=
    match m with
    | [] => UB OobRead
    | c :: m' => if Ascii.eqb c zero then Ok [] else bind (c_str m') (fun s => Ok (c :: s))
    end.

  (** river.cpp:17-69 [make_path]; [m] is the memory starting at the pointer *)
  Definition make_path (m : list ascii) : outcome (list (path T)) :=
    bind (c_str m) (fun s => p_star (S (length s)) s []).
End MakePath.
