(** C01-C05: the path container and its text format. *)
From Coq Require Import ZArith Bool List Ascii String.
From Verif Require Import Outcome Num Rmath Path PathSpec PathProofs.
From Verif Require Import Parse ParseSpec ParseProofs.
Import ListNotations.
Local Open Scope list_scope.

(** C01.  Whatever calls built the path, and whatever the callbacks do, traverse
    is the same as delivering exactly those calls, in order, to the callbacks. *)
Theorem C01_path_roundtrip :
  forall (T : Type) (N : Num T) (S : Type) (fs : funcs T S) (calls : list (pcall T)) (s : S),
  exists evs : list (event T),
    map ev_call evs = calls /\ chained origin evs /\
    traverse (run_calls calls) fs s = deliver fs evs s.
Proof. exact (@C01_any_callback). Qed.
Print Assumptions C01_path_roundtrip.

Theorem C01_path_roundtrip_recorded :
  forall (T : Type) (N : Num T) (calls : list (pcall T)),
  exists evs, traverse (run_calls calls) recorder [] = Ok evs /\ map ev_call evs = calls.
Proof. exact (@C01_lemma). Qed.
Print Assumptions C01_path_roundtrip_recorded.

Theorem C01_move_constructor :
  forall (T : Type) (N : Num T) (p : path T) (S : Type) (fs : funcs T S) (s : S),
    traverse (fst (path_move p)) fs s = traverse p fs s /\
    traverse (snd (path_move p)) fs s = Ok s.
Proof. exact (@C01_move_lemma). Qed.
Print Assumptions C01_move_constructor.

(** A concrete path in binary64 (the numbers 1..10 as doubles). *)
Example C01_case (lm : libm) :
  let n := SFofZ in
  let calls := [PMove (V2 (n 1) (n 2)); PLine (V2 (n 3) (n 4));
                PCubic (V2 (n 5) (n 6)) (V2 (n 7) (n 8)) (V2 (n 9) (n 10))]%Z in
  traverse (N := B64 lm) (run_calls calls) recorder [] =
    Ok [EMove (V2 (n 0) (n 0)) (V2 (n 1) (n 2)); ELine (V2 (n 1) (n 2)) (V2 (n 3) (n 4));
        ECubic (V2 (n 3) (n 4)) (V2 (n 5) (n 6)) (V2 (n 7) (n 8)) (V2 (n 9) (n 10))]%Z.
Proof. vm_compute. reflexivity. Qed.

(** C02.  Start points chain, for any path whatever its arrays hold. *)
Theorem C02_traverse_from :
  forall (T : Type) (N : Num T) (p : path T) (evs : list (event T)),
    traverse p recorder [] = Ok evs -> chained origin evs.
Proof. exact (@C02_chain_lemma). Qed.
Print Assumptions C02_traverse_from.

(** C02.  Null callbacks: only the events of that kind disappear. *)
Theorem C02_null_callbacks :
  forall (T : Type) (N : Num T) (p : path T) (m l c : bool) (S : Type) (fs : funcs T S)
         (s : S) (evs : list (event T)),
    traverse p recorder [] = Ok evs ->
    traverse p (only m l c fs) s = deliver fs (filter (ev_kept m l c) evs) s.
Proof. exact (@C02_null_lemma). Qed.
Print Assumptions C02_null_callbacks.

Example C02_case (lm : libm) :
  let n := SFofZ in
  let p := run_calls [PMove (V2 (n 1) (n 2)); PLine (V2 (n 3) (n 4)); PMove (V2 (n 5) (n 6))]%Z in
  (exists evs, traverse (N := B64 lm) p recorder [] = Ok evs) /\
  traverse (N := B64 lm) p (only false true true recorder) [] =
    Ok [ELine (V2 (n 1) (n 2)) (V2 (n 3) (n 4))]%Z.
Proof. vm_compute. eauto. Qed.

(** C03.  Paths built through the API: undefined behaviour can only come from a
    callback itself. *)
Theorem C03_traverse_safe :
  forall (T : Type) (N : Num T) (calls : list (pcall T)) (S : Type) (fs : funcs T S) (s : S) (w : ub),
    traverse (run_calls calls) fs s = UB w ->
    exists e s', In (ev_call e) calls /\ deliver1 fs e s' = UB w.
Proof. exact (@C03_api_lemma). Qed.
Print Assumptions C03_traverse_safe.

(** C03, converse.  For arbitrary arrays, traverse stays in bounds exactly when
    the coordinate array holds at least the numbers the element types call for. *)
Theorem C03_traverse_bounds :
  forall (T : Type) (N : Num T) (p : path T),
    (exists evs, traverse p recorder [] = Ok evs) <->
    needed (p_types p) <= List.length (p_data p).
Proof. exact (@C03_lemma). Qed.
Print Assumptions C03_traverse_bounds.

Example C03_case (lm : libm) :
  traverse (N := B64 lm) (Path [SFofZ 1; SFofZ 2; SFofZ 3] [0; 1])%Z recorder [] = UB OobRead.
Proof. reflexivity. Qed.

(** C04.  A document is a sequence of commands with arbitrary white space and
    arbitrary decimal (or nan/inf) literals; [conv] is any conversion of
    literals to numbers.  make_path returns one path per move. *)
Theorem C04_make_path_roundtrip :
  forall (T : Type) (conv : literal -> option T) (text : list ascii) (cs : list cmd)
         (trailing junk : list ascii) (calls : list (pcall T)),
    doc_text spaced text cs -> blank trailing -> ~ In zero (text ++ trailing) ->
    doc_calls conv cs = Some calls -> starts_with_move calls ->
    exists cts : list (list (pcall T)), contours calls cts /\
      make_path conv ((text ++ trailing) ++ zero :: junk) = Ok (map run_calls cts).
Proof. exact (@C04_lemma). Qed.
Print Assumptions C04_make_path_roundtrip.

Definition C04_text : list ascii := list_ascii_of_string " m1 -2.5 l .5e3  4".
Definition C04_cmds : list cmd :=
  [CM (Dec false ["1"%char] [] None, Dec true ["2"%char] ["5"%char] None);
   CL (Dec false [] ["5"%char] (Some 3%Z), Dec false ["4"%char] [] None)].
Example C04_case :
  doc_text spaced C04_text C04_cmds /\
  doc_calls Some C04_cmds =
    Some [PMove (V2 (Dec false ["1"%char] [] None) (Dec true ["2"%char] ["5"%char] None));
          PLine (V2 (Dec false [] ["5"%char] (Some 3%Z)) (Dec false ["4"%char] [] None))] /\
  match make_path Some (C04_text ++ [zero]) with Ok [_] => True | _ => False end.
Proof.
  split; [|split; [reflexivity|vm_compute; exact I]].
  Ltac chars := intros ? ?; cbn in *; tauto.
  Ltac fin := first [ solve [chars] | solve [constructor] | discriminate
                    | solve [left; discriminate] | solve [right; discriminate]
                    | solve [constructor; chars] | solve [split; [chars|discriminate]] | idtac ].
  apply (DCons _ (list_ascii_of_string " m1 -2.5") _ (list_ascii_of_string " l .5e3  4")).
  - apply (TM _ [" "%char] (list_ascii_of_string "1 -2.5")); [chars|].
    apply (PtText _ [] ["1"%char] _ [" "%char] (list_ascii_of_string "-2.5")); fin.
    + left. apply (NumText [] false ["1"%char] [] [] [] None); fin.
    + left. apply (NumText ["-"%char] true ["2"%char] ["."; "5"]%char ["5"%char] [] None); fin.
  - apply (DCons _ (list_ascii_of_string " l .5e3  4") _ []); [|constructor].
    apply (TL _ [" "%char] (list_ascii_of_string " .5e3  4")); [chars|].
    apply (PtText _ [" "%char] (list_ascii_of_string ".5e3") _ [" "; " "]%char ["4"%char]); fin.
    + left. apply (NumText [] false [] ["."; "5"]%char ["5"%char] ["e"; "3"]%char (Some 3%Z)); fin.
      apply (ExSome "e"%char [] false ["3"%char] 3); fin; try reflexivity.
      * cbn; auto.
      * split; discriminate.
    + left. apply (NumText [] false ["4"%char] [] [] [] None); fin.
Qed.

(** C05.  Any terminated text: some prefix is a sequence of well-formed
    commands, the result is that of the prefix alone, and what is left over does
    not begin with a command followed by a blank, a command letter or the end.
    If the first drawing command is not a move the behaviour is undefined. *)
Theorem C05_make_path_total :
  forall (T : Type) (conv : literal -> option T) (s junk : list ascii), ~ In zero s ->
    exists pre rest cs (calls : list (pcall T)),
      s = pre ++ rest /\ doc_text blank pre cs /\ doc_calls conv cs = Some calls /\
      ((starts_with_move calls /\
        (exists cts, contours calls cts /\
                     make_path conv (s ++ zero :: junk) = Ok (map run_calls cts)) /\
        (forall t c a r, rest = t ++ r -> cmd_text spaced t c ->
                         cmd_calls conv c = Some a -> ~ stops r))
       \/ (~ starts_with_move calls /\ make_path conv (s ++ zero :: junk) = UB BackOfEmpty)).
Proof. exact (@C05_lemma). Qed.
Print Assumptions C05_make_path_total.

Example C05_case_junk :
  match make_path Some (list_ascii_of_string "m 1 2 a 1 2 3 4 l 5 oops m 1 1" ++ [zero]) with
  | Ok [p] => p_types p = [0%Z]
  | _ => False
  end.
Proof. vm_compute. reflexivity. Qed.
Example C05_case_undefined :
  make_path Some (list_ascii_of_string "l 1 2" ++ [zero]) = UB BackOfEmpty.
Proof. vm_compute. reflexivity. Qed.
