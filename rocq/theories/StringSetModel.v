(** Model of src/CTL/funcs/stringSet.py and of src/CTL/funcs/funcs.py 312-326 [randomString].

    [rnd k] is what the k-th call of random.choice draws (any number; taken modulo the number of letters).  The state of
    a set object is the Python set (a list without order), the length n (an int, which can become negative) and the
    number of draws made so far.  The loop in newString has fuel; running out of it stands for a call that has not yet
    returned after that many draws. *)
From Coq Require Import List Arith Bool String Ascii ZArith.
From Verif Require Import Base.
Import ListNotations.
Local Open Scope nat_scope.

(** string.ascii_letters *)
Definition asciiLetters : list ascii := list_ascii_of_string "abcdefghijklmnopqrstuvwxyzABCDEFGHIJKLMNOPQRSTUVWXYZ".

(** stringSet.py 21-23: the attributes *)
Record sset := mkSset { ss_set : list string; ss_n : Z; ss_pos : nat }.

Section Source.
Variable rnd : nat -> nat.

(** random.choice(string.ascii_letters), the k-th draw *)
Definition choice (k : nat) : ascii := nth (rnd k mod List.length asciiLetters) asciiLetters "a"%char.
(** funcs.py 326 with n iterations, the first draw being number [pos] *)
Fixpoint randomString (n pos : nat) : string :=
  match n with 0 => EmptyString | S n' => String (choice pos) (randomString n' (S pos)) end.

(** stringSet.py 43-45: range(n) is empty for negative n *)
Fixpoint drawUnused (fuel : nat) (set : list string) (n pos : nat) : res (string * nat) :=
  match fuel with
  | 0 => Err OutOfFuel
  | S fuel' => let s := randomString n pos in
               if inb s set then drawUnused fuel' set n (pos + n) else Ok (s, pos + n)
  end.

(** stringSet.py 21-23 *)
Definition newSet (n : Z) (pos : nat) : sset := mkSset [] n pos.
(** stringSet.py 25-51 *)
Definition newString (fuel : nat) (input : option string) (x : sset) : sset * res string :=
  match input with
  | None => match drawUnused fuel (ss_set x) (Z.to_nat (ss_n x)) (ss_pos x) with
            | Ok (s, p) => (mkSset (s :: ss_set x) (ss_n x) p, Ok s)
            | Err e => (x, Err e)
            end
  | Some s => if inb s (ss_set x) then (x, Err AssertionError)
              else (mkSset (s :: ss_set x) (ss_n x) (ss_pos x), Ok s)
  end.
(** stringSet.py 53-69 *)
Definition addStr (s : string) (x : sset) : sset * res unit :=
  if inb s (ss_set x) then (x, Err AssertionError) else (mkSset (s :: ss_set x) (ss_n x + 1)%Z (ss_pos x), Ok tt).
(** stringSet.py 71-87; the list has no duplicates, so dropping every copy is set.remove *)
Definition removeStr (s : string) (x : sset) : sset * res unit :=
  if inb s (ss_set x) then (mkSset (filter (fun y => negb (if dec y s then true else false)) (ss_set x)) (ss_n x - 1)%Z (ss_pos x), Ok tt)
  else (x, Err AssertionError).
(** stringSet.py 89-102 *)
Definition containsStr (s : string) (x : sset) : bool := inb s (ss_set x).

(** one call in a program using the set; the result is the name handed out by newString, or None *)
Inductive sop := SNew (input : option string) | SAdd (s : string) | SRemove (s : string).
Definition call (fuel : nat) (o : sop) (x : sset) : sset * res (option string) :=
  match o with
  | SNew i => let (x', r) := newString fuel i x in (x', letr s := r in Ok (Some s))
  | SAdd s => let (x', r) := addStr s x in (x', letr _ := r in Ok None)
  | SRemove s => let (x', r) := removeStr s x in (x', letr _ := r in Ok None)
  end.
(** the program goes on after an exception; the trace lists each call with its result, oldest first *)
Fixpoint calls (fuel : nat) (os : list sop) (x : sset) : sset * list (sop * res (option string)) :=
  match os with
  | [] => (x, [])
  | o :: os' => let (x', r) := call fuel o x in let (x'', tr) := calls fuel os' x' in (x'', (o, r) :: tr)
  end.
End Source.
