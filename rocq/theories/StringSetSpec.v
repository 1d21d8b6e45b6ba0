(** Vocabulary for StringSet: what a program has seen happen to a name. *)
From Coq Require Import List Arith Bool String Ascii ZArith.
From Verif Require Import Base StringSetModel.
Import ListNotations.
Local Open Scope nat_scope.

Definition event : Type := sop * res (option string).
(** the call put [s] into the set, or took it out *)
Definition puts (e : event) (s : string) : Prop := (exists i, e = (SNew i, Ok (Some s))) \/ e = (SAdd s, Ok None).
Definition takes (e : event) (s : string) : Prop := e = (SRemove s, Ok None).
(** put in by some call and not taken out by a later one *)
Definition in_use (tr : list event) (s : string) : Prop :=
  exists u e v, tr = u ++ e :: v /\ puts e s /\ forall e', In e' v -> ~ takes e' s.
(** successful calls of add and of remove *)
Definition adds (tr : list event) : list event := filter (fun e => match e with (SAdd _, Ok _) => true | _ => false end) tr.
Definition removes (tr : list event) : list event := filter (fun e => match e with (SRemove _, Ok _) => true | _ => false end) tr.
Definition later_length (n0 : Z) (tr : list event) : Z := (n0 + Z.of_nat (List.length (adds tr)) - Z.of_nat (List.length (removes tr)))%Z.

Definition letter (c : ascii) : Prop := (65 <= nat_of_ascii c <= 90 \/ 97 <= nat_of_ascii c <= 122)%nat.
(** the k-th word of length n made of the draws from number [pos] on *)
Definition word (rnd : nat -> nat) (pos n k : nat) : string := string_of_list_ascii (map (fun i => choice rnd (pos + k * n + i)) (seq 0 n)).

(** what a call must answer after the calls [tr]; [pos] is the number of draws made before it.  newString() hands out the first
    word drawn that is not in use; it has not returned after [fuel] words only if all of them are in use. *)
Definition fresh_call (rnd : nat -> nat) (fuel : nat) (n0 : Z) (tr : list event) (pos : nat) (o : sop) (r : res (option string)) : Prop :=
  match o with
  | SNew None => match r with
      | Ok (Some s) => ~ in_use tr s /\ Z.of_nat (String.length s) = Z.max 0 (later_length n0 tr) /\ Forall letter (list_ascii_of_string s) /\
          exists k, s = word rnd pos (Z.to_nat (later_length n0 tr)) k /\ forall j, j < k -> in_use tr (word rnd pos (Z.to_nat (later_length n0 tr)) j)
      | Ok None => False
      | Err e => e = OutOfFuel /\ forall j, j < fuel -> in_use tr (word rnd pos (Z.to_nat (later_length n0 tr)) j)
      end
  | SNew (Some s) => (~ in_use tr s /\ r = Ok (Some s)) \/ (in_use tr s /\ r = Err AssertionError)
  | SAdd s => (~ in_use tr s /\ r = Ok None) \/ (in_use tr s /\ r = Err AssertionError)
  | SRemove s => (in_use tr s /\ r = Ok None) \/ (~ in_use tr s /\ r = Err AssertionError)
  end.
