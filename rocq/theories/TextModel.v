(** Model of the text form of tensor graphs: src/CTL/tensor/contract/tensorGraph.py 421-520.

    Characters are ASCII (str.isupper, islower and isdigit also accept characters outside ASCII).  A leg is its name and its
    dimension, which may be None; the tensors are TensorLikes (tensor.py 1125), so there is no data.  Legs are numbered in
    the order of their creation, and the links are the pairs of legs handed to makeLink.  The prints are left out. *)
From Coq Require Import List Arith Bool String Ascii.
From Verif Require Import Base.
Import ListNotations.
Local Open Scope nat_scope.

(** str.isupper, islower, isdigit of one character; int(c) *)
Definition isupper (c : ascii) : bool := (65 <=? nat_of_ascii c) && (nat_of_ascii c <=? 90).
Definition islower (c : ascii) : bool := (97 <=? nat_of_ascii c) && (nat_of_ascii c <=? 122).
Definition isdigit (c : ascii) : bool := (48 <=? nat_of_ascii c) && (nat_of_ascii c <=? 57).
Definition digitValue (c : ascii) : nat := nat_of_ascii c - 48.
(** str.islower of a string: at least one cased character, and all of them lower case *)
Definition islowerStr (s : string) : bool :=
  existsb islower (list_ascii_of_string s) && negb (existsb isupper (list_ascii_of_string s)).

(** tensorGraph.py 422-428: the local variables *)
Record dstate := mkD { d_name : option string; d_size : option nat; d_nameWait : bool; d_sizeWait : bool;
                       d_legs : list (string * option nat) }.
Definition snoc (s : string) (c : ascii) : string := (s ++ String c EmptyString)%string.
(** tensorGraph.py 430-475: one character *)
Definition decodeChar (st : dstate) (c : ascii) : res dstate :=
  let '(mkD name size nw sw legs) := st in
  if Ascii.eqb c "{" then
    match name with
    | None => Ok (mkD name size true sw legs)
    | Some _ => Ok (mkD name size nw true legs)
    end
  else if Ascii.eqb c "}" then
    if nw then Ok (mkD name size false sw legs)
    else if sw then Ok (mkD None None nw false (legs ++ [(match name with Some n => n | None => EmptyString end, size)]))
    else Err AssertionError
  else match name with
    | None => Ok (mkD (Some (snoc EmptyString c)) size nw sw legs)
    | Some n =>
        if nw then Ok (mkD (Some (snoc n c)) size nw sw legs)
        else if negb (isdigit c) then
          Ok (mkD (Some (snoc EmptyString c)) None (nw || sw) false (legs ++ [(n, size)]))
        else
          let size' := match size with None => digitValue c | Some k => k * 10 + digitValue c end in
          if negb sw then Ok (mkD None None nw sw (legs ++ [(n, Some size')]))
          else Ok (mkD name (Some size') nw sw legs)
    end.
Fixpoint decodeChars (t : string) (st : dstate) : res dstate :=
  match t with EmptyString => Ok st | String c t' => letr st' := decodeChar st c in decodeChars t' st' end.
(** tensorGraph.py 421-481 [decodeSubText]; labels and shape are kept together *)
Definition decodeSubText (t : string) : res (list (string * option nat)) :=
  letr st := decodeChars t (mkD None None false false []) in
  Ok (match d_name st with None => d_legs st | Some n => d_legs st ++ [(n, d_size st)] end).

(** a TensorLike: name and legs *)
Definition ttensor : Type := string * list (string * option nat).
(** tensorGraph.py 483-489 *)
Definition createTensorFromText (t : string) : res ttensor :=
  match t with
  | EmptyString => Err AssertionError
  | String c rest => if isupper c && islowerStr rest then letr ls := decodeSubText rest in Ok (String c EmptyString, ls)
                     else Err AssertionError
  end.

(** tensorGraph.py 496-498: the pieces t[last : i], cut before every upper case letter except at the start *)
Fixpoint cut (acc t : string) : list string :=
  match t with
  | EmptyString => [acc]
  | String c t' => if isupper c then acc :: cut (String c EmptyString) t' else cut (snoc acc c) t'
  end.
Definition pieces (t : string) : list string :=
  match t with EmptyString => [EmptyString] | String c t' => cut (String c EmptyString) t' end.

(** tensorGraph.py 500-504: the dictionary from names to legs, in the order of insertion *)
Fixpoint addLeg (m : list (string * list nat)) (name : string) (i : nat) : list (string * list nat) :=
  match m with
  | [] => [(name, [i])]
  | (n, l) :: m' => if dec n name then (n, l ++ [i]) :: m' else (n, l) :: addLeg m' name i
  end.
Fixpoint legTable (names : list string) (i : nat) (m : list (string * list nat)) : list (string * list nat) :=
  match names with [] => m | n :: names' => legTable names' (S i) (addLeg m n i) end.

(** leg.dim = d *)
Fixpoint setDim (dims : list (option nat)) (i : nat) (d : option nat) : list (option nat) :=
  match dims, i with
  | [], _ => []
  | _ :: dims', 0 => d :: dims'
  | x :: dims', S i' => x :: setDim dims' i' d
  end.
Definition dimOf (dims : list (option nat)) (i : nat) : option nat := nth i dims None.
(** tensorGraph.py 508-517: one name; the assertion of makeLink (link.py 57) compares the dimensions *)
Definition linkName (g : string * list nat) (st : list (option nat) * list (nat * nat)) : res (list (option nat) * list (nat * nat)) :=
  let (dims, links) := st in
  match snd g with
  | [a; b] =>
      let dims' := match dimOf dims a with
                   | None => setDim dims a (dimOf dims b)
                   | Some _ => match dimOf dims b with None => setDim dims b (dimOf dims a) | Some _ => dims end
                   end in
      match dimOf dims' a, dimOf dims' b with
      | Some x, Some y => if Nat.eqb x y then Ok (dims', links ++ [(a, b)]) else Err AssertionError
      | None, None => Ok (dims', links ++ [(a, b)])
      | _, _ => Err AssertionError
      end
  | l => if Nat.leb (List.length l) 2 then Ok (dims, links) else Err AssertionError
  end.
Fixpoint linkNames (m : list (string * list nat)) (st : list (option nat) * list (nat * nat)) : res (list (option nat) * list (nat * nat)) :=
  match m with [] => Ok st | g :: m' => letr st' := linkName g st in linkNames m' st' end.

(** the tensors with the dimensions their legs have at the end *)
Fixpoint withDims (ts : list ttensor) (dims : list (option nat)) : list ttensor :=
  match ts with
  | [] => []
  | (n, ls) :: ts' => (n, combine (map fst ls) (firstn (List.length ls) dims)) :: withDims ts' (skipn (List.length ls) dims)
  end.
(** tensorGraph.py 491-520 [createTensorListFromText] *)
Definition createTensorListFromText (t : string) : res (list ttensor * list (nat * nat)) :=
  letr ts := rmapM createTensorFromText (pieces t) in
  let legs := flat_map snd ts in
  letr st := linkNames (legTable (map fst legs) 0 []) (map snd legs, []) in
  Ok (withDims ts (fst st), snd st).
