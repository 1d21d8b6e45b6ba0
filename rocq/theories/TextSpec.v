(** The text form of tensor graphs, as a grammar. *)
From Coq Require Import List Arith Bool String Ascii Decimal DecimalString.
From Verif Require Import Base.
Import ListNotations.
Local Open Scope nat_scope.

Definition lower_letter (c : ascii) : Prop := 97 <= nat_of_ascii c <= 122.
Definition upper_letter (c : ascii) : Prop := 65 <= nat_of_ascii c <= 90.
(** names: a lower case letter, then anything but braces and capitals *)
Definition name_char (c : ascii) : Prop := c <> "{"%char /\ c <> "}"%char /\ ~ upper_letter c.
Inductive good_name : string -> Prop :=
| gn c s : lower_letter c -> Forall name_char (list_ascii_of_string s) -> good_name (String c s).

(** a one-letter name stands as it is, any name may stand in braces *)
Inductive name_text : string -> string -> Prop :=
| nt_letter c : name_text (String c EmptyString) (String c EmptyString)
| nt_braces n : name_text n ("{" ++ n ++ "}").
(** no size, a single digit, or decimal digits in braces *)
Inductive size_text : option nat -> string -> Prop :=
| st_none : size_text None ""
| st_digit u : Decimal.nb_digits u = 1 -> size_text (Some (Nat.of_uint u)) (NilEmpty.string_of_uint u)
| st_braces u : u <> Decimal.Nil -> size_text (Some (Nat.of_uint u)) ("{" ++ NilEmpty.string_of_uint u ++ "}").
Inductive leg_text : string * option nat -> string -> Prop :=
| leg_intro n k tn tk : good_name n -> name_text n tn -> size_text k tk -> leg_text (n, k) (tn ++ tk).
Definition cat (ss : list string) : string := fold_right String.append EmptyString ss.
(** a capital, then at least one leg *)
Inductive tensor_text : string * list (string * option nat) -> string -> Prop :=
| tt_intro c ls tls : upper_letter c -> ls <> [] -> Forall2 leg_text ls tls -> tensor_text (String c EmptyString, ls) (String c (cat tls)).

(** two sizes that can belong to linked legs *)
Definition compatible (a b : option nat) : Prop := match a, b with Some x, Some y => x = y | _, _ => True end.
(** leg number [i] of the description *)
Definition leg_at (ts : list (string * list (string * option nat))) (i : nat) (n : string) (k : option nat) : Prop :=
  nth_error (flat_map snd ts) i = Some (n, k).
(** some name occurs three times, or twice with different sizes *)
Definition ill_linked (ts : list (string * list (string * option nat))) : Prop :=
  (exists i j k n a b c, i < j < k /\ leg_at ts i n a /\ leg_at ts j n b /\ leg_at ts k n c) \/
  (exists i j n a b, i < j /\ leg_at ts i n a /\ leg_at ts j n b /\ ~ compatible a b).
(** the tensors read and the links made: names as described, each size as described or taken from the partner *)
Record read_as (ts ts' : list (string * list (string * option nat))) (links : list (nat * nat)) : Prop := {
  ra_names : map fst ts' = map fst ts;
  ra_labels : map (fun t => map fst (snd t)) ts' = map (fun t => map fst (snd t)) ts;
  ra_links : forall i j, In (i, j) links <-> i < j /\ exists n a b, leg_at ts i n a /\ leg_at ts j n b;
  ra_nodup : NoDup links;
  ra_size : forall i n k, leg_at ts' i n k ->
    leg_at ts i n k \/
    (leg_at ts i n None /\ exists j, j <> i /\ leg_at ts j n k);
  ra_given : forall i n k, leg_at ts i n (Some k) -> leg_at ts' i n (Some k);
  ra_partner : forall i j n k, i <> j -> leg_at ts i n None -> leg_at ts j n (Some k) -> leg_at ts' i n (Some k) }.
