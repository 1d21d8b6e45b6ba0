(** Specification vocabulary for the helpers of funcs.py, independent of FuncsModel. *)
From Coq Require Import List Arith ZArith.
From Verif Require Import Base.
Import ListNotations.
Local Open Scope list_scope.
Local Open Scope nat_scope.

Section Lists.
Context {A : Type} {HD : Dec A}.

(** delete, scanning from the left, as many copies of every element as the budget allows *)
Fixpoint drop_budget (b : A -> nat) (l : list A) : list A :=
  match l with
  | [] => []
  | x :: l' => match b x with
               | O => x :: drop_budget b l'
               | S k => drop_budget (fun y => if dec y x then k else b y) l'
               end
  end.

(** position of the k-th occurrence of e (k from 0) *)
Fixpoint nth_occ (e : A) (k : nat) (l : list A) : option nat :=
  match l with
  | [] => None
  | y :: l' => if dec e y then match k with O => Some 0 | S k' => option_map S (nth_occ e k' l') end
               else option_map S (nth_occ e k l')
  end.

(** specification: the k-th request of e resolves to its k-th occurrence; once it is missing
    it stays missing *)
Fixpoint kth_requests (l seen elems : list A) : list (option nat) :=
  match elems with
  | [] => []
  | e :: elems' => nth_occ e (count e seen) l :: kth_requests l (seen ++ [e]) elems'
  end.

End Lists.

(** Pascal's triangle *)
Fixpoint binom (n k : nat) : nat :=
  match n, k with
  | _, O => 1
  | O, S _ => 0
  | S n', S k' => binom n' k' + binom n' k
  end.


Definition zsum (l : list Z) : Z := fold_right Z.add 0%Z l.

(** positional value, least significant digit first *)
Fixpoint posval (D : Z) (ds : list Z) : Z :=
  match ds with [] => 0 | d :: ds' => d + D * posval D ds' end%Z.

(** row-major value of digits for a shape: first digit most significant *)
Fixpoint rmval (shape ds : list Z) : Z :=
  match shape, ds with
  | s :: shape', d :: ds' => (d * fold_right Z.mul 1 shape' + rmval shape' ds')%Z
  | _, _ => 0%Z
  end.

Definition zprod (l : list Z) : Z := fold_right Z.mul 1%Z l.

