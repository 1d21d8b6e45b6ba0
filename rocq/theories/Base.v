(** Shared vocabulary of the model: exceptions, results, decidable equality,
    commutative semirings of array entries, Python list primitives. *)
From Coq Require Import List Arith Bool Lia ZArith String.
Import ListNotations.

(** Python exceptions raised by the modelled code (classes only, messages are dropped). *)
Inductive exn :=
| AssertionError | ValueError | TypeError | IndexError | AttributeError | KeyError
| ZeroDivisionError | RecursionError
| OutOfFuel. (* not a Python exception: a fuelled loop of the model ran out of fuel *)

(** Result of a call that may raise. *)
Inductive res (A : Type) := Ok (a : A) | Err (e : exn).
Arguments Ok {A} a.
Arguments Err {A} e.

Definition rbind {A B} (x : res A) (f : A -> res B) : res B :=
  match x with Ok a => f a | Err e => Err e end.
Notation "'letr' x ':=' a 'in' b" := (rbind a (fun x => b)) (at level 200, x pattern, right associativity).

Fixpoint rmapM {A B} (f : A -> res B) (l : list A) : res (list B) :=
  match l with
  | [] => Ok []
  | x :: l' => letr y := f x in letr ys := rmapM f l' in Ok (y :: ys)
  end.

Class Dec (A : Type) := dec : forall x y : A, {x = y} + {x <> y}.
#[global] Instance Dec_nat : Dec nat := Nat.eq_dec.
#[global] Instance Dec_Z : Dec Z := Z.eq_dec.
#[global] Instance Dec_string : Dec string := string_dec.
#[global] Instance Dec_bool : Dec bool := Bool.bool_dec.

(** Commutative semirings: the entries of arrays. *)
Class SR (A : Type) := mkSR {
  r0 : A; r1 : A; radd : A -> A -> A; rmul : A -> A -> A;
  radd_0_l : forall x, radd r0 x = x;
  radd_comm : forall x y, radd x y = radd y x;
  radd_assoc : forall x y z, radd x (radd y z) = radd (radd x y) z;
  rmul_1_l : forall x, rmul r1 x = x;
  rmul_0_l : forall x, rmul r0 x = r0;
  rmul_comm : forall x y, rmul x y = rmul y x;
  rmul_assoc : forall x y z, rmul x (rmul y z) = rmul (rmul x y) z;
  rdistr_l : forall x y z, rmul (radd x y) z = radd (rmul x z) (rmul y z) }.

Declare Scope sr_scope.
Delimit Scope sr_scope with sr.
Infix "+" := radd : sr_scope.
Infix "*" := rmul : sr_scope.
Notation "0" := r0 : sr_scope.
Notation "1" := r1 : sr_scope.

#[global] Program Instance SR_Z : SR Z := {| r0 := 0%Z; r1 := 1%Z; radd := Z.add; rmul := Z.mul |}.
Solve Obligations with (intros; ring).

Lemma SR_theory {A} `{SR A} : semi_ring_theory r0 r1 radd rmul (@eq A).
Proof.
  constructor; intros.
  - apply radd_0_l. - apply radd_comm. - apply radd_assoc. - apply rmul_1_l.
  - apply rmul_0_l. - apply rmul_comm. - apply rmul_assoc. - apply rdistr_l.
Qed.

(** ** Python list primitives *)

(** [x in l] *)
Definition inb {A} `{Dec A} (x : A) (l : list A) : bool :=
  existsb (fun y => if dec x y then true else false) l.

(** [l.index(x)]: position of the first occurrence (ValueError when absent is [None]). *)
Fixpoint index_of {A} `{Dec A} (x : A) (l : list A) : option nat :=
  match l with
  | [] => None
  | y :: l' => if dec x y then Some 0 else option_map S (index_of x l')
  end.

(** [l.remove(x)]: drop the first occurrence (ValueError when absent is [None]). *)
Fixpoint remove_one {A} `{Dec A} (x : A) (l : list A) : option (list A) :=
  match l with
  | [] => None
  | y :: l' => if dec x y then Some l' else option_map (cons y) (remove_one x l')
  end.

Fixpoint count {A} `{Dec A} (x : A) (l : list A) : nat :=
  match l with
  | [] => 0
  | y :: l' => (if dec x y then 1 else 0) + count x l'
  end.

(** functional update *)
Definition upd {A} (f : nat -> A) (k : nat) (v : A) : nat -> A :=
  fun x => if Nat.eqb x k then v else f x.

Lemma upd_same {A} (f : nat -> A) k v : upd f k v k = v.
Proof. unfold upd. now rewrite Nat.eqb_refl. Qed.
Lemma upd_other {A} (f : nat -> A) k v x : x <> k -> upd f k v x = f x.
Proof. unfold upd. destruct (Nat.eqb_spec x k); congruence. Qed.

(** [l[k] = v] for k in range *)
Fixpoint set_nth {A} (k : nat) (v : A) (l : list A) : list A :=
  match l, k with
  | [], _ => []
  | _ :: l', O => v :: l'
  | x :: l', S k' => x :: set_nth k' v l'
  end.

Definition prodn (l : list nat) : nat := fold_right Nat.mul 1 l.

#[global] Instance Dec_list {X} `{Dec X} : Dec (list X).
Proof. unfold Dec in *. decide equality. Defined.
