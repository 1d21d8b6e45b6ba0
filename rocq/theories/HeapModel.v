(** The object heap: legs, bonds and tensors with identities, mutable fields and exceptions. *)
From Coq Require Import List Arith Bool String.
From Verif Require Import Base Sums NdModel.
Import ListNotations.

(** Leg names: Python allows None (the default of Leg.__init__), strings, and, through mergeLink's
    rename-only branch (link.py 96-98), a pair of strings. *)
Inductive pname := NNone | NStr (s : string) | NPair (s1 s2 : string).
#[global] Instance Dec_pname : Dec pname.
Proof. unfold Dec. decide equality; apply string_dec. Defined.

Notation lid := nat (only parsing).    (* identity of a Leg object *)
Notation bid := nat (only parsing).    (* identity of a Bond object *)
Notation tid := nat (only parsing).    (* identity of a Tensor / DiagonalTensor object *)

(** tensor/leg.py 27-31.  Simplification: dimensions are natural numbers (TensorLikes created from labels
    alone have dimension None in Python; that constructor call is outside the model). *)
Record leg := mkLeg { l_tensor : option tid; l_dim : nat; l_name : pname; l_bond : option bid }.

(** tensor/bond.py 27-34 (bond names are never read) *)
Record bond := mkBond { b0 : lid; b1 : lid }.

(** tensor/tensor.py 96-116 and tensor/diagonalTensor.py 398-417.  [t_len] is DiagonalTensor._length
    (unused for dense tensors).  degreeOfFreedom and dtype are not modelled. *)
Record tensor (A : Type) := mkTensor {
  t_legs : list lid; t_arr : option (arr A); t_diag : bool; t_like : bool; t_len : nat;
  t_name : option string }.
Arguments mkTensor {A}. Arguments t_legs {A}. Arguments t_arr {A}. Arguments t_diag {A}.
Arguments t_like {A}. Arguments t_len {A}. Arguments t_name {A}.

(** The heap.  Identities below the counters are allocated.  [rng] is the stream of random numbers
    used for tensors built without data. *)
Record heap (A : Type) := mkHeap {
  legs : nat -> leg; bonds : nat -> bond; tens : nat -> tensor A;
  nleg : nat; nbond : nat; ntens : nat; rng : nat -> A; rpos : nat }.
Arguments mkHeap {A}. Arguments legs {A}. Arguments bonds {A}. Arguments tens {A}.
Arguments nleg {A}. Arguments nbond {A}. Arguments ntens {A}. Arguments rng {A}. Arguments rpos {A}.

Section Heap.
Context {A : Type} {HA : SR A}.

Definition set_leg (h : heap A) (l : lid) (v : leg) : heap A :=
  mkHeap (upd (legs h) l v) (bonds h) (tens h) (nleg h) (nbond h) (ntens h) (rng h) (rpos h).
Definition set_bond (h : heap A) (b : bid) (v : bond) : heap A :=
  mkHeap (legs h) (upd (bonds h) b v) (tens h) (nleg h) (nbond h) (ntens h) (rng h) (rpos h).
Definition set_tens (h : heap A) (t : tid) (v : tensor A) : heap A :=
  mkHeap (legs h) (bonds h) (upd (tens h) t v) (nleg h) (nbond h) (ntens h) (rng h) (rpos h).
Definition alloc_leg (h : heap A) (v : leg) : heap A * lid :=
  (mkHeap (upd (legs h) (nleg h) v) (bonds h) (tens h) (S (nleg h)) (nbond h) (ntens h) (rng h) (rpos h), nleg h).
Definition alloc_bond (h : heap A) (v : bond) : heap A * bid :=
  (mkHeap (legs h) (upd (bonds h) (nbond h) v) (tens h) (nleg h) (S (nbond h)) (ntens h) (rng h) (rpos h), nbond h).
Definition alloc_tens (h : heap A) (v : tensor A) : heap A * tid :=
  (mkHeap (legs h) (bonds h) (upd (tens h) (ntens h) v) (nleg h) (nbond h) (S (ntens h)) (rng h) (rpos h), ntens h).
Definition draw (h : heap A) (n : nat) : heap A * list A :=
  (mkHeap (legs h) (bonds h) (tens h) (nleg h) (nbond h) (ntens h) (rng h) (rpos h + n), map (rng h) (seq (rpos h) n)).

(** State and exceptions; the heap survives an exception, as in Python. *)
Definition M (X : Type) : Type := heap A -> heap A * res X.
Definition ret {X} (x : X) : M X := fun h => (h, Ok x).
Definition raise {X} (e : exn) : M X := fun h => (h, Err e).
Definition bind {X Y} (m : M X) (k : X -> M Y) : M Y :=
  fun h => match m h with
           | (h', Ok x) => k x h'
           | (h', Err e) => (h', Err e)
           end.
Definition reads {X} (f : heap A -> X) : M X := fun h => (h, Ok (f h)).
Definition readsR {X} (f : heap A -> res X) : M X := fun h => (h, f h).
Definition liftR {X} (r : res X) : M X := fun h => (h, r).
Definition modify (f : heap A -> heap A) : M unit := fun h => (f h, Ok tt).
Definition allocs {X} (f : heap A -> heap A * X) : M X := fun h => let '(h', x) := f h in (h', Ok x).
Definition assert (b : bool) : M unit := if b then ret tt else raise AssertionError.
Definition check (b : bool) (e : exn) : M unit := if b then ret tt else raise e.
Fixpoint mapM {X Y} (f : X -> M Y) (l : list X) : M (list Y) :=
  match l with
  | [] => ret []
  | x :: l' => bind (f x) (fun y => bind (mapM f l') (fun ys => ret (y :: ys)))
  end.
Fixpoint iterM {X} (f : X -> M unit) (l : list X) : M unit :=
  match l with
  | [] => ret tt
  | x :: l' => bind (f x) (fun _ => iterM f l')
  end.
End Heap.

Notation "x <- m ;; k" := (bind m (fun x => k)) (at level 100, m at next level, right associativity).
Notation "' p <- m ;; k" := (bind m (fun x => let 'p := x in k))
  (at level 100, p pattern, m at next level, right associativity).
Notation "m ;;; k" := (bind m (fun _ => k)) (at level 100, right associativity).
