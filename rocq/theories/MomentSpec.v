(** Placing several observables on the sites of a lattice. *)
From Coq Require Import List Arith Bool.
From Verif Require Import Base Sums FuncsSpec TorusSpec TrgSpec.
Import ListNotations.
Local Open Scope nat_scope.

(** all lists of length [n] with entries in [l] *)
Fixpoint words {X} (n : nat) (l : list X) : list (list X) :=
  match n with O => [[]] | S n' => flat_map (fun x => map (cons x) (words n' l)) l end.
(** n as a number of the semiring *)
Fixpoint natA {A} {HA : SR A} (n : nat) : A := match n with O => r0 | S n' => radd r1 (natA n') end.
Section Sp.
Context {A : Type} {HA : SR A}.
Local Open Scope sr_scope.
(** [I j] is the tensor of a site with [j] observables on it.  The sum over all ways to place [i] (numbered) observables on the sites, of the sum over all states *)
Definition placements (L : lattice) (H V : nat) (I : nat -> nat -> nat -> nat -> nat -> A) (i : nat) : A :=
  sumL (words i (sites L)) (fun ps => partition L H V (fun x => I (count x ps))).
(** the sum over all states of the weight times the [i]-th power of the sum of the observable [o] over all sites *)
Definition moment (L : lattice) (H V : nat) (T o : nat -> nat -> nat -> nat -> A) (i : nat) : A :=
  sum_over (sites L) H (fun h => sum_over (sites L) V (fun v =>
    prodL (sites L) (fun x => T (v (up L x)) (h (left L x)) (v x) (h x)) *
    pow (sumL (sites L) (fun x => o (v (up L x)) (h (left L x)) (v x) (h x))) i) (fun _ => 0%nat)) (fun _ => 0%nat).
End Sp.
