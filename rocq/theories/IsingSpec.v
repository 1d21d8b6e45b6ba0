(** The partition function of the Ising model. *)
From Coq Require Import List Arith Bool Reals.
Import ListNotations.
Local Open Scope R_scope.

(** all spin configurations of [n] sites *)
Fixpoint configs (n : nat) : list (list bool) :=
  match n with O => [[]] | S k => map (cons false) (configs k) ++ map (cons true) (configs k) end.
(** the energy (times -beta) of an edge between equal or different spins *)
Definition bond_energy (c : list bool) (e : nat * nat * R) : R :=
  let '(a, b, w) := e in if Bool.eqb (nth a c false) (nth b c false) then w else - w.
Definition Rsum (l : list R) : R := fold_right Rplus 0 l.
Definition partition (n : nat) (E : list (nat * nat * R)) : R :=
  Rsum (map (fun c => exp (Rsum (map (bond_energy c) E))) (configs n)).

(** the edges join different existing vertices, with couplings that are not negative; every vertex has an edge *)
Record ising_graph (n : nat) (E : list (nat * nat * R)) : Prop := {
  ig_ends : forall a b w, In (a, b, w) E -> (a < n)%nat /\ (b < n)%nat;
  ig_loops : forall a b w, In (a, b, w) E -> a <> b;
  ig_pos : forall a b w, In (a, b, w) E -> 0 <= w;
  ig_deg : forall v, (v < n)%nat -> exists a b w, In (a, b, w) E /\ (v = a \/ v = b) }.

(** an edge of the graph with two ends *)
Definition bond_edge (e : nat * nat * R) : nat * option nat * R := let '(a, b, w) := e in (a, Some b, w).
