(** Periodic square lattices with twice as many rows or columns. *)
From Coq Require Import List Arith Bool.
From Verif Require Import Base Sums TorusSpec.
Import ListNotations.
Local Open Scope nat_scope.

(** two rows for every row: [(p, false)] above [(p, true)] *)
Definition stack (L : lattice) : lattice :=
  mkLattice (site L * bool) (fun x y => ltac:(decide equality; [apply bool_dec|apply (site_dec L)]))
    (map (fun p => (p, false)) (sites L) ++ map (fun p => (p, true)) (sites L))
    (fun q => (right L (fst q), snd q)) (fun q => (left L (fst q), snd q))
    (fun q => if snd q then (fst q, false) else (up L (fst q), true))
    (fun q => if snd q then (down L (fst q), false) else (fst q, true)).
(** two columns for every column: [(p, false)] to the left of [(p, true)] *)
Definition beside (L : lattice) : lattice :=
  mkLattice (site L * bool) (fun x y => ltac:(decide equality; [apply bool_dec|apply (site_dec L)]))
    (map (fun p => (p, false)) (sites L) ++ map (fun p => (p, true)) (sites L))
    (fun q => if snd q then (right L (fst q), false) else (fst q, true))
    (fun q => if snd q then (fst q, false) else (left L (fst q), true))
    (fun q => (up L (fst q), snd q)) (fun q => (down L (fst q), snd q)).

(** two tensors (legs u, l, d, r) above each other; the legs left are u, the two l, d, the two r *)
Definition pillar {A} `{SR A} (V : nat) (T1 T2 : nat -> nat -> nat -> nat -> A) (u a b d c e : nat) : A := sumN V (fun x => rmul (T1 u a x c) (T2 x b d e)).
