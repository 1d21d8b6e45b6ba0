(** Square lattices with open boundary: one tensor per site, all bonds are summed, those at the boundary too.  A tensor is given by its entries as a
    function of the indices of its legs l, r, u, d (in this order). *)
From Coq Require Import List Arith Bool.
From Verif Require Import Base Sums.
Import ListNotations.
Local Open Scope nat_scope.

(** the sum over all functions that give every x in [ls] a number below [dim x]; elsewhere the value is given by [c] *)
Fixpoint sum_all {X A} `{Dec X} `{SR A} (dim : X -> nat) (ls : list X) (f : (X -> nat) -> A) (c : X -> nat) : A :=
  match ls with
  | [] => f c
  | x :: ls' => sumN (dim x) (fun i => sum_all dim ls' f (fun y => if dec y x then i else c y))
  end.

(** [HB j i]: the horizontal bond to the left of site (j, i), or to the right of site (j - 1, i).  [VB j i]: the vertical bond below site (j, i), or above site (j, i - 1) *)
Inductive bond := HB (j i : nat) | VB (j i : nat).
#[global] Instance bond_dec : Dec bond := fun x y => ltac:(decide equality; apply Nat.eq_dec).
Definition pairs (n m : nat) : list (nat * nat) := flat_map (fun j => map (fun i => (j, i)) (seq 0 m)) (seq 0 n).
(** column and row *)
Definition open_sites (L : nat) : list (nat * nat) := pairs L L.
Definition open_bonds (L : nat) : list bond := map (fun p => HB (fst p) (snd p)) (pairs (S L) L) ++ map (fun p => VB (fst p) (snd p)) (pairs L (S L)).
Definition bond_dim (H V : nat) (b : bond) : nat := match b with HB _ _ => H | VB _ _ => V end.

(** site number [k] of [L] belongs to the second half; the middle one does not *)
Definition far (L k : nat) : bool := Nat.ltb L (2 * k + 1).

Section Sp.
Context {A : Type} {HA : SR A}.
Notation fun4 := (nat -> nat -> nat -> nat -> A).
(** the same tensor on every site *)
Definition open_lattice (L H V : nat) (T : fun4) : A :=
  sum_all (bond_dim H V) (open_bonds L) (fun c => prodL (open_sites L) (fun p => let '(j, i) := p in
    T (c (HB j i)) (c (HB (S j) i)) (c (VB j (S i))) (c (VB j i)))) (fun _ => 0).
(** in the right half left and right are exchanged, in the upper half up and down *)
Definition open_mirrored (L H V : nat) (T : fun4) : A :=
  sum_all (bond_dim H V) (open_bonds L) (fun c => prodL (open_sites L) (fun p => let '(j, i) := p in
    let (l, r) := if far L j then (HB (S j) i, HB j i) else (HB j i, HB (S j) i) in
    let (d, u) := if far L i then (VB j (S i), VB j i) else (VB j i, VB j (S i)) in
    T (c l) (c r) (c u) (c d))) (fun _ => 0).
(** mirroring the tensor changes nothing *)
Definition mirror_symmetric (H V : nat) (T : fun4) : Prop := forall l r u d, l < H -> r < H -> u < V -> d < V -> T l r u d = T r l u d /\ T l r u d = T l r d u.
End Sp.
