(** Lattices of triangles.  A lattice has bonds, and two kinds of cells, a and b; every cell has three bonds (its legs 1, 2, 3), and every bond
    joins one cell of either kind. *)
From Coq Require Import List Arith Bool Permutation.
From Verif Require Import Base Sums TorusSpec TrgSpec TriTrgSpec.
Import ListNotations.
Local Open Scope nat_scope.

Inductive leg3 := L1 | L2 | L3.
(** [prevA x] is the bond before [x] in the a-cell of [x] (cyclically, from leg 1 to leg 3); the same for [prevB] *)
Record trilat := mkTrilat { bond3 : Type; bond3_dec : Dec bond3; bonds3 : list bond3; cellsA : list (bond3 * bond3 * bond3); cellsB : list (bond3 * bond3 * bond3);
  prevA : bond3 -> bond3; prevB : bond3 -> bond3 }.
#[global] Existing Instance bond3_dec.
Definition three_of {X} (c : X * X * X) : list X := [fst (fst c); snd (fst c); snd c].
Definition before {X} (prev : X -> X) (c : X * X * X) : Prop := prev (fst (fst c)) = snd c /\ prev (snd (fst c)) = fst (fst c) /\ prev (snd c) = snd (fst c).
Record trilat_ok (L : trilat) : Prop := {
  tl_nodup : NoDup (bonds3 L);
  tl_a : Permutation (flat_map three_of (cellsA L)) (bonds3 L); tl_b : Permutation (flat_map three_of (cellsB L)) (bonds3 L);
  tl_prevA : forall c, In c (cellsA L) -> before (prevA L) c; tl_prevB : forall c, In c (cellsB L) -> before (prevB L) c }.

Section Val.
Context {A : Type} {HA : SR A}.
Local Open Scope sr_scope.
Notation fun3 := (nat -> nat -> nat -> A).
(** the sum over all states of the bonds *)
Definition at_cell {X} (T : fun3) (s : X -> nat) (c : X * X * X) : A := T (s (fst (fst c))) (s (snd (fst c))) (s (snd c)).
Definition lattice_value (L : trilat) (D : nat) (a b : fun3) : A :=
  sum_over (bonds3 L) D (fun s => prodL (cellsA L) (at_cell a s) * prodL (cellsB L) (at_cell b s)) (fun _ => 0%nat).
(** every norm counts three times for every later step *)
Fixpoint norm_product3 (ns : list A) : A := match ns with [] => 1 | n :: ns' => pow n (3 ^ List.length ns') * norm_product3 ns' end.
End Val.

(** two cells joined by three bonds *)
Definition theta_lattice : trilat := mkTrilat leg3 (fun x y => ltac:(decide equality)) [L1; L2; L3] [(L1, L2, L3)] [(L1, L2, L3)]
  (fun x => match x with L1 => L3 | L2 => L1 | L3 => L2 end) (fun x => match x with L1 => L3 | L2 => L1 | L3 => L2 end).
(** the lattice with three times as many cells: two cells for every bond, joined along leg 1; around every old cell the other legs form a triangle *)
Definition trefine (L : trilat) : trilat :=
  mkTrilat (bond3 L * leg3) (fun x y => ltac:(decide equality; [decide equality|apply (bond3_dec L)]))
    (map (fun x => (x, L1)) (bonds3 L) ++ map (fun x => (x, L2)) (bonds3 L) ++ map (fun x => (x, L3)) (bonds3 L))
    (map (fun x => ((x, L1), (x, L2), (x, L3))) (bonds3 L))
    (map (fun x => ((x, L1), (prevA L x, L2), (prevB L x, L3))) (bonds3 L))
    (fun q => match snd q with L1 => (fst q, L3) | L2 => (fst q, L1) | L3 => (fst q, L2) end)
    (fun q => match snd q with L1 => (prevB L (fst q), L3) | L2 => (prevA L (prevA L (fst q)), L1) | L3 => (prevA L (prevB L (prevB L (fst q))), L2) end).
Fixpoint trefined (n : nat) (L : trilat) : trilat := match n with 0 => L | S n' => trefine (trefined n' L) end.
