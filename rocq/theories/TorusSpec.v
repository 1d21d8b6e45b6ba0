(** Square lattices with periodic boundary, and the sum over all states of one tensor per site.  A tensor is given by its entries as a
    function of the indices of its legs u, l, d, r (in this order). *)
From Coq Require Import List Arith Bool.
From Verif Require Import Base Sums.
Import ListNotations.
Local Open Scope nat_scope.

(** the sum over all functions from the sites in [ls] to the numbers below [n]; other sites keep the value given by [c] *)
Fixpoint sum_over {X A} `{Dec X} `{SR A} (ls : list X) (n : nat) (f : (X -> nat) -> A) (c : X -> nat) : A :=
  match ls with
  | [] => f c
  | x :: ls' => sumN n (fun i => sum_over ls' n f (fun y => if dec y x then i else c y))
  end.

(** sites and the neighbours of a site *)
Record lattice := mkLattice { site : Type; site_dec : Dec site; sites : list site; right : site -> site; left : site -> site; up : site -> site; down : site -> site }.
#[global] Existing Instance site_dec.
(** every site has exactly one neighbour in every direction, and the steps right and down commute: a square lattice, wound up on a torus *)
Record torus (L : lattice) : Prop := {
  to_nodup : NoDup (sites L);
  to_closed : forall x, In x (sites L) -> In (right L x) (sites L) /\ In (left L x) (sites L) /\ In (up L x) (sites L) /\ In (down L x) (sites L);
  to_lr : forall x, In x (sites L) -> left L (right L x) = x /\ right L (left L x) = x;
  to_ud : forall x, In x (sites L) -> up L (down L x) = x /\ down L (up L x) = x;
  to_square : forall x, In x (sites L) -> right L (down L x) = down L (right L x) }.

(** the sum over all states: [h x] is the index on the bond between [x] and its right neighbour, [v x] the one on the bond between [x] and
    its lower neighbour; [H] and [V] are the dimensions of these bonds *)
Definition partition {A} `{SR A} (L : lattice) (H V : nat) (T : site L -> nat -> nat -> nat -> nat -> A) : A :=
  sum_over (sites L) H (fun h => sum_over (sites L) V (fun v =>
    prodL (sites L) (fun x => T x (v (up L x)) (h (left L x)) (v x) (h x))) (fun _ => 0)) (fun _ => 0).

(** the torus of [n] columns and [m] rows; column first *)
Definition grid (n m : nat) : lattice :=
  mkLattice (nat * nat) (fun x y => ltac:(decide equality; apply Nat.eq_dec))
    (flat_map (fun i => map (fun j => (i, j)) (seq 0 m)) (seq 0 n))
    (fun p => ((fst p + 1) mod n, snd p)) (fun p => ((fst p + (n - 1)) mod n, snd p))
    (fun p => (fst p, (snd p + (m - 1)) mod m)) (fun p => (fst p, (snd p + 1) mod m)).

(** the lattice with twice as many sites that TRG starts from: two sites [(p, false)] and [(p, true)] for every site p *)
Definition refine (L : lattice) : lattice :=
  mkLattice (site L * bool) (fun x y => ltac:(decide equality; [apply bool_dec|apply (site_dec L)]))
    (map (fun p => (p, false)) (sites L) ++ map (fun p => (p, true)) (sites L))
    (fun q => if snd q then (down L (right L (fst q)), false) else (fst q, true))
    (fun q => if snd q then (fst q, false) else (left L (up L (fst q)), true))
    (fun q => if snd q then (right L (fst q), false) else (up L (fst q), true))
    (fun q => if snd q then (down L (fst q), false) else (left L (fst q), true)).
Fixpoint refined (n : nat) (L : lattice) : lattice := match n with 0 => L | S n' => refine (refined n' L) end.

(** the same lattice up to the names of the sites *)
Record same_lattice (L1 L2 : lattice) (f : site L1 -> site L2) (g : site L2 -> site L1) : Prop := {
  sl_sites : forall y, In y (sites L2) <-> exists x, In x (sites L1) /\ y = f x;
  sl_inv : forall x, In x (sites L1) -> g (f x) = x;
  sl_right : forall x, In x (sites L1) -> f (right L1 x) = right L2 (f x);
  sl_left : forall x, In x (sites L1) -> f (left L1 x) = left L2 (f x);
  sl_up : forall x, In x (sites L1) -> f (up L1 x) = up L2 (f x);
  sl_down : forall x, In x (sites L1) -> f (down L1 x) = down L2 (f x) }.
