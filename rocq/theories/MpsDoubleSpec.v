(** Vocabulary of the properties of doubleMerge and mergeMPS. *)
From Coq Require Import List Arith ZArith Permutation.
From Verif Require Import Base Sums NdModel HeapModel TensorModel TensorSpec NetSpec GroupSpec SvdModel SvdSpec MpsSpec MpsContractSpec.
Import ListNotations.
Local Open Scope list_scope.
Local Open Scope nat_scope.

Section Double.
Context {A : Type} {HA : SR A}.
Notation heap := (heap A).

(** [m], [r] by [c], is a product of an [r] by [k] and a [k] by [c] matrix *)
Definition factors (m : arr A) (r c k : nat) : Prop :=
  exists f g : nat -> nat -> A, forall i j, i < r -> j < c -> aget m [i; j] = sumN k (fun x => rmul (f i x) (g x j)).
(** the decomposition has no more singular values above the threshold than any factorisation has terms: their number is the rank *)
Definition svd_rank (lib : linalg A) : Prop :=
  forall m r c k, wfa m -> ashape m = [r; c] -> factors m r c k -> above lib m <= k.

(** no product of dimensions of a first part of [L] or of a last part of [R] exceeds [chi] *)
Definition ends_fit (h : heap) (L R : list lid) (chi : Z) : Prop :=
  forall k, Z.le (Z.of_nat (prodn (map (dim_of h) (firstn k L)))) chi /\ Z.le (Z.of_nat (prodn (map (dim_of h) (skipn k R)))) chi.
(** every bond of a chain is positive *)
Definition bonds_positive (h : heap) (ts : list tid) (rt : nat -> lid) : Prop := forall i, S i < List.length ts -> 0 < dim_of h (rt i).

(** two MPSes after doubleMerge: the neighbouring outgoing legs [x1], [x2] of the first have become [x], the legs [y1], [y2] of the second [y], and the
    bond [bd] between [x] and [y] stands for the two bonds there were.  Bonds are at most [chia], [chib].  A bound on the bonds by the sizes [q] of the
    outgoing legs survives when the new legs are given the products. *)
Record doubled (h : heap) (tsA tsB e : list tid) (XO YO PO QO : list lid) (x1 x2 y1 y2 : lid) (rtA rtB : nat -> lid) (chia chib : Z)
  (h' : heap) (tsA' tsB' : list tid) (x y : lid) (bd : bid) : Prop := {
  db_chains : exists lfA' rtA' lfB' rtB', chain h' tsA' (XO ++ [x] ++ YO) (tsB' ++ e) lfA' rtA' /\ chain h' tsB' (PO ++ [y] ++ QO) (tsA' ++ e) lfB' rtB' /\
    (forall i, S i < List.length tsA' -> Z.le (Z.of_nat (dim_of h' (rtA' i))) chia) /\ (forall i, S i < List.length tsB' -> Z.le (Z.of_nat (dim_of h' (rtB' i))) chib) /\
    forall q q', (forall l, In l ((XO ++ [x1; x2] ++ YO) ++ (PO ++ [y1; y2] ++ QO)) -> dim_of h l <= q l) ->
      (forall l, In l ((XO ++ YO) ++ (PO ++ QO)) -> q l <= q' l) -> q x1 * q x2 <= q' x -> q y1 * q y2 <= q' y ->
      (slim h q (XO ++ [x1; x2] ++ YO) rtA -> slim h' q' (XO ++ [x] ++ YO) rtA') /\ (slim h q (PO ++ [y1; y2] ++ QO) rtB -> slim h' q' (PO ++ [y] ++ QO) rtB');
  db_link : linked h' x y;
  db_bond : bonds h' bd = mkBond x y /\ l_bond (legs h' x) = Some bd;
  db_dim : dim_of h' y = dim_of h' x /\ Z.le (Z.of_nat (dim_of h' x)) (Z.min chia chib);
  db_env : untouched h e h';
  db_kept : kept_legs h h' ((XO ++ YO) ++ (PO ++ QO));
  db_closed : closed h' (tsA' ++ tsB' ++ e);
  db_free : same_free h (tsA ++ tsB ++ e) h' (tsA' ++ tsB' ++ e) }.

(** the network has a nonzero entry *)
Definition alive (h : heap) (ts : list tid) : Prop := exists s, in_bounds h (free_legs h ts) s /\ netval h ts s <> r0.
(** the outgoing legs of a chain have at most the sizes [q], its bonds at most the products of the sizes on either side, and all the sizes together are
    at most [chi] *)
Definition fits (h : heap) (q : lid -> nat) (os : list lid) (rt : nat -> lid) (chi : Z) : Prop :=
  (forall l, In l os -> dim_of h l <= q l) /\ slim h q os rt /\ Z.le (Z.of_nat (prodn (map q os))) chi.
(** two chains in a closed network that is not zero, with room for everything *)
Definition exact_pair (h : heap) (tsA tsB e : list tid) (osA osB : list lid) (q : lid -> nat) (chi : Z) : Prop :=
  closed h (tsA ++ tsB ++ e) /\ alive h (tsA ++ tsB ++ e) /\ (forall l, 1 <= q l) /\
  exists lfA rtA lfB rtB, chain h tsA osA (tsB ++ e) lfA rtA /\ chain h tsB osB (tsA ++ e) lfB rtB /\ fits h q osA rtA chi /\ fits h q osB rtB chi.
(** what merging the bonds of two such chains leaves: the legs [RA], [RB] that took no part, and one bond [bd] between the legs [x] and [y]; nothing else has
    changed, nor has the value *)
Definition merged (h : heap) (tsA tsB e : list tid) (osA osB RA RB : list lid) (q : lid -> nat) (chi : Z)
  (h' : heap) (tsA' tsB' : list tid) (osA' osB' : list lid) (q' : lid -> nat) (x y : lid) (bd : bid) : Prop :=
  exact_pair h' tsA' tsB' e osA' osB' q' chi /\ Permutation osA' (x :: RA) /\ Permutation osB' (y :: RB) /\ linked h' x y /\ l_bond (legs h' x) = Some bd /\
  (forall l, In l (RA ++ RB ++ all_legs h e) -> q' l = q l) /\
  prodn (map q' osA') = prodn (map q osA) /\ prodn (map q' osB') = prodn (map q osB) /\
  untouched h e h' /\ kept_legs h h' (RA ++ RB) /\ same_free h (tsA ++ tsB ++ e) h' (tsA' ++ tsB' ++ e) /\ same_value h (tsA ++ tsB ++ e) h' (tsA' ++ tsB' ++ e).
End Double.
