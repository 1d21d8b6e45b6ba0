(** Property theorems for makeRandomMPS (C69). *)
From Coq Require Import List Arith Bool ZArith Lia String.
From Verif Require Import Base Sums NdModel HeapModel TensorModel TensorSpec SvdModel TrgModel TrgSpec MpsModel MpsSpec RandomMpsModel RandomMpsSpec RandomMpsProofs.
Import ListNotations.
Local Open Scope list_scope.
Local Open Scope nat_scope.

(** makeRandomMPS(n, virtualDim, physicalDim, chi) for n > 1: new tensors that form a chain (each linked to the next by one bond, legs named
    "l", "r" and "o") with the required dimensions of the outgoing legs and of the bonds; the axes are ordered outgoing, left, right; the entries are the next random
    numbers, every tensor from its own ones, divided by its norm.  Without chi
    the bound is the dimension of the first bond, a chi below -1 is replaced by -1 with a warning, any other chi is taken as it is.
    Everything that existed before is unchanged. *)
Theorem C69_random : forall A B (num : numerics A B) (h : heap A) n v p chi vd pd, 1 < n -> dims_are v (n - 1) vd -> dims_are p n pd ->
  let c := if Z.eqb chi (-1) then Z.of_nat (nth 0 vd 0) else chi in
  exists h' ts os lf rt, makeRandomMPS num n v p chi h = (h', Ok (mkMps ts (if Z.ltb c (-1) then -1 else c)%Z None, Z.ltb c (-1))) /\
    List.length ts = n /\ chain h' ts os [] lf rt /\
    (forall i, i < n -> dim_of h' (nth i os 0) = nth i pd 0) /\ (forall i, S i < n -> dim_of h' (rt i) = nth i vd 0) /\
    (forall i, i < n -> legs_of h' (nth i ts 0) = nth i os 0 :: opt (Nat.ltb 0 i) (lf i) ++ opt (Nat.ltb (S i) n) (rt i)) /\
    (exists pos : nat -> nat, pos 0 = rpos h /\ forall i, i < n -> pos (S i) = pos i + prodn (dims_of h' (nth i ts 0)) /\ drawn num h (pos i) h' (nth i ts 0)) /\
    (forall t, In t ts -> ntens h <= t) /\ keeps h h'.
Proof. exact @randomMPS_ok. Qed.
Print Assumptions C69_random.

(** With a single tensor, or with a list of dimensions of the wrong length, the call raises and nothing has changed. *)
Theorem C69_raises : forall A B (num : numerics A B) (h : heap A) n v p chi,
  (n <= 1 \/ (forall l, ~ dims_are v (n - 1) l) \/ (forall l, ~ dims_are p n l)) -> makeRandomMPS num n v p chi h = (h, Err AssertionError).
Proof. exact @randomMPS_raises. Qed.
Print Assumptions C69_raises.

(** three tensors with bonds of the dimensions 2 and 3 and outgoing legs of dimension 2; the bound is then 2; two bonds are needed for it *)
Example C69_example : dims_are (DList [2; 3]) (3 - 1) [2; 3] /\ dims_are (DInt 2) 3 [2; 2; 2] /\ (if Z.eqb (-1)%Z (-1)%Z then Z.of_nat (nth 0 [2; 3] 0)%nat else (-1)%Z) = 2%Z.
Proof. repeat split; reflexivity. Qed.
Example C69_raises_example : forall l, ~ dims_are (DList [2; 3; 2]) (3 - 1) l.
Proof. intros l (_ & H). discriminate H. Qed.
