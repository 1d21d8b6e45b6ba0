(** Vocabulary for canonical matrix product states. *)
From Coq Require Import List Arith Bool String ZArith Permutation.
From Verif Require Import Base Sums NdModel HeapModel TensorSpec NetSpec GroupSpec SvdModel SvdSpec SchmidtSpec TripleSpec MpsModel MpsSpec.
Import ListNotations.

Section Sp.
Context {A : Type} {HA : SR A}.
Notation heap := (heap A).

(** sum over the indices of the legs [L] *)
Fixpoint sumlegs (d : lid -> nat) (L : list lid) (f : assignment -> A) (s : assignment) : A :=
  match L with
  | [] => f s
  | l :: L' => sumN (d l) (fun i => sumlegs d L' f (upd s l i))
  end.

(** the tensor times its conjugate, summed over all legs except [x], is the identity matrix on [x] *)
Definition isometry (cj : A -> A) (h : heap) (t : tid) (x : lid) : Prop :=
  forall p q s, (p < dim_of h x)%nat -> (q < dim_of h x)%nat ->
    sumlegs (dim_of h) (others (legs_of h t) [x]) (fun a => rmul (entry h t (upd a x p)) (cj (entry h t (upd a x q)))) s =
    if Nat.eqb p q then r1 else r0.

(** all tensors before position i are isometries towards their right neighbour, all tensors after it towards their left neighbour *)
Definition canonical (cj : A -> A) (h : heap) (ts : list tid) (lf rt : nat -> lid) (i : nat) : Prop :=
  (forall j, (j < i)%nat -> isometry cj h (nth j ts 0) (rt j)) /\
  (forall j, (i < j)%nat -> (j < List.length ts)%nat -> isometry cj h (nth j ts 0) (lf j)).

(** the columns of u are orthonormal *)
Definition svd_orthonormal (cj : A -> A) (lib : linalg A) : Prop :=
  forall m r c, wfa m -> ashape m = [r; c] -> forall p q, (p < Nat.min r c)%nat -> (q < Nat.min r c)%nat ->
    sumN r (fun i => rmul (aget (svd_u lib m) [i; p]) (cj (aget (svd_u lib m) [i; q]))) = if Nat.eqb p q then r1 else r0.
(** the decomposition multiplies back to the matrix, and the values below the threshold are zero *)
Definition svd_faithful (lib : linalg A) : Prop :=
  forall m r c, wfa m -> ashape m = [r; c] -> svd_reproduces lib m r c /\ lossless lib m (above lib m).

(** decomposing [ta] and [tb] with the bound [chi] loses nothing *)
Definition nothing_cut (lib : linalg A) (h : heap) (ta tb : tid) (chi : Z) : Prop :=
  let La := restA h ta tb in let Lb := restB h ta tb in
  let r := prodn (map (dim_of h) La) in let c := prodn (map (dim_of h) Lb) in
  forall m, matrix_of h (einsum h ta tb) La Lb m -> svd_reproduces lib m r c /\ lossless lib m (Z.to_nat (kept lib m r c chi)).

(** [chi] has room for every bond of an exact state with these outgoing legs *)
Definition chi_suffices (h : heap) (os : list lid) (i : nat) (chi : Z) : Prop :=
  (forall k, (k <= i)%nat -> Z.le (Z.of_nat (prodn (map (dim_of h) (firstn k os)))) chi) /\
  (forall k, (i < k)%nat -> Z.le (Z.of_nat (prodn (map (dim_of h) (skipn k os)))) chi).

(** the product of the matrix [rl] x [cl] of the tensor with its conjugate transpose *)
Definition overlay (cl : list lid) (a s : assignment) : assignment := fun l => if inb l cl then a l else s l.
Definition gram (cj : A -> A) (h : heap) (t : tid) (rl cl : list lid) (g : arr A) : Prop :=
  let d := map (dim_of h) rl in
  wfa g /\ ashape g = [prodn d; prodn d] /\
  forall s s', in_bounds h rl s -> in_bounds h rl s' ->
    aget g [ravel d (map s rl); ravel d (map s' rl)] =
    sumlegs (dim_of h) cl (fun a => rmul (entry h t a) (cj (entry h t (overlay cl a s')))) s.

(** the test for identity matrices accepts the identity matrices, or accepts exactly these *)
Definition identity_matrix (m : arr A) (d : nat) : Prop := forall p q, (p < d)%nat -> (q < d)%nat -> aget m [p; q] = if Nat.eqb p q then r1 else r0.
Definition accepts_identity (near : arr A -> bool) : Prop := forall m d, wfa m -> ashape m = [d; d] -> identity_matrix m d -> near m = true.
Definition exact_identity (near : arr A -> bool) : Prop := forall m d, wfa m -> ashape m = [d; d] -> (near m = true <-> identity_matrix m d).
End Sp.

(** no step in the list [ps] loses anything *)
Fixpoint uncut_run {A} {HA : SR A} (lib : linalg A) (ps : list (Z * Z)) (m : mps) (h : heap A) : Prop :=
  match ps with
  | [] => True
  | (a, b) :: ps' =>
      nothing_cut lib h (site m a) (site m b) (m_chi m) /\
      forall h' m', canonStep lib a b m h = (h', Ok m') -> uncut_run lib ps' m' h'
  end.
(** the pairs that canonicalize(i) treats one after the other on n tensors: from both ends towards i *)
Definition sweeps (n i : nat) : list (Z * Z) :=
  map (fun k => (k, k + 1)%Z) (rangeUp 0 (Z.of_nat i)) ++ map (fun k => (k, k - 1)%Z) (rangeDown (Z.of_nat n - 1) (Z.of_nat i)).
