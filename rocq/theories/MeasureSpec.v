(** Vocabulary for the error measures, written without the functions of the
    model (only its type of dtypes is used, in the last two definitions). *)
From Coq Require Import List Arith ZArith Reals.
From Verif Require Import MeasureModel.
Import ListNotations.
Local Open Scope nat_scope.

Definition entries_equal (h w : nat) (a b : nat -> nat -> R) : Prop :=
  forall i j, i < h -> j < w -> a i j = b i j.
Definition is_identity (h w : nat) (a : nat -> nat -> R) : Prop :=
  forall i j, i < h -> j < w -> (i = j -> a i j = 1%R) /\ (i <> j -> a i j = 0%R).
Definition is_zero (h w : nat) (a : nat -> nat -> R) : Prop :=
  forall i j, i < h -> j < w -> a i j = 0%R.
Definition is_diagonal (n : nat) (a : nat -> nat -> R) : Prop :=
  forall i j, i < n -> j < n -> i <> j -> a i j = 0%R.
Definition is_symmetric (n : nat) (a : nat -> nat -> R) : Prop :=
  forall i j, i < n -> j < n -> a i j = a j i.
(** scalar product of columns i and j, over a list of rows *)
Definition column_product (h : nat) (a : nat -> nat -> R) (i j : nat) : R :=
  fold_left Rplus (map (fun k => (a k i * a k j)%R) (seq 0 h)) 0%R.
Definition orthonormal_columns (h w : nat) (a : nat -> nat -> R) : Prop :=
  is_identity w w (column_product h a).
(** sum of the squares of the elements of a - b *)
Definition distance_square (h w : nat) (a b : nat -> nat -> R) : R :=
  fold_left Rplus (map (fun p => ((a (fst p) (snd p) - b (fst p) (snd p)) ^ 2)%R)
                       (list_prod (seq 0 h) (seq 0 w))) 0%R.

(** [b] is a positive multiple of [a] whose largest absolute value is 1 *)
Definition normalized (a b : list R) : Prop :=
  (exists m, (0 < m)%R /\ a = map (fun y => (m * y)%R) b) /\
  (forall y, In y b -> (Rabs y <= 1)%R) /\ (exists y, In y b /\ Rabs y = 1%R).

(** index tuples of an array with n dimensions of size l *)
Definition index_of (n l : nat) (ix : list nat) : Prop := length ix = n /\ Forall (fun i => i < l) ix.
Definition on_diagonal (ix : list nat) : Prop := forall i j, In i ix -> In j ix -> i = j.

(** the float and complex types of numpy, and the bytes of one real component *)
Definition std_types : list dtype :=
  [mk_dtype KFloat 2; mk_dtype KFloat 4; mk_dtype KFloat 8; mk_dtype KFloat 16;
   mk_dtype KComplex 8; mk_dtype KComplex 16; mk_dtype KComplex 32].
Definition component_bytes (d : dtype) : nat :=
  match kind d with KComplex => Nat.div2 (itemsize d) | _ => itemsize d end.
